(** Cycles of permutations and sorted choices. *)
From Coq Require Import List Arith Bool Lia Permutation Sorted.
From Verif Require Import PermModel PermProofs.
Import ListNotations.

(** each element is mapped to the next one, the last one to [x] *)
Definition path (p : perm) (c : list nat) (x : nat) : Prop :=
  forall k a, nth_error c k = Some a -> get p a = match nth_error c (S k) with Some b => b | None => x end.

Lemma path_app : forall p c x, c <> [] -> path p c x -> path p (c ++ [x]) (get p x).
Proof.
  intros p c x Hc Hp k a Hk. destruct (Nat.lt_trichotomy k (length c)) as [H|[->|H]].
  - rewrite nth_error_app1 in Hk by auto. rewrite (Hp k a Hk).
    destruct (Nat.eq_dec (S k) (length c)) as [E|E].
    + rewrite nth_error_app2 by lia. rewrite E, Nat.sub_diag. simpl. rewrite (proj2 (nth_error_None c (length c))); auto.
    + rewrite nth_error_app1 by lia. destruct (nth_error c (S k)) eqn:En; auto. apply nth_error_None in En. lia.
  - rewrite nth_error_app2, Nat.sub_diag in Hk by lia. simpl in Hk. injection Hk as ->.
    rewrite (proj2 (nth_error_None _ (S (length c)))); auto. rewrite app_length. simpl. lia.
  - assert (k < length (c ++ [x])) by (apply nth_error_Some; congruence). rewrite app_length in H0. simpl in H0. lia.
Qed.

Section Cycles.
Variable p : perm.
Hypothesis Wp : wfp p.
Let n := length (idx_to_val p).

Lemma get_bound : forall i, i < n -> get p i < n.
Proof. intros i H. apply (get_lt p n i Wp); auto. Qed.

(** the entries of [tmp] outside [S] are unchanged *)
Definition tmp_ok (tmp : list (option nat)) (S : list nat) : Prop :=
  length tmp = n /\ forall j, j < n -> ~ In j S -> nth_error tmp j = Some (Some (get p j)).

Lemma cycle_loop_spec : forall fuel tmp S i cyc curr,
  (forall a, In (get p a) S -> In a S) -> ~ In i S ->
  hd_error cyc = Some i -> path p cyc curr -> NoDup cyc -> (forall a, In a cyc -> a < n /\ ~ In a S) ->
  curr < n -> ~ In curr S -> n < fuel + length cyc -> tmp_ok tmp (S ++ tl cyc) ->
  (forall a, In a cyc -> In (get p a) cyc \/ get p a = curr) ->
  (forall a, In a (tl cyc) -> nth_error tmp a = Some None) ->
  exists tmp' rest, cycle_loop fuel tmp i curr cyc = Some (tmp', cyc ++ rest) /\
    path p (cyc ++ rest) i /\ NoDup (cyc ++ rest) /\ (forall a, In a (cyc ++ rest) -> a < n /\ ~ In a S) /\
    tmp_ok tmp' (S ++ tl (cyc ++ rest)) /\
    (forall a, In a (tl (cyc ++ rest)) -> nth_error tmp' a = Some None) /\
    (forall a, nth_error tmp a = Some None -> nth_error tmp' a = Some None).
Proof.
  induction fuel as [|fuel IH]; intros tmp S i cyc curr HS Hi Hhd Hpath Hnd Hb Hc HcS Hf Htmp Hnext Hnone.
  - exfalso. assert (length cyc <= n); [|lia]. rewrite <- (seq_length n 0). apply NoDup_incl_length; auto.
    intros a Ha. apply in_seq. destruct (Hb a Ha). lia.
  - cbn [cycle_loop]. destruct (Nat.eqb_spec curr i) as [->|Hne].
    + exists tmp, []. rewrite app_nil_r. repeat split; auto; try apply Htmp; apply Hb; auto.
    + assert (Hnc : ~ In curr cyc).
      { intros Hin. apply In_nth_error in Hin. destruct Hin as (m & Hm). destruct m as [|m].
        - destruct cyc; simpl in *; congruence.
        - (* the predecessor of curr in the cycle equals the last element *)
          destruct (@exists_last _ cyc) as (l & z & Hz); [destruct cyc; discriminate|].
          assert (Hlast : get p z = curr).
          { rewrite (Hpath (length l) z).
            - rewrite (proj2 (nth_error_None cyc _)); auto. rewrite Hz, app_length. simpl. lia.
            - rewrite Hz, nth_error_app2, Nat.sub_diag by lia. reflexivity. }
          destruct (nth_error cyc m) as [y|] eqn:Ey.
          2:{ apply nth_error_None in Ey. assert (Datatypes.S m < length cyc) by (apply nth_error_Some; congruence). lia. }
          pose proof (Hpath m y Ey) as Q. rewrite Hm in Q. assert (y = z) by (apply (get_inj p); auto; congruence). subst y.
          assert (m = length l).
          { apply (nodup_inj _ cyc m (length l) z Hnd Ey). rewrite Hz, nth_error_app2, Nat.sub_diag by lia. reflexivity. }
          assert (Datatypes.S m < length cyc) by (apply nth_error_Some; congruence). rewrite Hz, app_length in H0. simpl in H0. lia. }
      destruct Htmp as [Hlt Htmp].
      rewrite (Htmp curr Hc).
      2:{ intros Hin. apply in_app_or in Hin. destruct Hin as [?|Hin]; auto. apply Hnc. destruct cyc; simpl in *; auto. }
      destruct (set_nth_some _ tmp curr None) as (tmp1 & -> & Hl1 & Hg1); [lia|].
      assert (Htl : tl (cyc ++ [curr]) = tl cyc ++ [curr]) by (destruct cyc; [discriminate|reflexivity]).
      destruct (IH tmp1 S i (cyc ++ [curr]) (get p curr)) as (tmp' & rest & E & P1 & P2 & P3 & P4 & P5 & P6); auto.
      * destruct cyc; [discriminate|exact Hhd].
      * apply path_app; auto. destruct cyc; discriminate.
      * eapply Permutation_NoDup; [apply Permutation_cons_append|]. constructor; auto.
      * intros a Ha. apply in_app_or in Ha. destruct Ha as [Ha|[<-|[]]]; auto.
      * now apply get_bound.
      * rewrite app_length. simpl. lia.
      * split; [lia|]. intros j Hj Hn. rewrite Hg1. destruct (Nat.eqb_spec j curr) as [->|].
        -- exfalso. apply Hn. rewrite Htl, app_assoc. apply in_or_app. right. simpl. auto.
        -- apply Htmp; auto. intros Hin. apply Hn. rewrite Htl, app_assoc. apply in_or_app. left. auto.
      * intros a Ha. apply in_app_or in Ha. destruct Ha as [Ha|[<-|[]]]; auto. left.
        destruct (Hnext a Ha) as [?| ->]; apply in_or_app; simpl; auto.
      * intros a Ha. rewrite Htl in Ha. rewrite Hg1. destruct (Nat.eqb_spec a curr) as [->|]; auto.
        apply Hnone. apply in_app_or in Ha. destruct Ha as [|[<-|[]]]; auto. congruence.
      * rewrite <- app_assoc in *. simpl in *. exists tmp', (curr :: rest). repeat split; auto; try apply P4; try (apply P3; auto).
        intros a Ha. apply P6. rewrite Hg1. destruct (Nat.eqb_spec a curr); auto.
Qed.

Definition cycle_ok (c : list nat) : Prop := exists x rest, c = x :: rest /\ rest <> [] /\ path p c x.

Lemma cycles_loop_spec : forall m k tmp cycles,
  k + m = n ->
  (forall c, In c cycles -> cycle_ok c) -> NoDup (concat cycles) ->
  (forall a, In a (concat cycles) -> a < n /\ get p a <> a) ->
  (forall a, In (get p a) (concat cycles) <-> In a (concat cycles)) ->
  (forall a, a < k -> get p a <> a -> In a (concat cycles)) ->
  tmp_ok tmp (concat cycles) ->
  (forall a, In a (concat cycles) -> k <= a -> nth_error tmp a = Some None) ->
  exists out, cycles_loop (seq k m) tmp cycles = Some out /\ (forall c, In c out -> cycle_ok c) /\ NoDup (concat out) /\
    (forall a, In a (concat out) <-> get p a <> a).
Proof.
  induction m as [|m IH]; intros k tmp cycles Hk H1 H2 H3 H4 H5 [Hl H6] H7; cbn [seq cycles_loop].
  - exists cycles. repeat split; auto; [apply H3|]. intros Ha. apply H5; auto.
    destruct (Nat.lt_ge_cases a k) as [|Hge]; auto. exfalso. apply Ha. unfold get.
    rewrite (proj2 (nth_error_None (idx_to_val p) a)); auto. fold n. lia.
  - destruct (in_dec Nat.eq_dec k (concat cycles)) as [Hin|Hnin].
    + rewrite (H7 k Hin) by lia. apply IH; auto; [lia| |split; auto|].
      * intros a Ha Hg. destruct (Nat.eq_dec a k) as [->|]; auto. apply H5; auto; lia.
      * intros a Ha Hle. apply H7; auto; lia.
    + rewrite (H6 k) by (auto; lia). destruct (Nat.eqb_spec (get p k) k) as [E|E].
      * apply IH; auto; [lia| |split; auto|].
        -- intros a Ha Hg. destruct (Nat.eq_dec a k) as [->|]; [congruence|]. apply H5; auto; lia.
        -- intros a Ha Hle. apply H7; auto; lia.
      * destruct (cycle_loop_spec (S (length tmp)) tmp (concat cycles) k [k] (get p k)) as (tmp' & rest & Ec & P1 & P2 & P3 & P4 & P5 & P6); auto.
        -- intros a. apply H4.
        -- intros [|j] a Ha; simpl in Ha; [injection Ha as <-; reflexivity|destruct j; discriminate].
        -- constructor; [intros []|constructor].
        -- intros a [<-|[]]. split; auto. lia.
        -- apply get_bound. lia.
        -- intros Hin. apply Hnin. now apply H4.
        -- simpl. lia.
        -- simpl. rewrite app_nil_r. split; auto.
        -- intros a [<-|[]]. auto.
        -- intros a [].
        -- cbn [app] in *. rewrite Ec.
           assert (Hcc : concat (cycles ++ [k :: rest]) = concat cycles ++ (k :: rest)) by (rewrite concat_app; simpl; now rewrite app_nil_r).
           assert (Hrest : rest <> []).
           { intros ->. specialize (P1 0 k eq_refl). simpl in P1. congruence. }
           assert (Hcl : forall a, In a (k :: rest) -> In (get p a) (k :: rest)).
           { intros a Ha. apply In_nth_error in Ha. destruct Ha as (j & Hj). rewrite (P1 j a Hj).
             destruct (nth_error (k :: rest) (S j)) as [b|] eqn:Eb; [eapply nth_error_In; exact Eb|simpl; auto]. }
           assert (Hcl' : forall a, In (get p a) (k :: rest) -> In a (k :: rest)).
           { intros a Ha. apply In_nth_error in Ha. destruct Ha as (j & Hj). destruct j as [|j].
             - simpl in Hj. injection Hj as Hj. destruct (@exists_last _ (k :: rest)) as (l & z & Hz); [discriminate|].
               assert (Q : get p z = k).
               { rewrite (P1 (length l) z); [|rewrite Hz, nth_error_app2, Nat.sub_diag by lia; reflexivity].
                 rewrite (proj2 (nth_error_None (k :: rest) (S (length l)))); auto. rewrite Hz, app_length. simpl. lia. }
               assert (a = z) by (apply (get_inj p); auto; congruence). subst. rewrite Hz. apply in_or_app. simpl. auto.
             - destruct (nth_error (k :: rest) j) as [b|] eqn:Eb.
               + pose proof (P1 j b Eb) as Q. rewrite Hj in Q. assert (a = b) by (apply (get_inj p); auto; congruence). subst. eapply nth_error_In; exact Eb.
               + apply nth_error_None in Eb. assert (S j < length (k :: rest)) by (apply nth_error_Some; congruence). lia. }
           apply IH; [lia| | | | | | |].
           ++ intros c Hc. apply in_app_or in Hc. destruct Hc as [|[<-|[]]]; auto. exists k, rest. auto.
           ++ rewrite Hcc. clear - H2 P2 P3. revert H2 P3. generalize (concat cycles). intros l Hl P3.
              induction l as [|x l IH]; auto. simpl. inversion Hl; subst. constructor.
              ** intros Hin. apply in_app_or in Hin. destruct Hin as [|Hin]; auto. destruct (P3 x Hin) as [_ Hn]. apply Hn. simpl; auto.
              ** apply IH; auto. intros a Ha. destruct (P3 a Ha) as [? Hn]. split; auto. intros ?. apply Hn. simpl; auto.
           ++ rewrite Hcc. intros a Ha. apply in_app_or in Ha. destruct Ha as [|Ha]; auto. split; [apply P3; auto|].
              intros Hfix. apply In_nth_error in Ha. destruct Ha as (j & Hj). pose proof (P1 j a Hj) as Q. rewrite Hfix in Q.
              destruct (nth_error (k :: rest) (S j)) as [b|] eqn:Eb.
              ** subst b. assert (j = S j) by (apply (nodup_inj _ (k :: rest) j (S j) a P2); auto). lia.
              ** subst a. assert (j = 0) by (apply (nodup_inj _ (k :: rest) j 0 k P2); auto). subst j.
                 simpl in Eb. destruct rest; congruence.
           ++ rewrite Hcc. intros a. split; intros Ha; apply in_app_or in Ha; apply in_or_app; destruct Ha as [Ha|Ha];
              try (left; apply H4; exact Ha); right; auto.
           ++ rewrite Hcc. intros a Ha Hg. apply in_or_app. destruct (Nat.eq_dec a k) as [->|]; [right; simpl; auto|]. left. apply H5; auto. lia.
           ++ rewrite Hcc. destruct P4 as [L4 P4]. split; auto. intros j Hj Hn. apply P4; auto.
              intros Hin. apply Hn. apply in_app_or in Hin. apply in_or_app. destruct Hin; auto. right. simpl. auto.
           ++ rewrite Hcc. intros a Ha Hle. apply in_app_or in Ha. destruct Ha as [Ha|[Ha|Ha]].
              ** apply P6. apply H7; auto. lia.
              ** lia.
              ** apply P5. exact Ha.
Qed.

Lemma find_cycles_spec : exists out, find_cycles p = Some out /\ (forall c, In c out -> cycle_ok c) /\ NoDup (concat out) /\
    (forall a, In a (concat out) <-> get p a <> a).
Proof.
  unfold find_cycles. fold n. apply cycles_loop_spec; auto.
  - intros c [].
  - constructor.
  - intros a [].
  - intros a. simpl. tauto.
  - intros a Ha. lia.
  - split; [apply map_length|].
    intros j Hj _. rewrite nth_error_map. unfold get. destruct (nth_error (idx_to_val p) j) eqn:E; auto.
    apply nth_error_None in E. fold n in E. lia.
  - intros a [].
Qed.
End Cycles.

(** ** Sorted choices *)
Section Choice.
Variable A : Type.
Variable eqb : A -> A -> bool.
Hypothesis eqb_eq : forall a b, eqb a b = true <-> a = b.

Lemma insert_map_new : forall m k v, ~ In k (map fst m) -> insert_map m k v = m ++ [(k, v)].
Proof.
  induction m as [|[k' v'] m IH]; intros k v H; simpl in *; auto. destruct (Nat.eqb_spec k' k) as [->|]; [exfalso; auto|]. rewrite IH; auto.
Qed.

Lemma choice_loop_spec : forall (source target : list A) k m,
  incl target source -> NoDup target -> (forall t i, In t target -> position eqb t source = Some i -> ~ In i (map fst m)) ->
  exists m', choice_loop eqb source target k m = Some (m ++ m') /\ length m' = length target /\
    forall j, nth_error m' j = match nth_error target j with
              | Some t => option_map (fun i => (i, k + j)) (position eqb t source) | None => None end.
Proof.
  induction target as [|t target IH]; intros k m Hi Hn Hk; simpl.
  - exists []. rewrite app_nil_r. repeat split; auto. intros [|j]; reflexivity.
  - inversion Hn as [|? ? Ht Hn']; subst.
    pose proof (position_spec A eqb eqb_eq t source) as P. destruct (position eqb t source) as [i|] eqn:Ei.
    2:{ exfalso. apply P, Hi. simpl; auto. }
    rewrite insert_map_new by (eapply Hk; eauto; simpl; auto).
    destruct (IH (S k) (m ++ [(i, k)])) as (m' & -> & Hl & Hm); auto.
    + intros x Hx. apply Hi. simpl; auto.
    + intros t' i' Ht' Ei' Hin. rewrite map_app in Hin. apply in_app_or in Hin. destruct Hin as [Hin|[Hin|[]]].
      * revert Hin. eapply Hk; eauto. simpl; auto.
      * simpl in Hin. subst i'. pose proof (position_spec A eqb eqb_eq t' source) as P'. rewrite Ei' in P'.
        destruct P as [P _], P' as [P' _]. assert (t = t') by congruence. subst. auto.
    + rewrite <- app_assoc. simpl. exists ((i, k) :: m'). split; auto. split; [simpl; lia|].
      intros [|j]; simpl; [rewrite Ei; simpl; do 2 f_equal; lia|]. rewrite Hm.
      destruct (nth_error target j); auto. destruct (position eqb a source); simpl; auto. do 2 f_equal. lia.
Qed.

Lemma transform_loop_spec : forall (m : list (nat * nat)) (v result : list A),
  NoDup (map snd m) -> (forall i x, In (i, x) m -> i < length v /\ x < length result) ->
  exists r, transform_loop m v result = Some r /\ length r = length result /\
    (forall i x, In (i, x) m -> nth_error r x = nth_error v i) /\ (forall x, ~ In x (map snd m) -> nth_error r x = nth_error result x).
Proof.
  induction m as [|[i x] m IH]; intros v result Hn Hb; simpl.
  - eexists. repeat split; auto. intros ? ? [].
  - inversion Hn as [|? ? Hx Hn']; subst. destruct (Hb i x (or_introl eq_refl)) as [B1 B2].
    destruct (nth_error v i) as [y|] eqn:Ey; [|apply nth_error_None in Ey; lia].
    destruct (set_nth_some _ result x y B2) as (res & -> & Hl & Hg).
    destruct (IH v res Hn') as (r & -> & Hlr & R1 & R2); [intros a b Hab; rewrite Hl; apply Hb; simpl; auto|].
    exists r. split; auto. split; [lia|]. split.
    + intros a b [H|H]; auto. injection H as <- <-. rewrite R2 by auto. rewrite Hg, Nat.eqb_refl. auto.
    + intros b Hb'. rewrite R2 by (intros ?; apply Hb'; simpl; auto). rewrite Hg. destruct (Nat.eqb_spec b x) as [->|]; auto.
      exfalso. apply Hb'. simpl; auto.
Qed.

Lemma map_snd_seq : forall (m : list (nat * nat)), (forall j, nth_error (map snd m) j = if j <? length m then Some j else None) -> NoDup (map snd m).
Proof.
  intros m H. apply NoDup_nth_error. intros i j Hi E. rewrite map_length in Hi. rewrite !H in E.
  destruct (Nat.ltb_spec i (length m)), (Nat.ltb_spec j (length m)); try lia; try discriminate. congruence.
Qed.

(** the choice that turns [source] into [target] does so for [source]; it is the identity iff they are equal *)
Lemma choice_transform : forall (source target : list A), NoDup target -> incl target source ->
  exists c, choice_from_transformation eqb source target = Some c /\ transform c source = Some target /\
    (NoDup source -> (choice_is_identity c = true <-> source = target)) /\
    (NoDup source -> exists v, as_vector c = Some v /\ map (fun i => nth_error source i) v = map Some target).
Proof.
  intros source target Hn Hi. unfold choice_from_transformation.
  destruct (choice_loop_spec source target 0 []) as (m & -> & Hl & Hm); auto. simpl.
  assert (Hpos : forall j t, nth_error target j = Some t -> exists i, nth_error m j = Some (i, j) /\ nth_error source i = Some t /\ position eqb t source = Some i).
  { intros j t Ht. rewrite Hm, Ht. pose proof (position_spec A eqb eqb_eq t source) as P.
    destruct (position eqb t source) as [i|]; [exists i; repeat split; auto; apply P|]. exfalso. apply P, Hi. eapply nth_error_In; eauto. }
  assert (Hin : forall i x, In (i, x) m -> exists t, nth_error target x = Some t /\ nth_error source i = Some t /\ nth_error m x = Some (i, x)).
  { intros i x H. apply In_nth_error in H. destruct H as (j & Hj).
    destruct (nth_error target j) as [t|] eqn:Et.
    - destruct (Hpos j t Et) as (i' & E & Es & _). rewrite Hj in E. injection E as <- <-. eauto.
    - rewrite Hm, Et in Hj. discriminate. }
  assert (Hsnd : forall j, nth_error (map snd m) j = if j <? length m then Some j else None).
  { intros j. rewrite nth_error_map, Hl. destruct (Nat.ltb_spec j (length target)) as [H|H].
    - destruct (nth_error target j) as [t|] eqn:Et; [|apply nth_error_None in Et; lia].
      destruct (Hpos j t Et) as (i & -> & _). reflexivity.
    - rewrite Hm. now rewrite (proj2 (nth_error_None target j)). }
  assert (Hns : NoDup (map snd m)) by (apply map_snd_seq; auto).
  assert (Hle : length target <= length source) by (apply NoDup_incl_length; auto).
  exists (mkChoice m (length source)). split; auto. split; [|split].
  - unfold transform. simpl. destruct (transform_loop_spec m source (firstn (length m) source) Hns) as (r & E & Hlr & R & _).
    + intros i x H. destruct (Hin i x H) as (t & Ht & Hs & _). rewrite firstn_length.
      assert (x < length target) by (apply nth_error_Some; congruence).
      split; [apply nth_error_Some; congruence|lia].
    + rewrite E. f_equal. apply nth_error_ext. intros j. destruct (nth_error target j) as [t|] eqn:Et.
      * destruct (Hpos j t Et) as (i & Hj & Hs & _). apply nth_error_In in Hj. rewrite (R i j Hj). auto.
      * apply nth_error_None. apply nth_error_None in Et. rewrite Hlr, firstn_length. lia.
  - intros Hs. unfold choice_is_identity, choice_is_permutation. simpl. rewrite andb_true_iff, Nat.eqb_eq, forallb_forall. split.
    + intros [E H]. symmetry. apply nth_error_ext. intros j. destruct (nth_error target j) as [t|] eqn:Et.
      * destruct (Hpos j t Et) as (i & Hj & Hsi & _). specialize (H _ (nth_error_In _ _ Hj)). simpl in H. apply Nat.eqb_eq in H. subst. auto.
      * symmetry. apply nth_error_None. apply nth_error_None in Et. lia.
    + intros ->. split; [lia|]. intros [i x] H. simpl. apply Nat.eqb_eq. destruct (Hin i x H) as (t & Ht & Hsi & _).
      apply (nodup_inj _ target i x t); auto.
  - intros _. unfold as_vector. simpl.
    assert (F : forall (m0 : list (nat * nat)) v, NoDup (map snd m0) -> (forall i x, In (i, x) m0 -> x < length v) ->
       exists w, fill_inv m0 v = Some w /\ length w = length v /\ (forall i x, In (i, x) m0 -> nth_error w x = Some i) /\
         forall x, ~ In x (map snd m0) -> nth_error w x = nth_error v x).
    { induction m0 as [|[i x] m0 IHm]; intros v Hnm Hb; simpl.
      - exists v. repeat split; auto. intros ? ? [].
      - inversion Hnm as [|? ? Hx Hn']; subst. destruct (set_nth_some _ v x i (Hb i x (or_introl eq_refl))) as (w & -> & Hlw & Hg).
        destruct (IHm w Hn') as (u & -> & Hlu & U1 & U2); [intros a b Hab; rewrite Hlw; eapply Hb; simpl; eauto|].
        exists u. split; auto. split; [lia|]. split.
        + intros a b [H|H]; auto. injection H as <- <-. rewrite U2 by auto. now rewrite Hg, Nat.eqb_refl.
        + intros b Hb'. rewrite U2 by (intros ?; apply Hb'; simpl; auto). rewrite Hg. destruct (Nat.eqb_spec b x) as [->|]; auto.
          exfalso. apply Hb'. simpl; auto. }
    destruct (F m (repeat 0 (length m)) Hns) as (w & E & Hlw & W & _).
    { intros i x H. destruct (Hin i x H) as (t & Ht & _). rewrite repeat_length, Hl. apply nth_error_Some. congruence. }
    exists w. split; auto. apply nth_error_ext. intros j. rewrite !nth_error_map. destruct (nth_error target j) as [t|] eqn:Et.
    + destruct (Hpos j t Et) as (i & Hj & Hsi & _). rewrite (W i j (nth_error_In _ _ Hj)). simpl. now rewrite Hsi.
    + rewrite (proj2 (nth_error_None w j)); auto. rewrite Hlw, repeat_length, Hl. now apply nth_error_None.
Qed.

Lemma choice_chain_get : forall c p i, choice_get (choice_chain c p) i = option_map (get p) (choice_get c i).
Proof.
  intros [m d] p i. unfold choice_get, choice_chain. simpl. induction m as [|[k v] m IH]; simpl; auto.
  destruct (k =? i); auto.
Qed.
End Choice.
