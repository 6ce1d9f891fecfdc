(** Aggregation nodes. *)
From Coq Require Import List Arith ZArith Bool Lia Permutation.
From Verif Require Import TableModel EngineModel EngineSpec EngineProofs1 EngineProofs2 EngineProofs3.
Import ListNotations.

Lemma dedup_acc l : forall acc, exists t,
  fold_left (fun acc v => if memv v acc then acc else acc ++ [v]) l acc = acc ++ t /\
  incl t l /\ (NoDup acc -> NoDup (acc ++ t)) /\ incl l (acc ++ t).
Proof.
  induction l as [|v l IH]; intros acc; simpl.
  - exists []. rewrite app_nil_r. repeat split; auto; intros ? [].
  - destruct (memv v acc) eqn:E.
    + destruct (IH acc) as (t & -> & H1 & H2 & H3). exists t. apply memv_in in E. split; [reflexivity|]. split; [|split]; auto.
      * intros x Hx. right. auto.
      * intros x [<-|Hx]; auto. apply in_app_iff. auto.
    + destruct (IH (acc ++ [v])) as (t & -> & H1 & H2 & H3). apply memv_false in E.
      exists (v :: t). rewrite <- app_assoc in *. simpl in *. split; [reflexivity|]. split; [|split].
      * intros x [<-|Hx]; [left; auto|right; auto].
      * intros Hn. apply H2. apply NoDup_snoc; auto.
      * intros x [<-|Hx]; [apply in_app_iff; simpl; auto|auto].
Qed.

Lemma dedup_id l : forall acc, NoDup (acc ++ l) ->
  fold_left (fun acc v => if memv v acc then acc else acc ++ [v]) l acc = acc ++ l.
Proof.
  induction l as [|v l IH]; intros acc H; simpl; [now rewrite app_nil_r|].
  assert (E : memv v acc = false).
  { apply memv_false. intros Hc. apply NoDup_remove_2 in H. apply H. apply in_app_iff. auto. }
  rewrite E, IH; rewrite <- app_assoc; auto.
Qed.

Lemma dedup_prefix A x B : NoDup A -> ~ In x A ->
  exists B', dedup (A ++ [x] ++ B) = A ++ x :: B' /\ NoDup (A ++ x :: B') /\ incl B' B /\ incl B (A ++ x :: B').
Proof.
  intros Ha Hx. unfold dedup. rewrite app_assoc, fold_left_app.
  assert (Hn : NoDup (A ++ [x])) by now apply NoDup_snoc.
  rewrite (dedup_id (A ++ [x]) []); auto. simpl.
  destruct (dedup_acc B (A ++ [x])) as (t & -> & H1 & H2 & H3).
  exists t. rewrite <- app_assoc in *. simpl in *. specialize (H2 Hn). auto.
Qed.

Lemma firstn_map {A B} (f : A -> B) a b : firstn (length a) (map f (a ++ b)) = map f a.
Proof. rewrite map_app, <- (map_length f a), firstn_app, firstn_all, Nat.sub_diag. simpl. now rewrite app_nil_r. Qed.

Lemma nth_map_at {A} (f : A -> Z) a x b : nth (length a) (map f (a ++ x :: b)) 0%Z = f x.
Proof. rewrite map_app. rewrite app_nth2; rewrite map_length; auto. rewrite Nat.sub_diag. reflexivity. Qed.

(** Which output rows there are. *)
Lemma agg_rows_in k val rows row : In row (agg_rows k val rows) <->
  exists g z, In g (map (firstn k) rows) /\ row = g ++ [z] /\
    val (map (fun r => nth k r 0%Z) (filter (fun r => if row_eq_dec (firstn k r) g then true else false) rows)) = Some z.
Proof.
  unfold agg_rows. rewrite in_flat_map. split.
  - intros (g & Hg & Hi). apply nodup_In in Hg. destruct (val _) as [z|] eqn:E; [|destruct Hi].
    destruct Hi as [<-|[]]. eauto.
  - intros (g & z & Hg & -> & Hv). exists g. rewrite nodup_In. split; auto. rewrite Hv. simpl. auto.
Qed.

(** The value of the aggregate for the group of [nu], over the rows of a node. *)
Definition aggv (n : node) (a : aggregate) (nu : var -> Z) (z : Z) : Prop :=
  exists L, NoDup L /\
    (forall t, In t L <-> exists nu', msat nu' n /\ (forall v, In v (ag_group a) -> nu' v = nu v) /\
                           t = map nu' (ag_in a :: ag_distinct a)) /\
    ag_val a (map (hd 0%Z) L) = Some z.

Lemma NoDup_map_inj {A B} (f : A -> B) l : (forall x y, In x l -> In y l -> f x = f y -> x = y) -> NoDup l -> NoDup (map f l).
Proof.
  induction l as [|x l IH]; simpl; intros Hi Hn; constructor; inversion Hn; subst.
  - intros Hc. apply in_map_iff in Hc. destruct Hc as (y & Hy & Hin). apply H1. rewrite (Hi x y); auto.
  - apply IH; auto.
Qed.

Lemma map_eq_in {A B} (f g : A -> B) l : map f l = map g l <-> forall x, In x l -> f x = g x.
Proof.
  split; [|apply map_ext_in]. induction l as [|y l IH]; simpl; intros H x Hx; [tauto|].
  injection H as H1 H2. destruct Hx as [<-|Hx]; auto.
Qed.

Lemma assigned_once ops l rest v e e' : Permutation ops (l ++ rest) ->
  length (filter (assigns v) ops) <= 1 -> In (OEq v e) l -> In (OEq v e') rest -> False.
Proof.
  intros Hp Hl H1 H2.
  assert (Hf : forall a b, Permutation a b -> length (filter (assigns v) a) = length (filter (assigns v) b)).
  { clear. induction 1; simpl; auto; try congruence.
    - destruct (assigns v x); simpl; congruence.
    - destruct (assigns v x), (assigns v y); simpl; congruence. }
  rewrite (Hf _ _ Hp) in Hl. clear Hf.
  assert (Hc : forall l0 e0, In (OEq v e0) l0 -> 1 <= length (filter (assigns v) l0)).
  { clear. intros l0 e0 H. assert (Hin : In (OEq v e0) (filter (assigns v) l0)).
    { apply filter_In. split; auto. simpl. apply Nat.eqb_refl. }
    destruct (filter (assigns v) l0); [destruct Hin|simpl; lia]. }
  specialize (Hc l e H1) as Ha. specialize (Hc rest e' H2) as Hb.
  assert (Happ : length (filter (assigns v) (l ++ rest)) = length (filter (assigns v) l) + length (filter (assigns v) rest)).
  { clear. induction l as [|x l IH]; simpl; auto. destruct (assigns v x); simpl; lia. }
  lia.
Qed.

Theorem agg_node_spec n a ops n' : wfn n -> ~ In (ag_in a) (ag_group a) ->
  In (ag_in a) (nvars n) -> incl (ag_group a) (nvars n) -> incl (ag_distinct a) (nvars n) -> ~ In (ag_out a) (nvars n) ->
  (forall l l', Permutation l l' -> ag_val a l = ag_val a l') ->
  (forall o, In o ops -> exists v e, o = OEq v e /\ ~ In v (nvars n) /\ v <> ag_out a /\
      incl (e_vars e) (ag_out a :: ag_group a) /\ length (filter (assigns v) ops) <= 1) ->
  agg_node n a ops = Some n' ->
  wfn n' /\ forall mu, msat mu n' <-> exists nu z, msat nu n /\ aggv n a nu z /\
     (forall v, In v (ag_group a) -> mu v = nu v) /\ mu (ag_out a) = z /\ forall o, In o ops -> holds mu o.
Proof.
  intros Hw Hig Hin Hg Hd Ho Hperm Hops H. unfold agg_node in H.
  set (A := filter (fun v => memv v (ag_group a)) (nvars n)) in *.
  assert (HA : forall v, In v A <-> In v (ag_group a)).
  { intros v. unfold A. rewrite filter_In, memv_in. split; [tauto|]. auto. }
  assert (HAn : NoDup A) by (apply NoDup_filter, Hw).
  assert (HxA : ~ In (ag_in a) A) by (rewrite HA; auto).
  destruct (dedup_prefix A (ag_in a) (filter (fun v => memv v (ag_distinct a)) (nvars n)) HAn HxA) as (B & EB & NB & IB1 & IB2).
  assert (Eiv : agg_input_vars (nvars n) a = A ++ ag_in a :: B) by exact EB. rewrite Eiv in H.
  assert (Eov : agg_output_vars (nvars n) a = A ++ [ag_out a]).
  { unfold agg_output_vars. fold A. unfold dedup. rewrite (dedup_id _ []); auto. apply NoDup_snoc; auto.
    rewrite HA. intros Hc. apply Ho. auto. }
  rewrite Eov in H.
  destruct (project (A ++ ag_in a :: B) n) as [i|] eqn:Ep; [|discriminate].
  destruct (project_spec _ _ _ Ep Hw NB) as (I1 & I2 & I3 & I4).
  assert (Inod : NoDup (nrows i)).
  { unfold project in Ep. destruct (inclb _ _); [|discriminate]. injection Ep as <-. simpl. apply NoDup_nodup. }
  destruct (gen_function_spec (A ++ [ag_out a]) ops) as (vs & fns & rest & Eg & G1 & G2 & G3 & G4).
  rewrite Eg in H. injection H as <-.
  (* all left-over operations are assignments of the function generator *)
  assert (Hrest : rest = []).
  { destruct rest as [|o rest]; auto. exfalso.
    assert (Hin' : In o ops) by (apply (Permutation_in _ (Permutation_sym G3)), in_app_iff; simpl; auto).
    destruct (Hops o Hin') as (v & e & -> & H1 & H2 & H3 & H4).
    destruct (G4 v e (or_introl eq_refl)) as [Hv|Hv].
    - rewrite G1 in Hv. apply in_app_iff in Hv. destruct Hv as [Hv|Hv].
      + apply in_app_iff in Hv. destruct Hv as [Hv|[Hv|[]]]; auto. apply HA in Hv. apply H1. auto.
      + apply in_map_iff in Hv. destruct Hv as ([v' e'] & Hv' & Hf). simpl in Hv'. subst v'.
        apply (assigned_once ops (map to_op fns) (OEq v e :: rest) v e' e G3 H4).
        * apply in_map_iff. exists (v, e'). auto.
        * simpl. auto.
    - apply Hv. intros w Hw'. rewrite G1. apply in_app_iff. left. apply in_app_iff.
      destruct (H3 w Hw') as [<-|Hx]; [right; simpl; auto|left; now apply HA]. }
  subst rest. rewrite app_nil_r in G3.
  set (rows := agg_rows (length A) (ag_val a) (nrows i)).
  assert (Hwr : wfn (mkNode (A ++ [ag_out a]) rows)).
  { constructor; simpl.
    - apply NoDup_snoc; auto. rewrite HA. intros Hc. apply Ho. auto.
    - intros r Hr. apply agg_rows_in in Hr. destruct Hr as (g & z & Hg' & -> & _).
      apply in_map_iff in Hg'. destruct Hg' as (x & <- & Hx). rewrite !app_length, firstn_length. simpl.
      rewrite (wfn_len i I2 x Hx), I1, app_length. simpl. lia. }
  destruct (fun_node_spec fns (A ++ [ag_out a]) rows Hwr G2) as (F1 & F2 & F3).
  split; auto. intros mu. rewrite F3.
  (* rows of the group *)
  set (grp := filter (fun r => if row_eq_dec (firstn (length A) r) (map mu A) then true else false) (nrows i)).
  set (tup := fun r : row => map (val_of (nvars i) r) (ag_in a :: ag_distinct a)).
  assert (Hgrp : forall r, In r grp <-> exists nu', msat nu' n /\ (forall v, In v (ag_group a) -> nu' v = mu v) /\
              r = map nu' (A ++ ag_in a :: B)).
  { intros r. unfold grp. rewrite filter_In. split.
    - intros [Hr Hf]. destruct (row_eq_dec _ _) as [Hf'|]; [|discriminate]. clear Hf.
      apply (nrows_msat i r I2) in Hr. destruct Hr as (nu0 & Hm & ->). rewrite I1 in Hf' |- *.
      apply I4 in Hm. destruct Hm as (nu' & Hag & Hm). exists nu'. split; auto. split.
      + intros v Hv. apply HA in Hv. rewrite Hag by (apply in_app_iff; auto).
        rewrite firstn_map in Hf'. apply (proj1 (map_eq_in nu0 mu A) Hf'). auto.
      + symmetry. apply map_ext_in. auto.
    - intros (nu' & Hm & Hag & ->). split.
      + assert (Hmi : msat nu' i) by (apply I4; exists nu'; auto). unfold msat in Hmi. now rewrite I1 in Hmi.
      + rewrite firstn_map. destruct (row_eq_dec _ _) as [|Hne]; auto. exfalso. apply Hne. apply map_ext_in.
        intros v Hv. apply Hag. now apply HA. }
  assert (Hdist : forall v, In v (ag_distinct a) -> In v (A ++ ag_in a :: B)).
  { intros v Hv. apply IB2. apply filter_In. split; auto. now apply memv_in. }
  assert (Htup : forall nu', tup (map nu' (A ++ ag_in a :: B)) = map nu' (ag_in a :: ag_distinct a)).
  { intros nu'. unfold tup. rewrite I1. apply map_ext_in. intros v Hv. apply val_of_in.
    destruct Hv as [<-|Hv]; auto. apply in_app_iff. simpl. auto. }
  assert (HL : NoDup (map tup grp)).
  { apply NoDup_map_inj; [|apply NoDup_filter; auto]. intros x y Hx Hy He.
    apply Hgrp in Hx. apply Hgrp in Hy. destruct Hx as (n1 & _ & A1 & ->). destruct Hy as (n2 & _ & A2 & ->).
    rewrite !Htup in He. pose proof (proj1 (map_eq_in n1 n2 _) He) as He'. clear He. rename He' into He. apply map_ext_in. intros v Hv. apply in_app_iff in Hv.
    destruct Hv as [Hv|[<-|Hv]].
    - apply HA in Hv. rewrite A1, A2; auto.
    - apply He. simpl. auto.
    - apply He. simpl. right. apply IB1 in Hv. apply filter_In in Hv. now apply memv_in. }
  assert (Hhd : map (hd 0%Z) (map tup grp) = map (fun r => nth (length A) r 0%Z) grp).
  { rewrite map_map. apply map_ext_in. intros r Hr. apply Hgrp in Hr. destruct Hr as (nu' & _ & _ & ->).
    rewrite Htup, nth_map_at. reflexivity. }
  assert (HLin : forall t, In t (map tup grp) <-> exists nu', msat nu' n /\ (forall v, In v (ag_group a) -> nu' v = mu v) /\
                           t = map nu' (ag_in a :: ag_distinct a)).
  { intros t. rewrite in_map_iff. split.
    - intros (r & <- & Hr). apply Hgrp in Hr. destruct Hr as (nu' & H1 & H2 & ->). exists nu'. rewrite Htup. auto.
    - intros (nu' & H1 & H2 & ->). exists (map nu' (A ++ ag_in a :: B)). rewrite Htup. split; auto. apply Hgrp. eauto. }
  assert (Hfn : (forall v e, In (v, e) fns -> eval_expr mu e = Some (mu v)) <-> forall o, In o ops -> holds mu o).
  { split.
    - intros Hf o Ho'. apply (Permutation_in _ G3), in_map_iff in Ho'. destruct Ho' as ([v e] & <- & Hi). simpl. auto.
    - intros Hf v e Hi. apply (Hf (OEq v e)). apply (Permutation_in _ (Permutation_sym G3)), in_map_iff. exists (v, e). auto. }
  rewrite Hfn. unfold msat at 1. simpl. rewrite map_app. simpl. unfold rows. rewrite agg_rows_in. split.
  - intros [(g & z & Hgi & Heq & Hv) Hf].
    assert (Hlen : length (map mu A) = length g).
    { apply in_map_iff in Hgi. destruct Hgi as (x & <- & Hx). rewrite map_length, firstn_length, (wfn_len i I2 x Hx), I1, app_length.
      lia. }
    destruct (app_len_inj _ _ _ _ Hlen Heq) as [<- Hz]. injection Hz as Hz.
    fold grp in Hv. rewrite <- Hhd in Hv.
    apply in_map_iff in Hgi. destruct Hgi as (x & Hx & Hxi).
    assert (Hxg : In x grp). { unfold grp. apply filter_In. split; auto. rewrite Hx. destruct (row_eq_dec _ _); tauto. }
    apply Hgrp in Hxg. destruct Hxg as (nu & Hn1 & Hn2 & ->).
    exists nu, z. repeat split; auto.
    + exists (map tup grp). split; auto. split; auto. intros t. rewrite HLin. split; intros (nu' & H1 & H2 & H3); exists nu'; repeat split; auto.
      * intros v Hv'. rewrite H2, Hn2; auto.
      * intros v Hv'. rewrite H2, Hn2; auto.
    + intros v Hv'. rewrite Hn2; auto.
  - intros (nu & z & Hn1 & (L & L1 & L2 & L3) & Hag & Hz & Hf). split; auto.
    exists (map mu A), z. split; [|split].
    + apply in_map_iff. exists (map nu (A ++ ag_in a :: B)). rewrite firstn_map. split.
      * apply map_ext_in. intros v Hv. symmetry. apply Hag. now apply HA.
      * assert (Hmi : msat nu i) by (apply I4; exists nu; auto). unfold msat in Hmi. now rewrite I1 in Hmi.
    + now rewrite Hz.
    + fold grp. rewrite <- Hhd, <- L3. apply Hperm. apply Permutation_map. apply NoDup_Permutation; auto.
      intros t. rewrite HLin, L2. split; intros (nu' & H1 & H2 & H3); exists nu'; repeat split; auto.
      * intros v Hv'. rewrite H2, Hag; auto.
      * intros v Hv'. rewrite H2, <- Hag; auto.
Qed.
