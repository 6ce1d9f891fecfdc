(* The union of tries explores the union of the trees. *)
From Coq Require Import List ZArith Bool Lia Arith Sorted.
From Verif Require Import ColumnModel ColumnSpec ColumnProofs ScanModel ScanSpec ScanProofs ScanProofs3 TrieModel TrieScanSpec OpModel OpProofs1 OpProofs2.
Import ListNotations.
Local Open Scope nat_scope.

(* ---------- trees ---------- *)

Lemma in_tree_app : forall tau r p q, in_tree tau p (q ++ r) <-> in_tree tau p q /\ in_tree tau (p ++ q) r.
Proof.
  intros tau r p q. revert p. induction q as [|v q IH]; intros p; cbn [app in_tree].
  - rewrite app_nil_r. tauto.
  - rewrite IH, <- app_assoc. cbn [app]. tauto.
Qed.
Fixpoint in_treeb (tau : tree) (p r : row) : bool :=
  match r with
  | [] => true
  | v :: r' => existsb (Z.eqb (snd v)) (tau p (fst v)) && in_treeb tau (p ++ [v]) r'
  end.
Lemma in_treeb_ok : forall tau r p, in_treeb tau p r = true <-> in_tree tau p r.
Proof.
  intros tau. induction r as [|v r IH]; intros p; cbn; [tauto|]. rewrite andb_true_iff, IH, existsb_exists. split; intros [H1 H2]; (split; [|exact H2]).
  - destruct H1 as (x & Hx & E). apply Z.eqb_eq in E. subst. exact Hx.
  - exists (snd v). split; [exact H1|apply Z.eqb_refl].
Qed.

(* sorted lists without duplicates *)
Fixpoint insert (x : Z) (l : list Z) : list Z :=
  match l with
  | [] => [x]
  | y :: l' => if (x <? y)%Z then x :: l else if (x =? y)%Z then l else y :: insert x l'
  end.
Lemma insert_In : forall x l y, In y (insert x l) <-> y = x \/ In y l.
Proof.
  intros x. induction l as [|a l IH]; intros y; cbn [insert]; [cbn; intuition congruence|]. destruct (Z.ltb_spec x a); [cbn; intuition congruence|].
  destruct (Z.eqb_spec x a) as [->|]; [cbn; intuition congruence|]. cbn. rewrite IH. tauto.
Qed.
Lemma insert_increasing : forall x l, increasing l -> increasing (insert x l).
Proof.
  intros x. induction l as [|a l IH]; intros H; cbn [insert]; [apply increasing_cons; split; [constructor|intros y []]|].
  pose proof H as H0. apply increasing_cons in H. destruct H as [H1 H2]. destruct (Z.ltb_spec x a).
  - apply increasing_cons. split; [exact H0|]. intros y [<-|Hy]; [assumption|]. specialize (H2 y Hy). lia.
  - destruct (Z.eqb_spec x a); [exact H0|]. apply increasing_cons. split; [apply IH, H1|]. intros y Hy. apply insert_In in Hy. destruct Hy as [->|Hy]; [lia|apply H2, Hy].
Qed.
Definition merge (ls : list (list Z)) : list Z := fold_right insert [] (concat ls).
Lemma merge_In : forall ls x, In x (merge ls) <-> exists l, In l ls /\ In x l.
Proof.
  intros ls x. unfold merge. rewrite <- in_concat. induction (concat ls) as [|a l IH]; cbn; [tauto|]. rewrite insert_In, IH. intuition congruence.
Qed.
Lemma merge_increasing : forall ls, increasing (merge ls).
Proof. intros ls. unfold merge. induction (concat ls) as [|a l IH]; cbn; [constructor|]. apply insert_increasing, IH. Qed.

(* ---------- layers with the frames below ---------- *)

Fixpoint layersp (ok : list frame -> frame -> part -> Prop) (pre fs : list frame) (st : list part) : Prop :=
  match fs, st with
  | [], [] => True
  | f :: fs', p :: st' => ok pre f p /\ layersp ok (pre ++ [f]) fs' st'
  | _, _ => False
  end.
Lemma layersp_length : forall ok fs pre st, layersp ok pre fs st -> length st = length fs.
Proof. intros ok. induction fs as [|f fs IH]; intros pre [|p st] H; cbn in *; try tauto. f_equal. eapply IH, H. Qed.
Lemma layersp_snoc : forall ok fs pre st f p, layersp ok pre fs st -> ok (pre ++ fs) f p -> layersp ok pre (fs ++ [f]) (st ++ [p]).
Proof.
  intros ok. induction fs as [|g fs IH]; intros pre [|q st] f p H Hok; cbn in *; try tauto.
  - rewrite app_nil_r in Hok. auto.
  - split; [apply H|]. apply IH; [apply H|]. rewrite <- app_assoc. exact Hok.
Qed.
Lemma layersp_unsnoc : forall ok fs pre st f, layersp ok pre (fs ++ [f]) st -> exists st' p, st = st' ++ [p] /\ layersp ok pre fs st' /\ ok (pre ++ fs) f p.
Proof.
  intros ok. induction fs as [|g fs IH]; intros pre st f H.
  - destruct st as [|p [|q st]]; cbn in H; try tauto. exists [], p. cbn. rewrite app_nil_r. tauto.
  - destruct st as [|p st]; cbn in H; [tauto|]. destruct H as [H1 H2]. destruct (IH _ _ _ H2) as (st' & q & -> & H3 & H4).
    exists (p :: st'), q. split; [reflexivity|]. cbn [layersp]. split; [auto|]. rewrite <- app_assoc in H4. exact H4.
Qed.
Lemma layersp_weaken : forall (ok ok' : list frame -> frame -> part -> Prop) fs pre st,
  (forall pre' f p, length pre <= length pre' -> length pre' < length pre + length fs -> ok pre' f p -> ok' pre' f p) -> layersp ok pre fs st -> layersp ok' pre fs st.
Proof.
  intros ok ok'. induction fs as [|f fs IH]; intros pre [|p st] H HL; cbn in *; try tauto. split; [apply H; [lia|lia|apply HL]|].
  apply IH; [|apply HL]. intros pre' g q H1 H2. rewrite app_length in H1, H2. cbn in H1, H2. apply H; lia.
Qed.
Lemma layersp_mid : forall ok fs pre st f gs, layersp ok pre (fs ++ f :: gs) st -> exists p, ok (pre ++ fs) f p.
Proof.
  intros ok. induction fs as [|g fs IH]; intros pre st f gs H; destruct st as [|p st]; cbn in H; try tauto.
  - exists p. rewrite app_nil_r. apply H.
  - destruct H as [_ H]. destruct (IH _ _ _ _ H) as [q Hq]. exists q. rewrite <- app_assoc in Hq. exact Hq.
Qed.
Lemma ctx_length_le : forall i st, length (ctx i st) <= length st.
Proof.
  intros i st. induction st as [|p st IH]; [cbn; lia|]. change (ctx i (p :: st)) with (part_frame i p ++ ctx i st). rewrite app_length. cbn [length].
  unfold part_frame. destruct (snd p i) as [[c l]|]; cbn [length]; lia.
Qed.

(* ---------- the union keeps the numbers of its scans, and the scans that are not active ---------- *)

Section Keeps.
Variable sc : scanner.
Variable A : Type.
Variable g : state sc -> A.
Hypothesis Hg : forall q fuel s s' o, ask sc q fuel s = Ok (s', o) -> g s' = g s.
Lemma union_loop_keeps : forall (visit : state sc -> res (state sc * option Z)) active scans smallest next scans' sm' nx',
  (forall s s' o, visit s = Ok (s', o) -> g s' = g s) ->
  union_loop sc visit active scans smallest next = Ok (scans', sm', nx') ->
  map g scans' = map g scans /\ forall i, ~ In i active -> nth_error scans' i = nth_error scans i.
Proof.
  intros visit. induction active as [|i active IH]; intros scans smallest next scans' sm' nx' Hv H; cbn [union_loop] in H.
  - injection H as <- <- <-. auto.
  - destruct (index scans i) as [s| |] eqn:Ei; cbn [bind] in H; try discriminate. destruct (visit s) as [[s' o]| |] eqn:Ev; cbn [bind fst snd] in H; try discriminate.
    match type of H with (let '(_, _) := ?x in _) = _ => destruct x as [nx sm] end.
    apply IH in H; [|exact Hv]. destruct H as [H1 H2]. split.
    + rewrite H1. apply map_set_nth. intros y Hy. apply index_nth in Ei. rewrite (Hv _ _ _ Ev). congruence.
    + intros j Hj. rewrite H2 by (intros Hj'; apply Hj; right; exact Hj'). apply set_nth_other. intros ->. apply Hj. left. reflexivity.
Qed.
Lemma union_keeps : forall q fuel u u' o, ask (union_scanner sc) q fuel u = Ok (u', o) ->
  map g (u_scans _ u') = map g (u_scans _ u) /\ u_active _ u' = u_active _ u /\ forall i, ~ In i (u_active _ u) -> nth_error (u_scans _ u') i = nth_error (u_scans _ u) i.
Proof.
  intros q fuel u u' o H.
  assert (G : exists visit, (forall s s' o, visit s = Ok (s', o) -> g s' = g s) /\ union_with sc visit u = Ok (u', o)).
  { destruct q as [|v]; cbn in H.
    - eexists. split; [|exact H]. intros s s' o' Hs. cbn beta in Hs. destruct (s_current sc s) as [c| |]; cbn [bind] in Hs; try discriminate.
      destruct (opt_eqb c (u_value _ u)); [apply (Hg RNext fuel _ _ _ Hs)|congruence].
    - eexists. split; [|exact H]. intros s s' o' Hs. apply (Hg (RSeek v) fuel _ _ _ Hs). }
  destruct G as (visit & Hv & G). unfold union_with in G. destruct (union_loop sc visit (u_active _ u) (u_scans _ u) [] None) as [[[scans' sm'] nx']| |] eqn:E; cbn [bind fst snd] in G; try discriminate.
  injection G as <- <-. cbn. destruct (union_loop_keeps _ _ _ _ _ _ _ _ Hv E) as [H1 H2]. auto.
Qed.
End Keeps.

Section Union.
Variable sub : triescan.
Variable m : nat.
Variable n : nat.
Variable Ty : nat -> nat -> list stype.
Variable Tau : nat -> tree.
Variable R : nat -> tstate sub -> list frame -> Prop.
Hypothesis HS : forall i, i < m -> simulates n (Ty i) (Tau i) sub true (R i).
Hypothesis HP : forall i, i < m -> proper n (Ty i) (Tau i).
Hypothesis Hm : 0 < m.

Definition union_tree : tree := fun p t =>
  merge (map (fun i => Tau i p t) (filter (fun i => in_treeb (Tau i) [] p) (seq 0 m))).
Lemma union_tree_In : forall p t z, In z (union_tree p t) <-> exists i, i < m /\ in_tree (Tau i) [] p /\ In z (Tau i p t).
Proof.
  intros p t z. unfold union_tree. rewrite merge_In. split.
  - intros (l & Hl & Hz). apply in_map_iff in Hl. destruct Hl as (i & <- & Hi). apply filter_In in Hi. destruct Hi as [Hi Ht]. apply in_seq in Hi. apply in_treeb_ok in Ht. exists i. split; [lia|auto].
  - intros (i & Hi & Ht & Hz). exists (Tau i p t). split; [|exact Hz]. apply in_map_iff. exists i. split; [reflexivity|]. apply filter_In. split; [apply in_seq; lia|apply in_treeb_ok, Ht].
Qed.

(* a layer: F = the lists of the inputs; value = the current value *)
Definition value_ok (a : list nat) (F : nat -> list Z) (p : nat -> option (option Z * list Z)) (c : option Z) (l : list Z) : Prop :=
  increasing (ahead c l) /\
  (forall i cl, p i = Some cl -> increasing (ahead (fst cl) (snd cl)) /\
     match c with
     | None => fst cl = None /\ (forall x, In x (snd cl) -> In x l) /\ (snd cl = F i \/ l = [])
     | Some v => (fst cl = None -> snd cl = []) /\ (forall x, In x (ahead (fst cl) (snd cl)) <-> In x (F i) /\ (v <= x)%Z)
     end) /\
  (forall x, In x (ahead c l) <-> exists i cl, p i = Some cl /\ In x (ahead (fst cl) (snd cl))).
Definition ulayer_ok (active : list (list nat)) (values : list (stype -> option Z)) (pre : list frame) (f : frame) (p : part) : Prop :=
  f_type f = fst p /\ exists a v, nth_error active (length pre) = Some a /\ nth_error values (length pre) = Some v /\
    v (fst p) = f_current f /\ NoDup a /\ (forall i, In i a -> i < m) /\ (forall i, snd p i = None <-> ~ In i a) /\
    value_ok a (fun i => Tau i (path pre) (fst p)) (snd p) (f_current f) (snd f) /\
    forall w, f_current f = Some w -> exists small, nth_error active (S (length pre)) = Some small /\ NoDup small /\
      forall i, In i small <-> In i a /\ In w (Tau i (path pre) (fst p)).

Definition union_state (u : tunion sub) (fs : list frame) : Prop :=
  tu_layer _ u = layer_of fs /\ length (tu_values _ u) = n /\ length (tu_active _ u) = S n /\
  nth_error (tu_active _ u) 0 = Some (seq 0 m) /\ on_values (removelast fs) /\
  exists st, subs_at sub m R (tu_subs _ u) st /\ layersp (ulayer_ok (tu_active _ u) (tu_values _ u)) [] fs st.

Lemma ulayer_ok_ext : forall active active' values values' pre f p,
  nth_error active' (length pre) = nth_error active (length pre) -> nth_error active' (S (length pre)) = nth_error active (S (length pre)) ->
  nth_error values' (length pre) = nth_error values (length pre) -> ulayer_ok active values pre f p -> ulayer_ok active' values' pre f p.
Proof.
  intros active active' values values' pre f p E1 E2 E3 (Ht & a & v & H1 & H2 & H3 & H4 & H5 & H6 & H7 & H8). split; [exact Ht|]. exists a, v.
  rewrite E1, E3. repeat (split; [assumption|]). intros w Hw. rewrite E2. apply H8, Hw.
Qed.

(* on values: the active inputs are those whose trees contain the path *)
Lemma union_path : forall active values fs pre st, layersp (ulayer_ok active values) pre fs st -> on_values fs ->
  forall a0, nth_error active (length pre) = Some a0 -> NoDup a0 -> exists a, nth_error active (length pre + length fs) = Some a /\ NoDup a /\
    forall i, (In i a <-> In i a0 /\ in_tree (Tau i) (path pre) (path fs)) /\
      (In i a -> on_values (ctx i st) /\ path (ctx i st) = path fs).
Proof.
  intros active values. induction fs as [|f fs IH]; intros pre [|p st] HL Ho a0 E0 Hnd0; cbn [layersp] in HL; try tauto.
  - exists a0. rewrite Nat.add_0_r. split; [exact E0|]. split; [exact Hnd0|]. intros i. cbn. split; [tauto|]. intros _. split; [intros f []|reflexivity].
  - destruct HL as [(Ht & a & v & E1 & E2 & Ev & Hnd & Hlt & Hp & (Hinc & Hcl & Hset) & Hsm) HL]. assert (a = a0) by congruence. subst a0.
    destruct (f_current f) as [w|] eqn:Ew; [|exfalso; apply (Ho f); [left; reflexivity|exact Ew]].
    destruct (Hsm w eq_refl) as (small & Es & Hnds & Hsmall).
    destruct (IH (pre ++ [f]) st HL) with (a0 := small) as (a' & Ea' & Hnd' & H').
    { intros g Hg. apply Ho. right. exact Hg. } { rewrite app_length. cbn. rewrite Nat.add_1_r. exact Es. } { exact Hnds. }
    exists a'. split; [rewrite app_length in Ea'; cbn in Ea' |- *; rewrite <- Ea'; f_equal; lia|]. split; [exact Hnd'|].
    assert (Efv : f_value f = (fst p, w)) by (unfold f_value; rewrite Ht, Ew; reflexivity).
    intros i. destruct (H' i) as [H1 H2]. split.
    + rewrite H1. assert (Ep1 : path (pre ++ [f]) = path pre ++ [f_value f]) by (unfold path; rewrite map_app; reflexivity). rewrite Ep1.
      change (path (f :: fs)) with (f_value f :: path fs). cbn [in_tree]. rewrite Efv. cbn [fst snd]. rewrite Hsmall. tauto.
    + intros Hi. destruct (H2 Hi) as [H3 H4]. apply H1 in Hi. destruct Hi as [Hi _]. apply Hsmall in Hi. destruct Hi as [Hia Hiw].
      destruct (snd p i) as [[c l]|] eqn:Ep; [|exfalso; apply Hp in Ep; tauto].
      destruct (Hcl _ _ Ep) as [Hci [Hc1 Hc2]]. cbn [fst snd] in *.
      assert (Hw : In w (ahead c l)) by (apply Hc2; split; [exact Hiw|lia]).
      assert (Ec : c = Some w).
      { destruct c as [x|]; [|rewrite Hc1 in Hw by reflexivity; destruct Hw]. cbn in Hw. destruct Hw as [->|Hw]; [reflexivity|].
        cbn in Hci. apply increasing_cons in Hci. destruct Hci as [_ Hci]. specialize (Hci w Hw). destruct (proj1 (Hc2 x) (or_introl eq_refl)) as [_ Hx]. lia. }
      change (ctx i (p :: st)) with (part_frame i p ++ ctx i st). unfold part_frame. rewrite Ep. cbn [app]. split.
      * intros g [<-|Hg]; [cbn; congruence|apply H3, Hg].
      * cbn [path map]. fold (path (ctx i st)). rewrite H4. unfold path. cbn [map]. f_equal. rewrite Efv, Ec. reflexivity.
Qed.

Lemma seq_a0 : forall u, nth_error (tu_active sub u) 0 = Some (seq 0 m) -> NoDup (seq 0 m).
Proof. intros. apply seq_NoDup. Qed.

Lemma removelast_snoc : forall A (l : list A) x, removelast (l ++ [x]) = l.
Proof. intros A l x. rewrite removelast_app by discriminate. cbn. apply app_nil_r. Qed.
Lemma on_removelast : forall fs, on_values fs -> on_values (removelast fs).
Proof.
  intros fs H f Hf. apply H. destruct fs as [|g fs]; [destruct Hf|]. rewrite (app_removelast_last g) by discriminate. apply in_or_app. left. exact Hf.
Qed.

Lemma union_down_ok : forall s fs t, union_state s fs -> on_values fs -> length fs < n ->
  exists s', tunion_down sub t s = Ok s' /\ union_state s' (fs ++ [(t, None, union_tree (path fs) t)]).
Proof.
  intros s fs t (El & Ev & Ea & E0 & Hrl & st & Hs & HL) Ho Hn.
  assert (Ebel : below (tu_layer _ s) = length fs). { rewrite El. unfold layer_of, below. destruct fs; cbn [length]; lia. }
  destruct (union_path _ _ _ _ _ HL Ho (seq 0 m) E0 (seq_NoDup _ _)) as (a & Eact & Hnd & Ha). cbn [length Nat.add] in Eact.
  assert (Ha1 : forall i, In i a <-> i < m /\ in_tree (Tau i) [] (path fs)). { intros i. destruct (Ha i) as [H _]. rewrite H, in_seq. cbn. intuition lia. }
  set (p := fun i => if existsb (Nat.eqb i) a then Some (@None Z, Tau i (path fs) t) else None).
  assert (Hina : forall i, existsb (Nat.eqb i) a = true <-> In i a).
  { intros i. rewrite existsb_exists. split; [intros (j & Hj & E); apply Nat.eqb_eq in E; subst; exact Hj|]. intros Hi. exists i. split; [exact Hi|apply Nat.eqb_refl]. }
  destruct (fold_change sub m R (ts_down sub t) a (tu_subs _ s) (fun i => ctx i st) (fun i => ctx i (st ++ [(t, p)]))) as (subs' & E' & Hl' & H').
  - apply Hs.
  - exact Hnd.
  - intros i Hi. apply Ha1, Hi.
  - apply Hs.
  - intros i x Hi Hx. destruct (Ha i) as [_ H2]. destruct (H2 Hi) as [Hon Hpath].
    assert (Him : i < m) by apply Ha1, Hi.
    destruct (e_down _ _ _ _ _ _ (HS _ Him) x _ t Hx Hon) as (x' & Ex & Hx').
    + pose proof (f_equal (@length _) Hpath) as EL. unfold path in EL. rewrite !map_length in EL. rewrite EL. exact Hn.
    + exists x'. split; [exact Ex|]. rewrite ctx_last. unfold part_frame, p. cbn [snd fst]. rewrite (proj2 (Hina i) Hi). rewrite Hpath in Hx'. exact Hx'.
  - intros i Hi. rewrite ctx_last. unfold part_frame, p. cbn [snd fst]. destruct (existsb (Nat.eqb i) a) eqn:Eti; [apply Hina in Eti; tauto|]. apply app_nil_r.
  - destruct (nth_error (tu_values _ s) (length fs)) as [v|] eqn:Eval; [|apply nth_error_None in Eval; lia].
    eexists. split.
    + unfold tunion_down. rewrite Ebel. assert (Ei : index (tu_active _ s) (length fs) = Ok a) by (apply index_Ok; exact Eact). rewrite Ei. cbn [bind]. rewrite E'. cbn [bind].
      assert (Ei2 : index (tu_values _ s) (length fs) = Ok v) by (apply index_Ok; exact Eval). rewrite Ei2. cbn [bind]. reflexivity.
    + split; [cbn; unfold layer_of; destruct fs; cbn; [reflexivity|]; rewrite app_length; cbn; f_equal; lia|]. cbn [tu_values tu_active tu_subs]. rewrite set_nth_length.
      split; [exact Ev|]. split; [exact Ea|]. split; [exact E0|]. split; [rewrite removelast_snoc; exact Ho|]. exists (st ++ [(t, p)]). split; [split; [exact Hl'|exact H']|].
      apply layersp_snoc.
      * eapply layersp_weaken; [|exact HL]. intros pre' f q Hj1 Hj2. apply ulayer_ok_ext; try reflexivity. apply set_nth_other. cbn in Hj2. lia.
      * cbn [app]. split; [reflexivity|]. exists a, (upd t None v). split; [exact Eact|]. split; [apply set_nth_same; lia|].
        assert (Ett : stype_eqb t t = true) by (destruct t; reflexivity).
        split; [unfold upd; cbn [fst]; rewrite Ett; reflexivity|]. split; [exact Hnd|]. split; [intros i Hi; apply Ha1, Hi|].
        split. { intros i. unfold p. cbn [snd]. rewrite <- Hina. destruct (existsb (Nat.eqb i) a); split; congruence. }
        split; [|intros w Hw; discriminate]. cbn [f_current fst snd]. split; [apply merge_increasing|]. split.
        { intros i cl Hcl. unfold p in Hcl. destruct (existsb (Nat.eqb i) a) eqn:Eia; [|discriminate]. injection Hcl as <-. cbn [fst snd ahead].
          apply Hina in Eia. apply Ha1 in Eia. destruct Eia as [Him Hit].
          split; [apply (p_increasing _ _ _ (HP _ Him)); unfold path; rewrite map_length; exact Hn|]. split; [reflexivity|]. split; [|left; reflexivity].
          intros x Hx. apply union_tree_In. eauto. }
        { intros x. cbn [ahead]. rewrite union_tree_In. split.
          - intros (i & Hi & Hit & Hx). exists i, (None, Tau i (path fs) t). split; [|exact Hx]. unfold p. rewrite (proj2 (Hina i)) by (apply Ha1; auto). reflexivity.
          - intros (i & cl & Hcl & Hx). unfold p in Hcl. destruct (existsb (Nat.eqb i) a) eqn:Eia; [|discriminate]. injection Hcl as <-. apply Hina in Eia. apply Ha1 in Eia. exists i. tauto. }
Qed.

(* below a layer all inputs that take part in it have gone through all layers *)
Lemma union_active_ctx : forall active values (fs : list frame) st a, layersp (ulayer_ok active values) [] fs st -> on_values fs -> nth_error active 0 = Some (seq 0 m) ->
  nth_error active (length fs) = Some a -> forall i, In i a -> length (ctx i st) = length fs.
Proof.
  intros active values fs st a HL Ho E0 Ea i Hi. destruct (union_path _ _ _ _ _ HL Ho (seq 0 m) E0 (seq_NoDup _ _)) as (a' & Eact & Hnd & Ha). cbn [length Nat.add] in Eact.
  assert (a' = a) by congruence. subst a'. destruct (Ha i) as [_ H2]. destruct (H2 Hi) as [_ Hp]. pose proof (f_equal (@length _) Hp) as EL. unfold path in EL. rewrite !map_length in EL. exact EL.
Qed.

Lemma union_up_ok : forall s fs f, union_state s (fs ++ [f]) -> exists s', tunion_up sub s = Ok s' /\ union_state s' fs.
Proof.
  intros s fs f (El & Ev & Ea & E0 & Hrl & st0 & Hs & HL). rewrite removelast_snoc in Hrl. apply layersp_unsnoc in HL. destruct HL as (st & [ty p] & -> & HL & Hok). cbn [app] in Hok.
  destruct Hok as (Ht & a & v & E1 & E2 & Ec & Hnd & Hlt & Hp & _). cbn [fst snd] in *.
  assert (Elay : tu_layer _ s = Some (length fs)). { rewrite El. unfold layer_of. destruct fs; cbn; [reflexivity|]. rewrite app_length. cbn. f_equal. lia. }
  pose proof (union_active_ctx _ _ _ _ _ HL Hrl E0 E1) as Hact.
  assert (G : exists subs', map_res (up_at sub (Some (length fs))) (tu_subs _ s) = Ok subs' /\ length subs' = length (tu_subs _ s) /\ forall i x, nth_error subs' i = Some x -> R i x (ctx i st)).
  { assert (Hall : forall i x, nth_error (tu_subs _ s) i = Some x -> exists x', up_at sub (Some (length fs)) x = Ok x' /\ R i x' (ctx i st)).
    { intros i x Hx. assert (Him : i < m) by (destruct Hs as [Hs _]; rewrite <- Hs; apply nth_error_Some; congruence). destruct Hs as [_ Hs]. specialize (Hs i x Hx).
      rewrite ctx_last in Hs. unfold part_frame in Hs. cbn [fst snd] in Hs. unfold up_at.
      destruct (e_layer _ _ _ _ _ _ (HS _ Him) _ _ Hs) as [_ Elx]. rewrite Elx. destruct (p i) as [[c l]|] eqn:Ep.
      - assert (Hi : In i a). { destruct (in_dec Nat.eq_dec i a) as [H|H]; [exact H|]. apply Hp in H. congruence. }
        specialize (Hact i Hi). assert (Elo : layer_of (ctx i st ++ [(ty, c, l)]) = Some (length fs)).
        { unfold layer_of. destruct (ctx i st) eqn:Ecx; cbn in *; [rewrite <- Hact; reflexivity|]. rewrite app_length. cbn. f_equal. lia. }
        rewrite Elo, Nat.eqb_refl. apply (e_up _ _ _ _ _ _ (HS _ Him) _ _ _ Hs).
      - rewrite app_nil_r in *. exists x. split; [|exact Hs]. unfold layer_of. destruct (ctx i st) as [|g gs] eqn:Ecx; [reflexivity|].
        pose proof (ctx_length_le i st) as Hle. rewrite Ecx in Hle. rewrite (layersp_length _ _ _ _ HL) in Hle. destruct (Nat.eqb_spec (length (g :: gs) - 1) (length fs)); [cbn in *; lia|reflexivity]. }
    clear - Hall. assert (Gen : forall subs k, (forall i x, nth_error subs i = Some x -> exists x', up_at sub (Some (length fs)) x = Ok x' /\ R (k + i) x' (ctx (k + i) st)) ->
      exists subs', map_res (up_at sub (Some (length fs))) subs = Ok subs' /\ length subs' = length subs /\ forall i x, nth_error subs' i = Some x -> R (k + i) x (ctx (k + i) st)).
    { induction subs as [|x subs IH]; intros k H; [exists []; split; [reflexivity|split; [reflexivity|intros [|i] y Hy; discriminate]]|].
      cbn [map_res]. destruct (H 0 x eq_refl) as (x' & Ex & Hx'). destruct (IH (S k)) as (subs' & E & Hl & Hn). { intros i y Hy. destruct (H (S i) y Hy) as (y' & Ey & Hy'). exists y'. split; [exact Ey|]. replace (S k + i) with (k + S i) by lia. exact Hy'. }
      rewrite Ex. cbn [bind]. rewrite E. cbn [bind]. exists (x' :: subs'). split; [reflexivity|]. split; [cbn; lia|]. intros [|i] y Hy; cbn in Hy.
      - injection Hy as <-. exact Hx'.
      - replace (k + S i) with (S k + i) by lia. apply Hn, Hy. }
    apply (Gen _ 0). exact Hall. }
  destruct G as (subs' & E' & Hl' & H'). eexists. split.
  - unfold tunion_up. rewrite Elay, E'. cbn [bind]. reflexivity.
  - split; [cbn; unfold above, layer_of; destruct fs; cbn; [reflexivity|]; f_equal; lia|]. cbn. split; [exact Ev|]. split; [exact Ea|]. split; [exact E0|]. split; [apply on_removelast, Hrl|].
    exists st. split; [split; [rewrite Hl'; apply Hs|exact H']|exact HL].
Qed.

Lemma map_nth_seq : forall A (f : nat -> A) k i, i < k -> nth_error (map f (seq 0 k)) i = Some (f i).
Proof.
  intros A f k i H. assert (G : forall k s i, i < k -> nth_error (map f (seq s k)) i = Some (f (s + i))).
  { clear. induction k as [|k IH]; intros s [|i] H; cbn; try lia; [rewrite Nat.add_0_r; reflexivity|]. rewrite IH by lia. f_equal. f_equal. lia. }
  apply (G k 0 i H).
Qed.

Lemma union_ask_state : forall q s (fs : list frame) t c l, union_state s (fs ++ [(t, c, l)]) ->
  exists enough s', let l' := after q c l in
    (forall fuel, enough <= fuel -> ts_ask (union_trie sub) q fuel (length fs) t s = Ok (s', hd_error l')) /\
    union_state s' (fs ++ [(t, hd_error l', tl l')]).
Proof.
  intros q s fs t c l (El & Ev & Ea & E0 & Hrl & st0 & Hs & HL). rewrite removelast_snoc in Hrl. apply layersp_unsnoc in HL. destruct HL as (st & [ty p] & -> & HL & Hok). cbn [app] in Hok.
  destruct Hok as (Ht & a & v & E1 & E2 & Ec & Hnd & Hlt & Hp & (Hinc & Hcl & Hset) & Hsm). cbn in Ht. subst ty. cbn [fst snd f_current] in *.
  pose proof (union_active_ctx _ _ _ _ _ HL Hrl E0 E1) as Hact.
  assert (Hk : length fs < n). { rewrite <- Ev. apply nth_error_Some. congruence. }
  assert (Hsub : length (tu_subs _ s) = m) by apply Hs.
  set (ics := map (fun i => (i, length fs)) (seq 0 (length (tu_subs _ s)))).
  destruct (borrow_all sub m (tu_subs _ s) ics Hsub) as (scans & Esc & Emap & Hget). { intros ic Hic. apply in_map_iff in Hic. destruct Hic as (i & <- & Hi). apply in_seq in Hi. cbn. lia. }
  assert (Hls : length scans = m). { pose proof (f_equal (@length _) Emap) as E. unfold ics in E. rewrite !map_length, seq_length in E. lia. }
  assert (Hscan : forall i x, nth_error scans i = Some x -> i < m /\ fst x = (i, length fs) /\ nth_error (tu_subs _ s) i = Some (snd x)).
  { intros i x Hx. assert (Hi : i < m) by (rewrite <- Hls; apply nth_error_Some; congruence). split; [exact Hi|].
    assert (Ef : fst x = (i, length fs)). { pose proof (map_nth_error fst _ _ Hx) as E. rewrite Emap in E. unfold ics in E. rewrite map_nth_seq in E by lia. congruence. }
    split; [exact Ef|]. pose proof (Hget x (nth_error_In _ _ Hx)) as E. rewrite Ef in E. exact E. }
  destruct (nth_error (tu_active _ s) (length fs + 1)) as [small0|] eqn:Esm; [|apply nth_error_None in Esm; lia].
  set (F := fun i => Tau i (path fs) t) in *. set (Fs := map F (seq 0 m)).
  assert (HFs : forall i, i < m -> nth_error Fs i = Some (F i)) by (intros i Hi; unfold Fs; apply map_nth_seq, Hi).
  assert (HFinc : forall F0, In F0 Fs -> increasing F0).
  { intros F0 HF0. unfold Fs in HF0. apply in_map_iff in HF0. destruct HF0 as (i & <- & Hi). apply in_seq in Hi. apply (p_increasing _ _ _ (HP i ltac:(lia))). unfold path. rewrite map_length. exact Hk. }
  set (cls := map (fun i => match p i with Some cl => cl | None => (None, []) end) (seq 0 m)).
  assert (Hcls : forall i, In i a -> exists cl, p i = Some cl /\ nth_error cls i = Some cl).
  { intros i Hi. destruct (p i) as [cl|] eqn:Ep; [|exfalso; apply Hp in Ep; tauto]. exists cl. split; [reflexivity|]. unfold cls. rewrite map_nth_seq by (apply Hlt, Hi). rewrite Ep. reflexivity. }
  set (u := mk_union (sub_column sub t) scans a small0 (v t)).
  assert (HU : union_rel (sub_column sub t) (col_rel sub m R st t) Fs a u c l).
  { split; [exact Hinc|]. split; [exact Ec|]. split; [reflexivity|]. split; [exact Hnd|]. cbn [u_scans u u_active].
    split; [unfold Fs; rewrite map_length, seq_length; symmetry; exact Hls|]. split; [intros i Hi; pose proof (Hlt i Hi) as Hi'; rewrite <- Hls in Hi'; exact Hi'|]. exists cls. split; [|split].
    - split; [unfold cls; rewrite map_length, seq_length; symmetry; exact Hls|]. intros i x cl Hi Hx Hcli. destruct (Hcls i Hi) as (cl0 & Ep & E). assert (cl0 = cl) by congruence. subst cl0.
      destruct (Hscan i x Hx) as (Him & Ef & Esx). destruct (Hcl i cl Ep) as [Hci _]. unfold col_rel. rewrite Ef. cbn [fst snd].
      split; [exact Hci|]. split; [exact Him|]. split; [symmetry; apply Hact, Hi|]. destruct Hs as [_ Hs]. specialize (Hs i _ Esx). rewrite ctx_last in Hs. unfold part_frame in Hs. cbn [fst snd] in Hs. rewrite Ep in Hs. destruct cl as [c0 l0]. exact Hs.
    - intros i cl F0 Hi Hcli HF0. destruct (Hcls i Hi) as (cl0 & Ep & E). assert (cl0 = cl) by congruence. subst cl0. rewrite HFs in HF0 by (apply Hlt, Hi). injection HF0 as <-. apply (Hcl i cl Ep).
    - intros x. rewrite Hset. split.
      + intros (i & cl & Ep & Hx). assert (Hi : In i a). { destruct (in_dec Nat.eq_dec i a) as [H|H]; [exact H|]. apply Hp in H. congruence. }
        exists i, cl. split; [exact Hi|]. destruct (Hcls i Hi) as (cl0 & Ep0 & E). assert (cl0 = cl) by congruence. subst cl0. auto.
      + intros (i & cl & Hi & Hcli & Hx). destruct (Hcls i Hi) as (cl0 & Ep & E). assert (cl0 = cl) by congruence. subst cl0. eauto. }
  destruct (i_ask _ _ _ _ _ (union_implements _ _ _ (col_implements sub true m (fun _ => n) Ty Tau R HS st t) Fs a HFinc) u c l q HU) as (en & u' & Hask & Hrep & HU'). { destruct q; exact I. }
  set (l' := after q c l) in *. exists en. eexists. split.
  - intros fuel Hf. specialize (Hask fuel Hf).
    assert (G : ts_ask (union_trie sub) q fuel (length fs) t s = tunion_ask sub (fun sc => ask sc q fuel) (length fs) t s) by (destruct q; reflexivity).
    rewrite G. unfold tunion_ask. fold ics. rewrite Esc. cbn [bind]. assert (Ei : index (tu_active _ s) (length fs) = Ok a) by (apply index_Ok; exact E1). rewrite Ei. cbn [bind].
    assert (Ei1 : index (tu_active _ s) (length fs + 1) = Ok small0) by (apply index_Ok; exact Esm). rewrite Ei1. cbn [bind].
    assert (Ei2 : index (tu_values _ s) (length fs) = Ok v) by (apply index_Ok; exact E2). rewrite Ei2. cbn [bind].
    fold u. rewrite Hask. cbn [bind fst snd]. reflexivity.
  - destruct (union_keeps (sub_column sub t) (nat * nat) fst (column_keeps sub t) q en u u' _ (Hask en (le_n _))) as (Hkm & Hka & Hko).
    assert (Hk' : map fst (u_scans _ u') = ics) by exact (eq_trans Hkm Emap).
    destruct HU' as (Hinc' & Hv' & Hact' & _ & HlF' & Hlt' & cls' & [Hcl_len Hcl'] & Hst' & Hset').
    assert (Hls' : length (u_scans _ u') = m). { pose proof (f_equal (@length _) Hk') as E. unfold ics in E. rewrite !map_length, seq_length in E. rewrite Hsub in E. exact E. }
    assert (Hfst' : forall i x, nth_error (u_scans _ u') i = Some x -> i < m /\ fst x = (i, length fs)).
    { intros i x Hx. assert (Hi : i < m) by (rewrite <- Hls'; apply nth_error_Some; congruence). split; [exact Hi|].
      pose proof (eq_ind _ (fun L => nth_error L i = Some (fst x)) (map_nth_error fst _ _ Hx) _ Hk') as E. cbn beta in E. unfold ics in E. rewrite map_nth_seq in E by lia. congruence. }
    assert (Hki : map (fun x : nat * nat * tstate sub => fst (fst x)) (u_scans _ u') = seq 0 m).
    { pose proof (eq_trans (eq_sym (map_map _ _ _)) (f_equal (map fst) Hk')) as E. refine (eq_trans E _). unfold ics. rewrite map_map. cbn. rewrite map_id, Hsub. reflexivity. }
    assert (Hback : forall i x y, nth_error (u_scans _ u') i = Some y -> nth_error (give_back sub (u_scans _ u') (tu_subs _ s)) i = Some x -> x = snd y).
    { intros i x y Hy Hx. destruct (Hfst' i y Hy) as [Hi Ef].
      assert (G : nth_error (give_back sub (u_scans _ u') (tu_subs _ s)) (fst (fst y)) = Some (snd y)).
      { apply give_back_in; [exact (eq_ind_r (fun L => NoDup L) (seq_NoDup m 0) Hki)|eapply nth_error_In, Hy|rewrite Ef; cbn; lia]. }
      rewrite Ef in G. cbn [fst] in G. congruence. }
    set (p' := fun i => if in_dec Nat.eq_dec i a then nth_error cls' i else None).
    assert (Hcl's : forall i, In i a -> exists cl, nth_error cls' i = Some cl).
    { intros i Hi. destruct (nth_error cls' i) as [cl|] eqn:E; [eauto|]. apply nth_error_None in E. specialize (Hlt i Hi). pose proof (eq_trans Hcl_len Hls') as E3. exfalso. lia. }
    assert (Hp' : forall i cl, p' i = Some cl <-> In i a /\ nth_error cls' i = Some cl). { intros i cl. unfold p'. destruct (in_dec Nat.eq_dec i a); [tauto|split; [discriminate|tauto]]. }
    assert (Hp'n : forall i, p' i = None <-> ~ In i a).
    { intros i. unfold p'. destruct (in_dec Nat.eq_dec i a) as [Hi|Hi]; [|tauto]. destruct (Hcl's i Hi) as [cl E]. rewrite E. split; [discriminate|tauto]. }
    split; [cbn; rewrite El; unfold layer_of; destruct fs; cbn; [reflexivity|]; rewrite !app_length; reflexivity|]. cbn [tu_values tu_active tu_subs]. rewrite !set_nth_length.
    split; [exact Ev|]. split; [exact Ea|]. split; [rewrite set_nth_other by lia; exact E0|]. split; [rewrite removelast_snoc; exact Hrl|]. exists (st ++ [(t, p')]). split.
    + split; [rewrite give_back_length; exact Hsub|]. intros i x Hx. rewrite ctx_last. unfold part_frame. cbn [fst snd].
      assert (Him : i < m) by (rewrite <- Hsub, <- (give_back_length sub (u_scans _ u')); apply nth_error_Some; congruence).
      destruct (nth_error (u_scans _ u') i) as [y|] eqn:Ey; [|apply nth_error_None in Ey; exfalso; lia].
      pose proof (Hback i x y Ey Hx) as ->. destruct (Hfst' i y Ey) as [_ Ef].
      destruct (p' i) as [[c0 l0]|] eqn:Ep'.
      * apply Hp' in Ep'. destruct Ep' as [Hi Ecl]. rewrite Hact' in Hcl'. pose proof (Hcl' i y (c0, l0) Hi Ey Ecl) as (_ & _ & _ & Hr). rewrite Ef in Hr. exact Hr.
      * rewrite app_nil_r. apply Hp'n in Ep'. assert (Eold : nth_error scans i = Some y) by (rewrite <- Ey; symmetry; apply Hko; exact Ep').
        destruct (Hscan i y Eold) as (_ & _ & Eo). destruct Hs as [_ Hs]. specialize (Hs i _ Eo). rewrite ctx_last in Hs. unfold part_frame in Hs. cbn [fst snd] in Hs.
        apply Hp in Ep'. rewrite Ep', app_nil_r in Hs. exact Hs.
    + apply layersp_snoc.
      * eapply layersp_weaken; [|exact HL]. intros pre' f q0 Hk1 Hk2. cbn in Hk2. apply ulayer_ok_ext; apply set_nth_other; lia.
      * cbn [app]. split; [reflexivity|]. exists a. eexists. split; [rewrite set_nth_other by lia; exact E1|]. split; [apply set_nth_same; lia|].
        assert (Ett : stype_eqb t t = true) by (destruct t; reflexivity).
        split; [unfold upd; cbn [fst]; rewrite Ett; exact Hv'|]. split; [exact Hnd|]. split; [exact Hlt|]. split; [exact Hp'n|]. cbn [fst snd f_current]. split.
        { split; [exact Hinc'|]. split.
          - intros i cl Hi. apply Hp' in Hi. destruct Hi as [Hi Ecl]. split.
            + destruct (nth_error (u_scans _ u') i) as [y|] eqn:Ey; [|apply nth_error_None in Ey; specialize (Hlt i Hi); exfalso; lia].
              rewrite Hact' in Hcl'. apply (Hcl' i y cl Hi Ey Ecl).
            + rewrite Hact' in Hst'. apply (Hst' i cl (F i) Hi Ecl (HFs i (Hlt i Hi))).
          - intros x. rewrite Hset'. rewrite Hact'. split.
            + intros (i & cl & Hi & Ecl & Hx). exists i, cl. split; [apply Hp'; auto|exact Hx].
            + intros (i & cl & Hi & Hx). apply Hp' in Hi. exists i, cl. tauto. }
        { intros w Hw. rewrite Hw in Hrep. unfold union_report in Hrep. destruct Hrep as [Hr1 Hr2]. exists (u_smallest _ u').
          split; [rewrite Nat.add_1_r; apply set_nth_same; lia|]. split; [exact Hr1|]. intros i. rewrite Hr2, Hact'. split.
          - intros [Hi (F0 & EF & Hin)]. rewrite HFs in EF by (apply Hlt, Hi). injection EF as <-. auto.
          - intros [Hi Hin]. split; [exact Hi|]. exists (F i). split; [apply HFs, Hlt, Hi|exact Hin]. }
Qed.

Lemma union_current_ok : forall s (fs : list frame) t c l (gs : list frame), union_state s (fs ++ (t, c, l) :: gs) ->
  ts_current (union_trie sub) (length fs) t s = Ok c.
Proof.
  intros s fs t c l gs (El & Ev & Ea & E0 & Hrl & st & Hs & HL). apply layersp_mid in HL. destruct HL as (p & Ht & a & v & E1 & E2 & Ec & _). cbn [app] in *.
  cbn [ts_current union_trie]. assert (Ei : index (tu_values _ s) (length fs) = Ok v) by (apply index_Ok; exact E2). rewrite Ei. cbn [bind].
  cbn in Ht. rewrite Ht, Ec. reflexivity.
Qed.

Definition union_types (k : nat) : list stype := filter (fun t => existsb (fun i => existsb (stype_eqb t) (Ty i k)) (seq 0 m)) all_types.
Lemma union_types_ok : forall s fs k, union_state s fs -> k < n -> tunion_types sub s k = union_types k.
Proof.
  intros s fs k (El & Ev & Ea & E0 & Hrl & st & [Hl Hs] & HL) Hk. unfold tunion_types, union_types. apply filter_ext. intros t.
  assert (G : forall subs j, j + length subs = m -> (forall i x, nth_error subs i = Some x -> R (j + i) x (ctx (j + i) st)) ->
    existsb (fun x => existsb (stype_eqb t) (ts_types sub x k)) subs = existsb (fun i => existsb (stype_eqb t) (Ty i k)) (seq j (length subs))).
  { induction subs as [|x subs IH]; intros j Hj H; [reflexivity|]. cbn [existsb seq length]. cbn [length] in Hj. f_equal.
    - pose proof (H 0 x eq_refl) as Hx. rewrite Nat.add_0_r in Hx. rewrite (e_types _ _ _ _ _ _ (HS j ltac:(lia)) _ _ _ Hx Hk). reflexivity.
    - apply IH; [lia|]. intros i y Hy. replace (S j + i) with (j + S i) by lia. apply H, Hy. }
  rewrite <- Hl. apply (G _ 0); [lia|]. exact Hs.
Qed.
Lemma union_simulates : simulates n union_types union_tree (union_trie sub) true union_state.
Proof.
  constructor.
  - intros s fs (_ & _ & _ & _ & _ & st & [Hl Hs] & _). cbn. destruct (tu_subs _ s) as [|x xs]; [cbn in Hl; lia|]. apply (e_arity _ _ _ _ _ _ (HS 0 Hm) x _ (Hs 0 x eq_refl)).
  - intros s fs k H Hk. eapply union_types_ok; eassumption.
  - intros s fs (El & Ev & Ea & E0 & Hrl & st & Hs & HL). split; [|exact El].
    destruct (Nat.le_gt_cases (length fs) n) as [H|H]; [exact H|]. exfalso.
    destruct (nth_error fs n) as [f|] eqn:Ef; [|apply nth_error_None in Ef; lia]. apply nth_error_split in Ef. destruct Ef as (l1 & l2 & -> & Hl1).
    apply layersp_mid in HL. destruct HL as (p & Ht & a & v & E1 & E2 & _). cbn in E2. assert (length l1 < length (tu_values _ s)) by (apply nth_error_Some; congruence). lia.
  - apply union_up_ok.
  - apply union_down_ok.
  - apply union_ask_state.
  - intros s fs t c l gs H _. eapply union_current_ok, H.
Qed.
Lemma union_proper : proper n union_types union_tree.
Proof.
  constructor.
  - intros p t _. apply merge_increasing.
  - intros p t Hp Hne. unfold union_types. apply filter_In. split; [destruct t; cbn; tauto|]. destruct (union_tree p t) as [|z zs] eqn:Ez; [congruence|].
    assert (Hz : In z (union_tree p t)) by (rewrite Ez; left; reflexivity). apply union_tree_In in Hz. destruct Hz as (i & Hi & Hit & Hz).
    apply existsb_exists. exists i. split; [apply in_seq; lia|]. apply existsb_exists. exists t. split; [|destruct t; reflexivity].
    apply (p_types _ _ _ (HP i Hi)); [exact Hp|]. intros E. rewrite E in Hz. destruct Hz.
  - intros k Hk. apply filter_types_sorted, all_types_sorted.
Qed.
Lemma union_tree_rows : forall r p, (in_tree union_tree p r /\ (exists i, i < m /\ in_tree (Tau i) [] p)) <-> exists i, i < m /\ in_tree (Tau i) [] (p ++ r).
Proof.
  induction r as [|v r IH]; intros p.
  - rewrite app_nil_r. cbn. tauto.
  - cbn [in_tree]. split.
    + intros [[Hv Hr] _]. apply union_tree_In in Hv. destruct Hv as (i & Hi & Hit & Hz).
      destruct (proj1 (IH (p ++ [v]))) as (j & Hj & Hjt).
      * split; [exact Hr|]. exists i. split; [exact Hi|]. apply in_tree_app. split; [exact Hit|]. cbn. auto.
      * exists j. split; [exact Hj|]. rewrite <- app_assoc in Hjt. exact Hjt.
    + intros (i & Hi & Hit). pose proof Hit as Hit2. apply in_tree_app in Hit. cbn [in_tree app] in Hit. destruct Hit as [H1 [H2 H3]].
      split; [|eauto]. split; [apply union_tree_In; eauto|].
      apply (proj2 (IH (p ++ [v]))). exists i. split; [exact Hi|]. rewrite <- app_assoc. exact Hit2.
Qed.
Lemma union_new_ok : forall subs, length subs = m -> (forall i s, nth_error subs i = Some s -> R i s []) ->
  exists u, tunion_new sub subs = Ok u /\ union_state u [].
Proof.
  intros subs Hl Hs. unfold tunion_new. destruct subs as [|s0 subs]; [cbn in Hl; lia|].
  assert (Har : forall i x, nth_error (s0 :: subs) i = Some x -> ts_arity sub x = n).
  { intros i x Hx. assert (Hi : i < m) by (rewrite <- Hl; apply nth_error_Some; congruence). apply (e_arity _ _ _ _ _ _ (HS i Hi) _ _ (Hs i x Hx)). }
  rewrite (Har 0 s0 eq_refl). assert (E : forallb (fun s => ts_arity sub s =? n) (s0 :: subs) = true).
  { apply forallb_forall. intros x Hx. apply In_nth_error in Hx. destruct Hx as [i Hx]. apply Nat.eqb_eq, (Har i x Hx). }
  rewrite E. cbn [negb]. eexists. split; [reflexivity|]. split; [reflexivity|]. cbn [tu_values tu_active tu_subs]. split; [apply repeat_length|]. split; [cbn [length]; rewrite repeat_length; reflexivity|].
  split; [cbn [nth_error]; rewrite Hl; reflexivity|]. split; [intros f []|]. exists []. split; [split; [exact Hl|]|exact I]. intros i s Hi. cbn. apply Hs, Hi.
Qed.
End Union.
