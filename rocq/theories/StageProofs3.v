(** Proofs: rules with one factor. *)
From Coq Require Import List Arith ZArith Bool Lia Permutation.
From Verif Require Import TableModel EngineModel EngineSpec EngineProofs1 EngineProofs2 EngineProofs3 StageModel StageSpec StageProofs1 StageProofs2.
Import ListNotations.

Lemma clo_ext vs vs' ops : (forall v, In v vs <-> In v vs') -> forall v, clo vs ops v <-> clo vs' ops v.
Proof. intros H v. split; (induction 1 as [v Hv|v e Hi _ IH]; [left; now apply H | eright; eauto]). Qed.

Lemma partition_none r : good_body r -> partition_atoms (i_pos r) (i_ops r) = (map (fun p : partition_t => FAtoms (snd p)) (fold_left add_atom (i_pos r) []), i_ops r).
Proof.
  intros G. unfold partition_atoms. cbn [constant_loop]. rewrite constant_pass_none by apply G. now rewrite app_nil_r.
Qed.

Lemma restrict_all order vs : incl vs order -> forall v, In v (restrict order vs) <-> In v vs.
Proof. intros H v. rewrite restrict_in. split; [tauto|auto]. Qed.

Lemma atom_vars_app a b : atom_vars (a ++ b) = atom_vars a ++ atom_vars b.
Proof. apply flat_map_app. Qed.

Section One.
Context (rd : reader) (D : tag -> nat -> row -> Prop) (Hrd : rd_ok rd D).
Context (r : irule) (G : good_body r) (cur last : nat) (Hle : last <= cur).
Context (S : interp) (imported : list node -> tag -> list row) (Hs : serves r S imported).

Lemma bound_inner v : bound (inner r) v <-> clo (atom_vars (i_pos r)) (i_ops r) v.
Proof. apply clo_bound. Qed.
Lemma bound_plain v : bound (plain r) v <-> clo (atom_vars (i_pos r ++ i_pimp r)) (i_ops r) v.
Proof. apply clo_bound. Qed.
Lemma inner_plain v : bound (inner r) v -> bound (plain r) v.
Proof.
  rewrite bound_inner, bound_plain. induction 1 as [v Hv|v e Hi _ IH]; [left | eright; eauto]. rewrite atom_vars_app. apply in_app_iff. auto.
Qed.
Lemma inner_dec v : bound (inner r) v \/ ~ bound (inner r) v.
Proof.
  destruct (gen_function_spec (atom_vars (i_pos r)) (i_ops r)) as (vs & fs & rest & E & _). pose proof (gen_function_clo _ _ _ _ _ E v) as H.
  rewrite bound_inner, <- H. destruct (in_dec Nat.eq_dec v vs); auto.
Qed.

(** Matches in terms of the parts of the rule. *)
Lemma nimp_match p xs nu : In (p, xs) (i_nimp r) -> (neg_match (plain r) S nu p xs <-> S p (map nu xs)).
Proof.
  intros Hp. assert (Hb : forall v, In v xs -> bound (plain r) v).
  { intros v Hv. apply bound_plain. left. apply (g_nimp r G p xs Hp v Hv). }
  split.
  - intros (nu' & H1 & H2 & _). erewrite map_ext_in; [exact H2|]. intros v Hv. symmetry. auto.
  - intros H. exists nu. split; auto. split; auto. intros o (Ho & Hn & Hv). exfalso. apply Hn. split; auto.
    intros w Hw. destruct (Hv w Hw); auto.
Qed.

Lemma neg_before p xs nu : In (p, xs) (i_neg r) -> (neg_match (plain r) (before D cur) nu p xs <->
  exists nu', (forall v, bound (plain r) v -> nu' v = nu v) /\ before D cur p (map nu' xs) /\
    forall o, In o (i_ops r) -> (exists w, In w (op_vars o) /\ ~ bound (plain r) w) -> (forall w, In w (op_vars o) -> bound (plain r) w \/ In w xs) -> holds nu' o).
Proof.
  intros Hp. assert (Dec : forall v, bound (plain r) v \/ ~ bound (plain r) v).
  { intros v. destruct (gen_function_spec (atom_vars (i_pos r ++ i_pimp r)) (i_ops r)) as (vs & fs & rest & E & _).
    pose proof (gen_function_clo _ _ _ _ _ E v) as H. rewrite bound_plain, <- H. destruct (in_dec Nat.eq_dec v vs); auto. }
  split; intros (nu' & H1 & H2 & H3); exists nu'; split; auto; split; auto; intros o.
  - intros Ho (w & Hw & Hn) Hv. apply H3. split; auto. split; auto. intros [_ Hb]. auto.
  - intros (Ho & Hn & Hv). apply H3; auto. assert (Hx : forall l, (forall w, In w l -> bound (plain r) w) \/ exists w, In w l /\ ~ bound (plain r) w).
    { clear - Dec. induction l as [|x l IH]; [left; intros w []|]. destruct (Dec x) as [Hx|Hx]; [|right; exists x; auto].
      destruct IH as [IH|(w & Hw & IH)]; [left; intros w [<-|Hw]; auto | right; exists w; auto]. }
    destruct (Hx (op_vars o)) as [Ha|He]; auto. exfalso. apply Hn. split; auto.
Qed.

Theorem one_factor_body n vs ops : one_factor r -> import_body rd imported r cur last = Some (n, vs, ops) ->
  wfn n /\ nvars n = vs /\ (forall v, In v vs <-> bound (plain r) v) /\
  forall nu, fits nu n <-> import_matches r (before D cur) S nu /\ new_match r D last cur nu.
Proof.
  intros O H. unfold import_body in H. rewrite (partition_none r G) in H.
  destruct (g_order r G) as [Ond Oin].
  destruct (linked_one (i_pos r) _ (fold_parts (i_pos r))) as (pv & l & Ep & Pl).
  { apply (o_pos r O). } { intros [p xs] Ha. apply (o_nonempty r O p xs Ha). } { apply (o_linked r O). }
  rewrite Ep in H. cbn [map snd factor_nodes length] in H.
  assert (Hl : l <> []). { intros ->. apply Permutation_nil in Pl. apply (o_pos r O Pl). }
  assert (Hav : forall v, In v (atom_vars l) <-> In v (atom_vars (i_pos r))).
  { intros v. unfold atom_vars. rewrite !in_flat_map. split; intros (a & Ha & Hv); exists a; split; auto;
      [apply (Permutation_in _ Pl) | apply (Permutation_in _ (Permutation_sym Pl))]; auto. }
  assert (Oinl : incl (atom_vars l) (i_order r)).
  { intros v Hv. apply Oin. rewrite atom_vars_app, in_app_iff. left. now apply Hav. }
  destruct (seminaive_spec rd D Hrd true l (i_order r) cur last) as (j & Ej & J1 & J2 & J3); auto.
  { intros [p xs] Ha. apply (g_atoms r G p). apply in_app_iff. left. apply (Permutation_in _ Pl Ha). }
  rewrite Ej in H.
  destruct (gen_ffn (restrict (i_order r) (atom_vars l)) (i_ops r) (i_neg r)) as [[[g1 ops1] negs1]|] eqn:Eg1; [|discriminate].
  destruct (ffn_node rd g1 j cur last) as [n1|] eqn:En1; [|discriminate].
  change (1 =? 1) with true in H. cbv iota in H. cbn [map fst] in H.
  assert (C1 : forall v, clo (restrict (i_order r) (atom_vars l)) (i_ops r) v <-> bound (inner r) v).
  { intros v. rewrite bound_inner. apply clo_ext. intros w. rewrite restrict_all by exact Oinl. apply Hav. }
  assert (Loc : forall i k (a b : atom) v, nth_error (i_neg r) i = Some a -> nth_error (i_neg r) k = Some b -> i <> k -> In v (snd a) -> In v (snd b) -> bound (plain r) v).
  { intros i k [p xs] [q ys] v Hi Hk Hne Ha Hb. apply (g_local r G i k p xs q ys v); auto. }
  destruct (ffn_spec rd D Hrd _ (i_ops r) (i_neg r) cur last j g1 ops1 negs1 n1 J2 J1) as (F1 & F2 & F3 & F4 & F5 & F6); auto.
  { intros [p xs] Ha. apply (g_atoms r G p), in_app_iff. right. apply in_app_iff. auto. }
  { intros i k [p xs] [q ys] v Hi Hk Hne Ha Hb (w & Hw & Hcw) _. rewrite C1 in *.
    apply (o_neg r O p xs (nth_error_In _ _ Hi)); eauto. }
  assert (Eni : negated_imports (i_nimp r) ops1 = (map (fun a => (a, [])) (i_nimp r), ops1)).
  { apply negated_none. intros [p xs] o Ha Ho Hi. apply F5 in Ho. destruct Ho as (Ho & (w & Hw & Hnw) & _). apply Hnw, C1.
    apply (o_nimp r O p xs o Ha Ho Hi w Hw). }
  rewrite Eni in H.
  assert (Esj : is_single_join [FAtoms l] = true).
  { unfold is_single_join. destruct l; [contradiction|reflexivity]. }
  rewrite Esj in H. set (order := restrict (i_order r) (fst (fst (fst g1)) ++ atom_vars (i_pimp r))) in *.
  destruct (gen_ffn order ops1 negs1) as [[[g2 ops2] negs2]|] eqn:Eg2; [|discriminate].
  destruct (import_join (imported [n1]) order n1 (i_pimp r) (map (fun a => (a, [])) (i_nimp r))) as [j2|] eqn:Ej2; [|discriminate].
  destruct (ffn_node rd g2 j2 cur last) as [n2|] eqn:En2; [|discriminate]. cbn [option_map] in H. injection H as <- <- <-.
  assert (Hord : forall v, In v order <-> bound (inner r) v \/ In v (atom_vars (i_pimp r))).
  { intros v. unfold order. rewrite restrict_in, in_app_iff, <- F2, F3, C1. split; [tauto|]. intros Hv. split; auto. apply Oin.
    destruct Hv as [Hv|Hv]; [apply (o_computed r O v Hv)|]. rewrite atom_vars_app, in_app_iff. auto. }
  assert (Hpos : forall v, In v (atom_vars (i_pos r ++ i_pimp r)) -> In v order).
  { intros v Hv. apply Hord. rewrite atom_vars_app, in_app_iff in Hv. destruct Hv as [Hv|Hv]; auto. left. apply bound_inner. now left. }
  assert (NDo : NoDup order) by (apply NoDup_filter; exact Ond).
  assert (Hnd2 : forall a, In a (i_pimp r ++ i_nimp r) -> NoDup (snd a)).
  { intros [p xs] Ha. apply (g_atoms r G p), in_app_iff. right. apply in_app_iff. auto. }
  destruct (import_join_spec (imported [n1]) order n1 (i_pimp r) (i_nimp r) j2 F1 NDo Hnd2) as (K1 & K2 & K3); auto.
  { intros [p xs] Ha v Hv. apply Hpos. apply (g_nimp r G p xs Ha v Hv). }
  (** what the negated atoms of the first stage use *)
  assert (Shr : forall a : atom, (exists w, In w (snd a) /\ clo (restrict (i_order r) (atom_vars l)) (i_ops r) w) <-> exists w, In w (snd a) /\ bound (inner r) w).
  { intros a. split; intros (w & H1 & H2); exists w; split; auto; now apply C1. }
  assert (Keep : forall o, In o (i_ops r) -> (exists w, In w (op_vars o) /\ ~ bound (inner r) w) -> (forall w, In w (op_vars o) -> bound (plain r) w) -> In o ops1).
  { intros o Ho (w & Hw & Hnw) Hb. apply F5. split; auto. split; [exists w; rewrite C1; auto|]. intros [p xs] Ha Hsh.
    exists w. rewrite C1. split; auto. split; auto. intros Hx. apply Hnw. apply (o_neg r O p xs Ha (proj1 (Shr (p, xs)) Hsh)); auto. }
  assert (C2 : forall v, clo order ops1 v <-> bound (plain r) v).
  { intros v. split.
    - induction 1 as [v Hv|v e Hi _ IH].
      + apply Hord in Hv. destruct Hv as [Hv|Hv]; [now apply inner_plain|]. apply bound_plain. left. rewrite atom_vars_app, in_app_iff. auto.
      + apply F5 in Hi. destruct Hi as [Hi _]. rewrite bound_plain in *. eright; [exact Hi|]. intros w Hw. apply bound_plain. auto.
    - rewrite bound_plain. induction 1 as [v Hv|v e Hi Hw IH]; [left; auto|].
      assert (Hbp : bound (plain r) v) by (apply bound_plain; eright; eauto).
      destruct (inner_dec v) as [Hv|Hv]; [left; apply Hord; auto|].
      eright; [|exact IH]. apply Keep; auto.
      + exists v. split; auto. now left.
      + intros w [<-|Hx]; auto. apply bound_plain. auto. }
  destruct (ffn_spec rd D Hrd order ops1 negs1 cur last j2 g2 ops2 negs2 n2 K1 K2) as (L1 & L2 & L3 & L4 & L5 & L6); auto.
  { intros [p xs] Ha. apply F4 in Ha. apply (g_atoms r G p), in_app_iff. right. apply in_app_iff. tauto. }
  { intros i k a b v Hi Hk Hne Ha Hb _ _. apply C2.
    assert (Nf : negs1 = filter (fun a => negb (shares (fst (fst (fst g1))) a)) (i_neg r)).
    { clear - Eg1. unfold gen_ffn in Eg1. destruct (gen_function _ _) as [[[vs' fns] o1]|]; [|discriminate].
      destruct (gen_filter vs' o1) as [fs o2]. rewrite gen_negation_filter in Eg1.
      destruct (gen_negation vs' _ o2) as [[x y] z]. injection Eg1 as <- <- <-. reflexivity. }
    rewrite Nf in Hi, Hk. destruct (nth_filter _ _ _ _ _ _ Hi Hk Hne) as (i' & k' & Q1 & Q2 & Q3). apply (Loc i' k' a b v); auto. }
  split; auto. split; auto. split; [intros v; rewrite <- L2, L3; apply C2|].
  change (forall nu, fits nu n2 <-> import_matches r (before D cur) S nu /\ new_match r D last cur nu).
  destruct (Hs [n1]) as [Hsound Hcomp].
  intros nu. change (fits nu n2) with (msat nu n2). rewrite L6, K3, F6, J3.
  assert (Sh2 : forall a : atom, In a negs1 -> In a (i_neg r) /\ ~ exists w, In w (snd a) /\ bound (inner r) w).
  { intros a Ha. apply F4 in Ha. rewrite Shr in Ha. exact Ha. }
  split.
  - intros [[[[Hp Hnew] [Ho1 Hn1]] [Hpi Hni]] [Ho2 Hn2]]. split.
    + assert (Mn1 : forall n, In n [n1] -> fits nu n).
      { intros m [<-|[]]. change (msat nu n1). apply F6. rewrite J3. auto. }
      constructor.
      * intros p xs Hi. destruct (Hp (p, xs)) as (s & Hsc & Hd); [apply (Permutation_in _ (Permutation_sym Pl) Hi)|]. exists s. auto.
      * intros p xs Hi. apply Hsound. apply (Hpi (p, xs) Hi).
      * intros o [Ho Hb]. assert (Hx : (forall w, In w (op_vars o) -> bound (inner r) w) \/ exists w, In w (op_vars o) /\ ~ bound (inner r) w).
        { generalize (op_vars o). induction l0 as [|x l0 IH]; [left; intros w []|]. destruct (inner_dec x) as [Hx|Hx]; [|right; exists x; auto].
          destruct IH as [IH|(w & Hw & IH)]; [left; intros w [<-|Hw]; auto | right; exists w; auto]. }
        destruct Hx as [Hx|Hx].
        -- apply Ho1; auto. intros w Hw. apply C1. auto.
        -- apply Ho2; [apply Keep; auto|]. intros w Hw. apply C2. auto.
      * intros p xs Hi. rewrite (neg_before p xs nu Hi). intros (nu' & H1 & H2 & H3).
        destruct (existsb (fun v => memv v (fst (fst (fst g1)))) xs) eqn:Ex.
        -- assert (Hsh : exists w, In w xs /\ bound (inner r) w).
           { apply existsb_exists in Ex. destruct Ex as (w & Hw & Hm). exists w. split; auto. apply memv_in in Hm. rewrite <- F2 in Hm. apply C1, F3, Hm. }
           apply (Hn1 (p, xs) Hi); [now apply Shr|]. exists nu'. split; [intros v Hv; apply H1, inner_plain, C1, Hv|]. split; auto.
           intros o Ho (w & Hw & Hnw) Hv. rewrite C1 in Hnw.
           apply H3; auto.
           ++ exists w. split; auto. intros Hbp. destruct (Hv w Hw) as [Hc|Hx]; [apply Hnw, C1, Hc|]. apply Hnw. apply (o_neg r O p xs Hi Hsh); auto.
           ++ intros x Hx. destruct (Hv x Hx) as [Hc|Hc]; auto. left. apply inner_plain, C1, Hc.
        -- assert (Hns : ~ exists w, In w xs /\ bound (inner r) w).
           { intros (w & Hw & Hb). rewrite <- not_true_iff_false in Ex. apply Ex, existsb_exists. exists w. split; auto. apply memv_in. rewrite <- F2. apply F3, C1, Hb. }
           apply (Hn2 (p, xs)).
           ++ apply F4. split; auto. rewrite Shr. exact Hns.
           ++ destruct (g_neg r G p xs Hi) as (w & Hw & Hb). exists w. split; auto. now apply C2.
           ++ exists nu'. split; [intros v Hv; apply H1, C2, Hv|]. split; auto. intros o Ho (w & Hw & Hnw) Hv. apply F5 in Ho. destruct Ho as [Ho _].
              apply H3; auto.
              ** exists w. split; auto. now rewrite <- C2.
              ** intros x Hx. rewrite <- C2. auto.
      * intros p xs Hi. rewrite (nimp_match p xs nu Hi). intros Hsx. apply (Hni (p, xs) Hi). apply (Hcomp nu p xs); auto. apply in_app_iff. auto.
    + destruct Hnew as [?|([p xs] & s & Hi & Hr & Hd)]; [contradiction|]. exists p, xs, s. split; [apply (Permutation_in _ Pl Hi)|]. auto.
  - intros [[Hp Hpi Ho Hn Hni] (p0 & xs0 & s0 & Hi0 & Hr0 & Hd0)].
    assert (M1 : msat nu n1).
    { apply F6. rewrite J3. split; [split|split].
      - intros [p xs] Ha. apply (Hp p xs). apply (Permutation_in _ Pl Ha).
      - right. exists (p0, xs0), s0. split; [apply (Permutation_in _ (Permutation_sym Pl) Hi0)|]. auto.
      - intros o Hoo Hv. apply Ho. split; auto. intros w Hw. apply inner_plain, C1. auto.
      - intros [p xs] Ha Hsh (nu' & H1 & H2 & H3). apply Shr in Hsh. cbn [snd fst] in *.
        apply (Hn p xs Ha). apply (neg_before p xs nu Ha).
        exists (fun v => if in_dec Nat.eq_dec v xs then nu' v else nu v). 
        assert (Hbd : forall v, bound (plain r) v -> (if in_dec Nat.eq_dec v xs then nu' v else nu v) = nu v).
        { intros v Hv. destruct (in_dec Nat.eq_dec v xs) as [Hx|Hx]; auto. apply H1, C1. apply (o_neg r O p xs Ha Hsh); auto. }
        split; [exact Hbd|]. split.
        + erewrite map_ext_in; [exact H2|]. intros v Hv. cbv beta. destruct (in_dec Nat.eq_dec v xs); tauto.
        + intros o Hoo (w & Hw & Hnw) Hv.
          assert (Hno : neg_op (plain r) xs o). { split; auto. split; auto. intros [_ Hb]. auto. }
          pose proof (o_neg_ops r O p xs o Ha Hsh Hno) as Hb0.
          apply (holds_ext _ nu').
          * intros x Hx. destruct (in_dec Nat.eq_dec x xs) as [Hxx|Hxx]; auto. destruct (Hb0 x Hx) as [Hbx|?]; [|contradiction]. symmetry. apply H1, C1, Hbx.
          * apply H3; auto.
            -- exists w. split; auto. rewrite C1. intros Hc. apply Hnw, inner_plain, Hc.
            -- intros x Hx. destruct (Hb0 x Hx) as [Hbx|?]; auto. left. apply C1, Hbx. }
    pose proof M1 as M1'. apply F6 in M1'. rewrite J3 in M1'.
    assert (Mn1 : forall n, In n [n1] -> fits nu n) by (intros m [<-|[]]; exact M1).
    split; [split; [exact M1'|split]|split].
    + intros [p xs] Ha. apply (Hcomp nu p xs); [apply in_app_iff; auto|exact Mn1|]. apply (Hpi p xs Ha).
    + intros [p xs] Ha Hx. apply (Hni p xs Ha). apply (nimp_match p xs nu Ha). apply Hsound, Hx.
    + intros o Hoo Hv. apply F5 in Hoo. destruct Hoo as [Hoo _]. apply Ho. split; auto. intros w Hw. apply C2. auto.
    + intros [p xs] Ha Hsh (nu' & H1 & H2 & H3). destruct (Sh2 _ Ha) as [Ha' Hns]. cbn [snd fst] in *.
      apply (Hn p xs Ha'). apply (neg_before p xs nu Ha'). exists nu'. split; [intros v Hv; apply H1, C2, Hv|]. split; auto.
      intros o Hoo (w & Hw & Hnw) Hv. apply H3.
      * apply F5. split; auto. split; [exists w; split; auto; rewrite C1; intros Hc; apply Hnw, inner_plain, Hc|].
        intros [q ys] Hq Hshq. exists w. split; auto. split; [rewrite C1; intros Hc; apply Hnw, inner_plain, Hc|]. cbn [snd]. intros Hwy.
        apply Hnw. destruct (Hv w Hw) as [?|Hwx]; auto.
        destruct (In_nth_error _ _ Ha') as (i & Hi). destruct (In_nth_error _ _ Hq) as (k & Hk).
        apply (Loc i k (p, xs) (q, ys) w); auto. intros Eik. subst k. pose proof (eq_trans (eq_sym Hi) Hk) as Epq. injection Epq as -> ->. apply Hns. now apply Shr in Hshq.
      * exists w. split; auto. now rewrite C2.
      * intros x Hx. rewrite C2. auto.
Qed.
End One.
