(** Null values, and facts being stored once. *)
From Coq Require Import List Arith ZArith Bool Lia Permutation Sorted.
From Verif Require Import TableModel TableSpec TableProofs TableProofs2 EngineModel EngineSpec EngineProofs1 EngineProofs2 EngineProofs3 EngineProofs4 EngineProofs5 EngineProofs6 EngineProofs7 EngineProofs8 EngineProofs9 EngineProofs10.
From Verif Require Import StrategyModel StrategySpec.
Import ListNotations.

Definition val_ok (c : nat) (z : Z) : Prop := (0 <= z)%Z \/ exists n, n < c /\ z = null_val n.

Lemma val_ok_mono c c' z : c <= c' -> val_ok c z -> val_ok c' z.
Proof. intros Hle [?|(n & ? & ?)]; [left; auto|right; exists n; split; auto; lia]. Qed.

Lemma null_neg n : (null_val n < 0)%Z.
Proof. unfold null_val. lia. Qed.
Lemma null_not_ok c n : c <= n -> ~ val_ok c (null_val n).
Proof. intros Hle [Hz|(m & Hm & E)]; [pose proof (null_neg n); lia|]. apply null_val_inj in E. lia. Qed.

Section Nulls.
Context (pr : program) (Hwf : wf_program pr) (Hnn : invents_no_nulls pr).

(** Values of bound variables come from the matched facts or are computed. *)
Lemma bound_ok rl nu c : In rl (p_rules pr) -> (forall o, body_op rl o -> holds nu o) ->
  (forall p xs, In (p, xs) (r_pos rl) -> forall z, In z (map nu xs) -> val_ok c z) ->
  forall v, bound rl v -> val_ok c (nu v).
Proof.
  intros Hrl Hops Hpos v Hb. induction Hb as [v Hv|v e Hin Hw IH].
  - unfold atom_vars in Hv. apply in_flat_map in Hv. destruct Hv as ([p xs] & Hp & Hv). apply (Hpos p xs Hp). now apply in_map.
  - assert (Hb : body_op rl (OEq v e)).
    { split; auto. simpl. intros w [<-|Hx]; auto. eapply bound_eq; eauto. }
    pose proof (Hops _ Hb) as Hh. simpl in Hh. unfold eval_expr in Hh.
    destruct (nn_funs pr Hnn rl v e _ _ Hrl Hin Hh) as [?|Hi]; [left; auto|].
    apply in_map_iff in Hi. destruct Hi as (w & Ew & Hw'). rewrite <- Ew. auto.
Qed.

Context (e : engine) (H : list app_rec) (ops : list op) (Inv : einv pr e H ops).
Let D := facts_at ops.

(** The number of nulls after step [s]. *)
Definition cnt (s : nat) : nat := match s with 0 => 0 | S k => match nth_error H k with Some a => a_c' a | None => 0 end end.

Lemma cnt_app k a : nth_error H k = Some a -> a_c a = cnt k /\ a_c' a = cnt (S k) /\ cnt k <= cnt (S k).
Proof.
  intros Ha. destruct (i_apps _ _ _ _ Inv k a Ha) as (r & results & R1 & R2 & R3 & _).
  assert (E1 : a_c a = cnt k) by (rewrite R2; destruct k; reflexivity). assert (E2 : a_c' a = cnt (S k)) by (simpl; now rewrite Ha).
  split; auto. split; auto. rewrite <- E1, <- E2. apply (x_ctr _ _ _ _ _ _ _ _ _ R3).
Qed.
Lemma cnt_mono s s' : s <= s' -> s' <= length H -> cnt s <= cnt s'.
Proof.
  intros Hle Hl. induction Hle as [|s' Hle IH]; auto. destruct (nth_error H s') as [a|] eqn:Ea; [|apply nth_error_None in Ea; lia].
  destruct (cnt_app s' a Ea) as (_ & _ & Hc). specialize (IH ltac:(lia)). lia.
Qed.
Lemma cnt_end : e_nulls e = cnt (length H).
Proof.
  rewrite (i_nulls _ _ _ _ Inv). unfold cnt. generalize H. clear. intros l0. destruct l0 as [|a l _] using rev_ind; auto. rewrite rev_app_distr. simpl. rewrite app_length. simpl.
  rewrite Nat.add_1_r. simpl. rewrite nth_error_app2, Nat.sub_diag by lia. reflexivity.
Qed.

Lemma step_bound p s x : D p s x -> s <= length H.
Proof. intros (t & rows & Hi & Ht & _). apply (i_bound _ _ _ _ Inv) in Hi. rewrite (i_step _ _ _ _ Inv) in Hi. lia. Qed.

Theorem values_ok s : forall p x z, user_tag p -> D p s x -> In z x -> val_ok (cnt s) z.
Proof.
  induction s as [s IH] using lt_wf_ind. intros p x z Hup Hd Hz. pose proof (step_bound p s x Hd) as Hsl. destruct s as [|k].
  { apply (i_edb _ _ _ _ Inv) in Hd. left. destruct Hd as [Hd|(rows & Hd & Hr)]; [eapply (nn_facts pr Hnn); eauto|eapply (nn_imports pr Hnn); eauto]. }
  destruct (nth_error H k) as [a|] eqn:Ea; [|apply nth_error_None in Ea; lia].
  destruct (cnt_app k a Ea) as (Ec & Ec' & Hle).
  destruct (i_apps _ _ _ _ Inv k a Ea) as (r & results & R1 & _ & R3 & R4 & _).
  assert (Hin : In r (p_rules pr)) by (eapply nth_error_In; eauto).
  assert (Hbody : forall nu I M, matches r I M nu -> (forall q y, I q y -> upto D (S k) q y) -> forall v, bound r v -> val_ok (cnt k) (nu v)).
  { intros nu I M [M1 M2 _] HI. apply bound_ok; auto. intros q xs Hq z' Hz'. destruct (HI _ _ (M1 q xs Hq)) as (s & Hs & Hd').
    apply (val_ok_mono (cnt s)); [apply cnt_mono; lia|]. apply (IH s Hs q (map nu xs) z'); [apply (body_user pr Hwf r q xs); auto; apply in_app_iff; auto|exact Hd'|exact Hz']. }
  apply R4 in Hd. destruct (x_sound _ _ _ _ _ _ _ _ _ R3) as (W & [W1 W2 W3] & HX). destruct (HX p x Hd (Hup _)) as
    [(nu & mu & k0 & h & Q1 & Q2 & Q3 & Q4 & -> & -> & Q5 & Q6)|(ag & mu & k0 & h & Q1 & Q2 & Q3 & -> & -> & _ & Q6)].
  - apply in_map_iff in Hz. destruct Hz as (t & <- & Ht). assert (Hh : In h (r_head r)) by (eapply nth_error_In; eauto).
    destruct t as [v|v|c]; simpl.
    + apply (val_ok_mono (cnt k)); auto. assert (Hnx : ~ is_ex r v). { intros Hx. destruct (wf_ex r (wf_rules pr Hwf r Hin) v Hx) as (_ & Hno & _). now apply (Hno h). }
      rewrite (Q4 v Hnx). destruct Q1 as [Q1 _]. apply (Hbody nu _ _ Q1); auto.
      apply (wf_head r (wf_rules pr Hwf r Hin) k0 h v); auto.
    + assert (Hex : In v (hatom_ex h)). { unfold hatom_ex. apply in_flat_map. exists (HEx v). simpl. auto. }
      destruct Q6 as (HW & _); [intros E0; rewrite E0 in Hex; destruct Hex|].
      right. destruct (W1 mu v HW) as (n & Hn & ->). { apply ex_vars_spec. exists h. auto. }
      exists n. split; [|reflexivity]. change (n < cnt (S k)). lia.
    + left. eapply (nn_consts pr Hnn); eauto.
  - apply in_map_iff in Hz. destruct Hz as (t & <- & Ht). assert (Hh : In h (r_head r)) by (eapply nth_error_In; eauto).
    apply (val_ok_mono (cnt k)); auto.
    destruct Q3 as (nu & z0 & L & [N1 _] & N2 & N3 & N4 & N5 & N6 & N7).
    destruct (wf_agg r (wf_rules pr Hwf r Hin) ag k0 Q1) as (A1 & A2 & A3 & A4 & A5 & A6).
    assert (Hgo : forall v, In v (ag_out ag :: ag_group ag) -> val_ok (cnt k) (mu v)).
    { intros v [<-|Hv].
      - rewrite N6. destruct (nn_aggs pr Hnn r ag k0 _ _ Hin Q1 N4) as [?|Hi]; [left; auto|].
        apply in_map_iff in Hi. destruct Hi as (t0 & <- & Ht0). apply N3 in Ht0. destruct Ht0 as (nu' & [P1 _] & _ & ->). simpl.
        apply (Hbody nu' _ _ P1); [auto|]. apply A1. simpl. auto.
      - rewrite (N5 v Hv). apply (Hbody nu _ _ N1); [auto|]. apply A1. simpl. right. apply in_app_iff. auto. }
    assert (Hvar : forall v, In v (hatom_vars h) -> val_ok (cnt k) (mu v)).
    { intros v Hv. destruct (Q6 v Hv) as [?|(ex & Hex & Hinc)]; [auto|].
      destruct (wf_agg_head r (wf_rules pr Hwf r Hin) ag k0 h v Q1 Q2 Hv) as [?|Hnb]; [auto|].
      assert (Hh0 : holds mu (OEq v ex)). { apply N7; auto. }
      simpl in Hh0. unfold eval_expr in Hh0. destruct (nn_funs pr Hnn r v ex _ _ Hin (proj1 Hex) Hh0) as [?|Hi]; [left; auto|].
      apply in_map_iff in Hi. destruct Hi as (w & Ew & Hw). rewrite <- Ew. auto. }
    destruct t as [v|v|c]; simpl.
    + apply Hvar. unfold hatom_vars. apply in_flat_map. exists (HVar v). simpl. auto.
    + apply Hvar. unfold hatom_vars. apply in_flat_map. exists (HEx v). simpl. auto.
    + left. eapply (nn_consts pr Hnn); eauto.
Qed.

(** Every fact is stored once. *)
Theorem facts_once p s s' x : D p s x -> D p s' x -> s = s'.
Proof.
  assert (Hgo : forall s s', s < s' -> D p s x -> D p s' x -> False).
  { clear s s'. intros s s' Hlt Hd Hd'. pose proof (step_bound _ _ _ Hd') as Hb. destruct s' as [|k]; [lia|].
    destruct (nth_error H k) as [a|] eqn:Ea; [|apply nth_error_None in Ea; lia].
    destruct (cnt_app k a Ea) as (Ec & Ec' & Hle).
    destruct (i_apps _ _ _ _ Inv k a Ea) as (r & results & R1 & _ & R3 & R4 & _). apply R4 in Hd'.
    assert (Hu : upto D (S k) p x) by (exists s; auto).
    destruct (Nat.eq_dec p (sat_tag (a_rule a))) as [->|Hp].
    { destruct (x_sat _ _ _ _ _ _ _ _ _ R3 x Hd') as [Hn _]. auto. }
    destruct (x_sound _ _ _ _ _ _ _ _ _ R3) as (W & [W1 W2 W3] & HX). destruct (HX p x Hd' Hp) as
      [(nu & mu & k0 & h & Q1 & Q2 & Q3 & Q4 & -> & -> & Q5 & Q6)|(ag & mu & k0 & h & Q1 & Q2 & Q3 & -> & -> & Q5 & _)]; [|auto].
    destruct (hatom_ex h) as [|v l] eqn:Ex; [now apply Q5|]. destruct Q6 as (HW & _); [congruence|].
    assert (Hv : In (HEx v) (snd h)).
    { assert (Hi : In v (hatom_ex h)) by (rewrite Ex; simpl; auto). unfold hatom_ex in Hi. apply in_flat_map in Hi.
      destruct Hi as (t & Ht & Hi). destruct t as [w|w|c]; simpl in Hi; try tauto. destruct Hi as [<-|[]]. exact Ht. }
    assert (Hin : In r (p_rules pr)) by (eapply nth_error_In; eauto).
    assert (Hh : In h (r_head r)) by (eapply nth_error_In; eauto).
    destruct (W1 mu v HW) as (n & Hn & En). { apply ex_vars_spec. exists h. split; auto. rewrite Ex. simpl. auto. }
    assert (Hok : val_ok (cnt s) (null_val n)).
    { rewrite <- En. eapply (values_ok s (fst h)); eauto; [apply (proj2 (wf_tags_rules pr Hwf r Hin)); auto|].
      apply in_map_iff. exists (HEx v). auto. }
    revert Hok. apply null_not_ok. assert (cnt s <= cnt k) by (apply cnt_mono; lia). lia. }
  intros Hd Hd'. destruct (lt_eq_lt_dec s s') as [[Hl|]|Hl]; [exfalso; eauto|auto|exfalso; eauto].
Qed.

Lemma once_all p : once ops p.
Proof. intros r s s' Hd Hd'. eapply facts_once; eauto. Qed.
End Nulls.
