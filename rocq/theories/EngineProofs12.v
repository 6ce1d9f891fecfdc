(** Facts are stored once; invented values are fresh; the restricted chase. *)
From Coq Require Import List Arith ZArith Bool Lia Permutation Sorted.
From Verif Require Import TableModel TableSpec TableProofs TableProofs2 EngineModel EngineSpec EngineProofs1 EngineProofs2 EngineProofs3 EngineProofs4 EngineProofs5 EngineProofs6 EngineProofs7 EngineProofs8 EngineProofs9 EngineProofs10 EngineProofs11.
From Verif Require Import StrategyModel StrategySpec.
Import ListNotations.

(** ** Steps *)

Lemma at_step_facts pr e H ops : einv pr e H ops -> forall p s x, at_step e p s x <-> facts_at ops p s x.
Proof.
  intros Inv p s x. destruct (step_tables ops (e_manager e) (i_ord _ _ _ _ Inv) (i_run _ _ _ _ Inv) p s (S s)) as [H1 H2].
  unfold facts_at, at_step. rewrite <- H1. unfold rows_of. split.
  - intros (id & Hi & Hx). exists id. split; auto. apply in_map_iff. exists (s, id). auto.
  - intros (id & Hi & Hx). apply in_map_iff in Hi. destruct Hi as ([s' id'] & <- & Hi). exists id'. destruct (H2 _ _ Hi) as [Hs _].
    replace s with s' at 1 by lia. auto.
Qed.

Lemma before_upto pr e H ops : einv pr e H ops -> forall s p x, before e s p x <-> upto (facts_at ops) s p x.
Proof. intros Inv s p x. unfold before, upto. split; intros (t & Ht & Hd); exists t; split; auto; apply (at_step_facts pr e H ops Inv); auto. Qed.

Lemma result_at pr e H ops : einv pr e H ops -> forall p x, result e p x <-> exists s, at_step e p s x.
Proof. intros Inv p x. rewrite (M_facts pr e H ops Inv). split; intros (s & Hs); exists s; apply (at_step_facts pr e H ops Inv); auto. Qed.

Lemma result_before pr e H ops : einv pr e H ops -> forall p x, result e p x <-> upto (facts_at ops) (e_step e) p x.
Proof.
  intros Inv p x. rewrite (M_facts pr e H ops Inv). split.
  - intros (s & Hs). exists s. split; auto. rewrite (i_step _ _ _ _ Inv). apply Nat.lt_succ_r. eapply step_bound; eauto.
  - intros (s & _ & Hs). eauto.
Qed.

Lemma once_inv pr e H ops p : wf_program pr -> einv pr e H ops -> invents_no_nulls pr \/ plain pr p -> once ops p.
Proof.
  intros Hwf Inv [Hnn|Hp]; [eapply once_all; eauto|].
  assert (Hgo : forall x s s', s < s' -> facts_at ops p s x -> facts_at ops p s' x -> False).
  { intros x s s' Hlt Hd Hd'. pose proof (step_bound pr e H ops Inv p s' x Hd') as Hb. destruct s' as [|k]; [lia|].
    destruct (nth_error H k) as [a|] eqn:Ea; [|apply nth_error_None in Ea; lia].
    destruct (i_apps _ _ _ _ Inv k a Ea) as (r & results & R1 & _ & R3 & R4 & _). apply R4 in Hd'.
    assert (Hu : upto (facts_at ops) (S k) p x) by (exists s; auto).
    destruct (Nat.eq_dec p (sat_tag (a_rule a))) as [->|Hps].
    { destruct (x_sat _ _ _ _ _ _ _ _ _ R3 x Hd') as [Hn _]. auto. }
    destruct (x_sound _ _ _ _ _ _ _ _ _ R3) as (W & _ & HX). destruct (HX p x Hd' Hps) as
      [(nu & mu & k0 & h & Q1 & Q2 & Q3 & Q4 & Q4' & Q5' & Q5 & Q6)|(ag & mu & k0 & h & Q1 & Q2 & Q3 & _ & _ & Q5 & _)]; [|auto].
    apply Q5; auto. apply (Hp r); auto; eapply nth_error_In; eauto. }
  intros x s s' Hd Hd'. destruct (lt_eq_lt_dec s s') as [[Hl|]|Hl]; [exfalso; eauto|auto|exfalso; eauto].
Qed.

Section Stored.
Context {T : Type} (pr : program) (next : T -> option bool -> option (option nat * T)) (s0 : T) (e : engine).
Context (Hwf : wf_program pr) (He : reachable pr next s0 e).

Theorem stored_once p x : invents_no_nulls pr \/ plain pr p -> result e p x ->
  exists s, at_step e p s x /\ forall s', at_step e p s' x -> s' = s.
Proof.
  intros Hp Hx. destruct (reachable_inv _ _ _ _ Hwf He) as (H & ops & Inv & _).
  apply (result_at pr e H ops Inv) in Hx. destruct Hx as (s & Hs). exists s. split; auto. intros s' Hs'.
  apply (at_step_facts pr e H ops Inv) in Hs, Hs'. apply (once_inv pr e H ops p Hwf Inv Hp x s' s Hs' Hs).
Qed.

Theorem facts_counted p : invents_no_nulls pr \/ plain pr p ->
  match count_facts e p with
  | Some n => exists l, NoDup l /\ (forall x, In x l <-> result e p x) /\ n = length l
  | None => forall x, ~ result e p x
  end.
Proof.
  intros Hp. destruct (reachable_inv _ _ _ _ Hwf He) as (H & ops & Inv & _). unfold count_facts.
  destruct (subtables (e_manager e) p) as [h|] eqn:Eh; simpl.
  - exists (concat (map (fun si => contents (e_manager e) (snd si)) (single h))). repeat split.
    + eapply once_nodup; eauto; [apply Inv|apply Inv|eapply once_inv; eauto|]. eapply run_nodup; [apply (i_nodup _ _ _ _ Inv)|apply Inv].
    + intros Hx. apply in_concat in Hx. destruct Hx as (rows & Hr & Hx). apply in_map_iff in Hr. destruct Hr as ([s id] & <- & Hr).
      apply (result_at pr e H ops Inv). exists s, id. split; auto. unfold tables_in_range_steps. rewrite Eh. apply filter_In. split; auto. simpl.
      apply andb_true_iff. split; [apply Nat.leb_le|apply Nat.ltb_lt]; lia.
    + intros Hx. apply (result_at pr e H ops Inv) in Hx. destruct Hx as (s & id & Hi & Hx). unfold tables_in_range_steps in Hi. rewrite Eh in Hi.
      apply filter_In in Hi. destruct Hi as [Hi _]. apply in_concat. eexists. split; [|exact Hx]. apply in_map_iff. exists (s, id). auto.
    + clear. induction (single h) as [|si l IH]; simpl; auto. rewrite app_length. simpl in IH. now rewrite IH.
  - intros x Hx. apply (result_at pr e H ops Inv) in Hx. destruct Hx as (s & id & Hi & Hx). unfold tables_in_range_steps in Hi. rewrite Eh in Hi. destruct Hi.
Qed.

(** The effect of one rule application on what is stored at which step. *)
Theorem apply_steps i e' b : engine_apply pr e i = Some (e', b) ->
  e_step e' = S (e_step e) /\
  (forall p s x, s < e_step e -> (at_step e' p s x <-> at_step e p s x)) /\
  (forall p s x, at_step e p s x -> s < e_step e) /\
  (forall p s x, at_step e' p s x -> s <= e_step e).
Proof.
  intros Ha. destruct (reachable_inv _ _ _ _ Hwf He) as (H & ops & Inv & _).
  destruct (apply_einv pr e H ops i e' b Hwf Inv Ha) as (a & ops' & Inv' & Ei & Eb & Hf).
  pose proof (i_step _ _ _ _ Inv) as E1. pose proof (i_step _ _ _ _ Inv') as E2. rewrite app_length in E2. simpl in E2.
  split; [lia|]. split; [|split].
  - intros p s x Hs. rewrite (at_step_facts pr e H ops Inv), (at_step_facts pr e' _ ops' Inv'). now apply Hf.
  - intros p s x Hx. apply (at_step_facts pr e H ops Inv) in Hx. pose proof (step_bound pr e H ops Inv _ _ _ Hx). lia.
  - intros p s x Hx. apply (at_step_facts pr e' _ ops' Inv') in Hx. pose proof (step_bound pr e' _ ops' Inv' _ _ _ Hx). rewrite app_length in *. simpl in *. lia.
Qed.

Lemma reach_next i e' b : forall n s resp, execute pr next s0 n = Running e s resp ->
  (exists s', next s resp = Some (Some i, s')) -> engine_apply pr e i = Some (e', b) -> reachable pr next s0 e'.
Proof. intros n s resp Hn (s' & Hs) Ha. exists (S n). left. exists s', (Some b). simpl. rewrite Hn. simpl. now rewrite Hs, Ha. Qed.

Theorem apply_new i e' b : engine_apply pr e i = Some (e', b) -> forall p, invents_no_nulls pr \/ plain pr p ->
  forall s x, at_step e' p s x <-> at_step e p s x \/ (s = e_step e /\ result e' p x /\ ~ result e p x).
Proof.
  intros Ha p Hp s x. destruct (reachable_inv _ _ _ _ Hwf He) as (H & ops & Inv & _).
  destruct (apply_einv pr e H ops i e' b Hwf Inv Ha) as (a & ops' & Inv' & Ei & Eb & Hf).
  destruct (apply_steps i e' b Ha) as (A1 & A2 & A3 & A4). split.
  - intros Hx. pose proof (A4 _ _ _ Hx). destruct (Nat.eq_dec s (e_step e)) as [->|]; [|left; apply A2; auto; lia]. right. split; auto. split.
    + apply (result_at pr e' _ ops' Inv'). eauto.
    + intros Hr. apply (result_at pr e H ops Inv) in Hr. destruct Hr as (s & Hs). pose proof (A3 _ _ _ Hs). apply A2 in Hs; auto.
      apply (at_step_facts pr e' _ ops' Inv') in Hs, Hx. pose proof (once_inv pr e' _ ops' p Hwf Inv' Hp x _ _ Hs Hx). lia.
  - intros [Hx|(-> & Hx & Hn)].
    + apply A2; auto. eapply A3; eauto.
    + apply (result_at pr e' _ ops' Inv') in Hx. destruct Hx as (s & Hs). pose proof (A4 _ _ _ Hs). destruct (Nat.eq_dec s (e_step e)) as [->|]; auto.
      exfalso. apply Hn. apply (result_at pr e H ops Inv). exists s. apply A2; auto. lia.
Qed.
End Stored.

(** ** Values of new facts *)

Section Values.
Context (pr : program) (Hwf : wf_program pr) (Hnn : invents_no_nulls pr).

Lemma bound_P (P : Z -> Prop) rl nu : (forall z, (0 <= z)%Z -> P z) -> In rl (p_rules pr) -> (forall o, body_op rl o -> holds nu o) ->
  (forall p xs, In (p, xs) (r_pos rl) -> forall z, In z (map nu xs) -> P z) ->
  forall v, bound rl v -> P (nu v).
Proof.
  intros HP Hrl Hops Hpos v Hb. induction Hb as [v Hv|v e Hin Hw IH].
  - unfold atom_vars in Hv. apply in_flat_map in Hv. destruct Hv as ([p xs] & Hp & Hv). apply (Hpos p xs Hp). now apply in_map.
  - assert (Hb : body_op rl (OEq v e)).
    { split; auto. simpl. intros w [<-|Hx]; auto. eapply bound_eq; eauto. }
    pose proof (Hops _ Hb) as Hh. simpl in Hh. unfold eval_expr in Hh.
    destruct (nn_funs pr Hnn rl v e _ _ Hrl Hin Hh) as [?|Hi]; [auto|].
    apply in_map_iff in Hi. destruct Hi as (w & Ew & Hw'). rewrite <- Ew. auto.
Qed.

Context (D : tag -> nat -> row -> Prop) (r : rule) (Hin : In r (p_rules pr)).
Context (i : nat) (hf : bool) (cur last c : nat) (results : list (tag * list row)) (c' : nat).
Context (X : exec_ok D r i hf cur last c results c') (P : Z -> Prop).
Context (HP : forall z, (0 <= z)%Z -> P z) (HD : forall q y z, user_tag q -> upto D cur q y -> In z y -> P z).

Lemma match_P nu : new_match D r cur last nu -> forall v, bound r v -> P (nu v).
Proof.
  intros [[M1 M2 _] _]. apply bound_P; auto. intros q xs Hq z Hz. apply (HD q (map nu xs)); auto.
  apply (body_user pr Hwf r q xs); auto. apply in_app_iff. auto.
Qed.

Lemma exec_values : exists W, null_choice r c c' W /\ forall p x, new_in results p x -> user_tag p ->
  (forall z, In z x -> P z) \/
  exists h mu nu, In h (r_head r) /\ hatom_ex h <> [] /\ W mu /\ p = fst h /\ x = map (hterm_val mu) (snd h) /\
    (forall v, In (HVar v) (snd h) -> P (mu v)) /\ new_match D r cur last nu /\ (forall v, ~ is_ex r v -> mu v = nu v) /\
    ~ sat_new D r cur (new_start (negb (exclusive r hf)) last) nu /\ ~ upto D cur (sat_tag i) (map nu (frontier_list r)).
Proof.
  destruct (x_sound _ _ _ _ _ _ _ _ _ X) as (W & HW & HX). exists W. split; auto. intros p x Hn Hup. destruct (HX p x Hn (Hup _)) as
    [(nu & mu & k0 & h & Q1 & Q2 & Q3 & Q4 & -> & -> & Q5 & Q6)|(ag & mu & k0 & h & Q1 & Q2 & Q3 & -> & -> & _ & Q6)].
  - assert (Hh : In h (r_head r)) by (eapply nth_error_In; eauto).
    assert (Hv : forall v, In (HVar v) (snd h) -> P (mu v)).
    { intros v Ht. assert (Hnx : ~ is_ex r v). { intros Hx. destruct (wf_ex r (wf_rules pr Hwf r Hin) v Hx) as (_ & Hno & _). now apply (Hno h). }
      rewrite (Q4 v Hnx). apply (match_P nu Q1). apply (wf_head r (wf_rules pr Hwf r Hin) k0 h v); auto. }
    destruct (hatom_ex h) as [|v0 l0] eqn:Ex.
    + left. intros z Hz. apply in_map_iff in Hz. destruct Hz as (t & <- & Ht). destruct t as [v|v|c0]; simpl; auto.
      * exfalso. assert (Hi : In v (hatom_ex h)) by (apply hatom_ex_vars; auto). rewrite Ex in Hi. destruct Hi.
      * apply HP. eapply (nn_consts pr Hnn); eauto.
    + right. destruct Q6 as (W1 & _ & W3 & W4); [congruence|]. exists h, mu, nu. repeat split; auto; try congruence; apply Q1.
  - left. intros z Hz. apply in_map_iff in Hz. destruct Hz as (t & <- & Ht). assert (Hh : In h (r_head r)) by (eapply nth_error_In; eauto).
    destruct Q3 as (nu & z0 & L & N1 & N2 & N3 & N4 & N5 & N6 & N7).
    destruct (wf_agg r (wf_rules pr Hwf r Hin) ag k0 Q1) as (A1 & A2 & A3 & A4 & A5 & A6).
    assert (Hgo : forall v, In v (ag_out ag :: ag_group ag) -> P (mu v)).
    { intros v [<-|Hv].
      - rewrite N6. destruct (nn_aggs pr Hnn r ag k0 _ _ Hin Q1 N4) as [?|Hi]; [auto|].
        apply in_map_iff in Hi. destruct Hi as (t0 & <- & Ht0). apply N3 in Ht0. destruct Ht0 as (nu' & P1 & _ & ->). simpl.
        apply (match_P nu' P1). apply A1. simpl. auto.
      - rewrite (N5 v Hv). apply (match_P nu N1). apply A1. simpl. right. apply in_app_iff. auto. }
    assert (Hvar : forall v, In v (hatom_vars h) -> P (mu v)).
    { intros v Hv. destruct (Q6 v Hv) as [?|(ex & Hex & Hinc)]; [auto|].
      destruct (wf_agg_head r (wf_rules pr Hwf r Hin) ag k0 h v Q1 Q2 Hv) as [?|Hnb]; [auto|].
      assert (Hh0 : holds mu (OEq v ex)). { apply N7; auto. }
      simpl in Hh0. unfold eval_expr in Hh0. destruct (nn_funs pr Hnn r v ex _ _ Hin (proj1 Hex) Hh0) as [?|Hi]; [auto|].
      apply in_map_iff in Hi. destruct Hi as (w & Ew & Hw). rewrite <- Ew. auto. }
    destruct t as [v|v|c0]; simpl.
    + apply Hvar. apply hatom_vars_cases. auto.
    + apply Hvar. apply hatom_vars_cases. auto.
    + apply HP. eapply (nn_consts pr Hnn); eauto.
Qed.
End Values.

(** ** Fresh nulls *)

Lemma frontier_in r v : In v (frontier_list r) -> frontier r v.
Proof.
  unfold frontier_list. intros H. apply filter_In in H. destruct H as [_ H]. unfold in_frontier in H. apply andb_prop in H.
  rewrite !memv_in in H. split; tauto.
Qed.

Lemma frontier_in_list pr r v : wf_program pr -> In r (p_rules pr) -> is_existential r = true -> frontier r v -> In v (frontier_list r).
Proof. intros Hwf Hin He Hv. destruct (frontier_list_spec r (wf_rules pr Hwf r Hin) He) as [_ Hf]. rewrite Hf. unfold frontier in Hv. tauto. Qed.

Lemma frontier_not_ex pr r v : wf_program pr -> In r (p_rules pr) -> frontier r v -> ~ is_ex r v.
Proof. intros Hwf Hin [Hv _] Hx. destruct (wf_ex r (wf_rules pr Hwf r Hin) v Hx) as (Hnb & _). apply Hnb. now apply bound_pos. Qed.

(** The values invented by an application: at every application of a rule there is a set [W] of head
    valuations with these properties. *)
Record invention (e : engine) (r : rule) (W : (var -> Z) -> Prop) : Prop := {
  inv_fresh : forall mu v, W mu -> is_ex r v -> (mu v < 0)%Z /\ ~ occurs e (mu v);
  inv_inj : forall mu mu' v v', W mu -> W mu' -> is_ex r v -> is_ex r v' -> mu v = mu' v' ->
     v = v' /\ forall w, frontier r w -> mu w = mu' w;
  inv_fun : forall mu mu', W mu -> W mu' -> (forall w, frontier r w -> mu w = mu' w) -> forall v, is_ex r v -> mu v = mu' v }.

Section Fresh.
Context {T : Type} (pr : program) (next : T -> option bool -> option (option nat * T)) (s0 : T) (e : engine).
Context (Hwf : wf_program pr) (Hnn : invents_no_nulls pr) (He : reachable pr next s0 e).
Context (i : nat) (e' : engine) (b : bool) (Ha : engine_apply pr e i = Some (e', b)).

Lemma last_use_app H : forall n, n <= length H -> forall j, last_use (map a_rule H) j n = last_app (firstn n H) j 1 0.
Proof.
  induction n as [|n IH]; intros Hn j; [reflexivity|]. simpl last_use. destruct (nth_error H n) as [a|] eqn:Ea; [|apply nth_error_None in Ea; lia].
  rewrite (map_nth_error _ _ _ Ea). assert (E : firstn (S n) H = firstn n H ++ [a]).
  { clear - Ea. revert H Ea. induction n as [|n IH]; intros [|x H] Ea; try discriminate; simpl in *; [now injection Ea as ->|]. f_equal. now apply IH. }
  rewrite E, last_app_snoc, firstn_length. rewrite Nat.min_l by lia. destruct (a_rule a =? j); [lia|]. apply IH. lia.
Qed.

Theorem fresh_nulls : exists r W, nth_error (p_rules pr) i = Some r /\ invention e r W /\
  forall p x, user_tag p -> result e' p x -> ~ result e p x ->
    (forall z, In z x -> (0 <= z)%Z \/ occurs e z) \/
    exists h mu nu, In h (r_head r) /\ W mu /\ p = fst h /\ x = map (hterm_val mu) (snd h) /\
      matches r (result e) (result e) nu /\ (forall v, ~ is_ex r v -> mu v = nu v) /\
      (exclusive r (has_facts pr r) = false -> (forall k, nth_error (e_history e) k = Some i -> fired pr e k) ->
         ~ satisfied r (result e) nu).
Proof.
  destruct (reachable_inv _ _ _ _ Hwf He) as (H & ops & Inv & _).
  destruct (apply_einv pr e H ops i e' b Hwf Inv Ha) as (a & ops' & Inv' & Ei & Eb & Hf).
  set (D' := facts_at ops').
  assert (Ea : nth_error (H ++ [a]) (length H) = Some a) by (rewrite nth_error_app2, Nat.sub_diag by lia; reflexivity).
  pose proof (i_step _ _ _ _ Inv) as Es.
  assert (Hres : forall p x, result e p x <-> upto D' (S (length H)) p x).
  { intros p x. rewrite (result_before pr e H ops Inv), Es. unfold upto. split; intros (s & Hs & Hd); exists s; split; auto; apply Hf; auto; lia. }
  destruct (i_apps _ _ _ _ Inv' _ _ Ea) as (r & results & R1 & R2 & R3 & R4 & _). rewrite Ei in *.
  assert (Hin : In r (p_rules pr)) by (eapply nth_error_In; eauto).
  pose proof (wf_rules pr Hwf r Hin) as Hwr.
  destruct (cnt_app pr e' _ ops' Inv' _ _ Ea) as (C1 & C2 & C3).
  assert (C0 : a_c a = cnt H (length H)).
  { rewrite C1. unfold cnt. destruct H as [|x0 H0]; [reflexivity|]. cbn [length]. rewrite nth_error_app1 by (simpl; lia). reflexivity. }
  destruct (exec_values pr Hwf Hnn D' r Hin i _ _ _ _ _ _ R3 (fun z => (0 <= z)%Z \/ occurs e z)) as (W & [W1 W2 W3] & HX).
  { auto. }
  { intros q y z Hq Hy Hz. right. exists q, y. split; auto. split; auto. apply Hres. exact Hy. }
  exists r, W. split; auto. split; [constructor|].
  - intros mu v Hm Hv. destruct (W1 mu v Hm) as (n & Hn & ->); [apply ex_vars_spec; auto|]. split; [apply null_neg|].
    intros (p & x & Hp & Hx & Hz). apply (M_facts pr e H ops Inv) in Hx. destruct Hx as (s & Hs).
    pose proof (values_ok pr Hwf Hnn e H ops Inv s p x _ Hp Hs Hz) as Hok. revert Hok. apply null_not_ok.
    pose proof (step_bound pr e H ops Inv p s x Hs). pose proof (cnt_mono pr e H ops Inv s (length H) ltac:(lia) ltac:(lia)). lia.
  - intros mu mu' v v' Hm Hm' Hv Hv' E. destruct (W2 mu mu' v v' Hm Hm') as [E1 E2]; auto; try (apply ex_vars_spec; auto). split; auto.
    intros w Hw. apply E2. apply (frontier_in_list pr); auto. apply is_existential_spec. destruct Hv as (h0 & Hh0 & Hv0). exists h0. split; auto. intros E0. rewrite E0 in Hv0. destruct Hv0.
  - intros mu mu' Hm Hm' E v Hv. apply (W3 mu mu' Hm Hm'); [|apply ex_vars_spec; auto]. intros w Hw. apply E. apply frontier_in; auto.
  - intros p x Hp Hx Hnx. apply (M_facts pr e' _ ops' Inv') in Hx. destruct Hx as (s & Hs).
    assert (s = S (length H)) as ->.
    { pose proof (step_bound pr e' _ ops' Inv' _ _ _ Hs) as Hb. rewrite app_length in Hb. simpl in Hb.
      destruct (Nat.eq_dec s (S (length H))); auto. exfalso. apply Hnx, Hres. exists s. split; auto. lia. }
    apply R4 in Hs. rename Hs into HsN. destruct (HX p x HsN Hp) as [?|(h & mu & nu & Q1 & Q2 & Q3 & Q4 & Q5 & Q6 & Q7 & Q8 & Q9 & Q10)]; auto.
    right. exists h, mu, nu. split; auto. split; auto. split; auto. split; auto. split; [|split; auto].
    + destruct Q7 as [Q7 _]. eapply matches_iff; [| |exact Q7]; intros; symmetry; apply Hres.
    + intros Hex Hfire (mu' & S1' & S2'). rewrite Hex in Q9. simpl in Q9.
      assert (HF : forall v, In v (frontier_list r) -> mu' v = nu v).
      { intros v Hv. apply S1'. apply (frontier_not_ex pr r v Hwf Hin). apply frontier_in; auto. }
      assert (Hkey : forall j, j <= length H -> nth_error (map a_rule (H ++ [a])) j = Some i ->
                (forall h', In h' (r_head r) -> upto D' (S j) (fst h') (map (hterm_val mu') (snd h'))) ->
                (exists h' s, In h' (r_head r) /\ last_app (firstn j (H ++ [a])) i 1 0 <= s < S j /\ D' (fst h') s (map (hterm_val mu') (snd h'))) \/
                upto D' (S j) (sat_tag i) (map nu (frontier_list r))).
      { induction j as [j IH] using lt_wf_ind. intros Hj Hji Hall. set (l := last_app (firstn j (H ++ [a])) i 1 0) in *.
        destruct (last_app_spec (firstn j (H ++ [a])) i) as (L1 & L2 & L3). fold l in L1, L2, L3.
        rewrite firstn_length, app_length in L1. simpl in L1.
        assert (Hd : (exists h' s, In h' (r_head r) /\ l <= s < S j /\ D' (fst h') s (map (hterm_val mu') (snd h'))) \/
                     forall h', In h' (r_head r) -> upto D' l (fst h') (map (hterm_val mu') (snd h'))).
        { clear - Hall. revert Hall. generalize (r_head r) as hs. induction hs as [|h0 hs IHh]; intros Hall; [right; intros h' []|].
          destruct (Hall h0 (or_introl eq_refl)) as (s & Hsx & Hdx). destruct (Nat.le_gt_cases l s) as [Hl|Hl].
          - left. exists h0, s. split; [left; auto|]. split; auto.
          - destruct IHh as [(h' & s' & ? & ? & ?)|Hr]; [intros; apply Hall; right; auto|left; exists h', s'; split; [right|]; auto|].
            right. intros h' [<-|Hh']; auto. exists s. auto. }
        destruct Hd as [?|Hd]; auto. right.
        destruct l as [|l'] eqn:El.
        { destruct (Hd h Q1) as (s1 & Hs1 & _). lia. }
        destruct (L3 l' eq_refl) as (a' & Ha' & Hai & _).
        assert (Hl' : l' < j) by lia. rewrite nth_error_firstn in Ha' by lia.
        assert (Hji' : nth_error (map a_rule (H ++ [a])) l' = Some i) by (rewrite (map_nth_error _ _ _ Ha'), Hai; reflexivity).
        specialize (IH l' Hl' ltac:(lia) Hji' Hd).
        assert (Hup : upto D' (S (S l')) (sat_tag i) (map nu (frontier_list r))).
        { destruct IH as [Hn|(s & Hs & Hd')]; [|exists s; split; auto; lia].
          destruct (i_apps _ _ _ _ Inv' l' a' Ha') as (r' & res' & R1' & R2' & R3' & R4' & _). rewrite Hai in *. rewrite R1 in R1'. injection R1' as <-.
          destruct (x_satc _ _ _ _ _ _ _ _ _ R3') with (nu := nu) as [(s & Hs & Hd')|Hnew].
          - apply is_existential_spec. exists h. auto.
          - assert (Hli : nth_error (e_history e) l' = Some i).
            { rewrite (i_hist _ _ _ _ Inv). rewrite map_app in Hji'. rewrite nth_error_app1 in Hji' by (rewrite map_length; lia). exact Hji'. }
            destruct (Hfire l' Hli) as (i' & r' & nu' & F1 & F2 & F3 & F4). rewrite Hli in F1. injection F1 as <-. rewrite R1 in F2. injection F2 as <-.
            assert (HB : forall p x, before e (S l') p x <-> upto D' (S l') p x).
            { intros p0 x0. rewrite (before_upto pr e H ops Inv). unfold upto. split; intros (s & Hs & Hd'); exists s; split; auto; apply Hf; auto; lia. }
            exists nu'. split; [eapply matches_iff; [| |exact F3]; intros; apply HB|].
            destruct F4 as [?|(p0 & xs & s & F4 & F5 & F6)]; auto. right. exists p0, xs, s. split; auto. split.
            + rewrite (i_hist _ _ _ _ Inv), last_use_app in F5 by lia.
              rewrite firstn_app. replace (l' - length H) with 0 by lia. simpl. rewrite app_nil_r. lia.
            + apply Hf; [lia|]. eapply at_step_facts; eauto.
          - exists mu'. split; auto. split; [intros h' Hh'; apply Hd; auto|]. right. destruct Hn as (h' & s & N1 & N2 & N3).
            exists h', s. split; auto. split; auto. rewrite Hex. simpl. unfold new_start. lia.
          - exists s. split; auto.
          - exists (S l'). split; auto. now apply R4'. }
        destruct Hup as (s & Hs & Hd'). exists s. split; auto. lia. }
      destruct (Hkey (length H)) as [(h' & s & N1 & N2 & N3)|Hu]; auto.
      * rewrite (map_nth_error _ _ _ Ea), Ei. reflexivity.
      * intros h' Hh'. apply Hres. auto.
      * apply Q9. exists mu'. split; auto. split; [intros h'' Hh''; apply Hres; auto|]. right. exists h', s. auto.
Qed.
End Fresh.
