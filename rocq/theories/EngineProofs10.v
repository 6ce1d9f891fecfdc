(** Runs of [execute] with the default strategy. *)
From Coq Require Import List Arith ZArith Bool Lia Permutation Sorted.
From Verif Require Import TableModel TableSpec TableProofs TableProofs2 EngineModel EngineSpec EngineProofs1 EngineProofs2 EngineProofs3 EngineProofs4 EngineProofs5 EngineProofs6 EngineProofs7 EngineProofs8 EngineProofs9.
From Verif Require Import StrategyModel StrategySpec StrategyProofs StrategyProofs2.
Import ListNotations.

Lemma execute_inv {T} pr (next : T -> option bool -> option (option nat * T)) s0 n : wf_program pr ->
  match execute pr next s0 n with
  | Panicked => True
  | Running e s resp => exists H ops, einv pr e H ops /\ history next s0 (hist_of H) s resp
  | Finished e => exists H ops, einv pr e H ops /\ stops next s0 (hist_of H)
  end.
Proof.
  intros Hwf. induction n as [|n IH]; simpl.
  - destruct (engine_init pr) as [e|] eqn:E; auto. destruct (conj (init_einv pr e Hwf E) (eq_refl 0)) as [Hinv _]. exists [], (init_ops pr). split; auto. constructor.
  - destruct (execute pr next s0 n) as [|e s resp|e]; simpl; auto. destruct IH as (H & ops & Hinv & Hh).
    destruct (next s resp) as [[[i|] s']|] eqn:En; auto.
    + destruct (engine_apply pr e i) as [[e' b]|] eqn:Ea; auto.
      destruct (apply_einv pr e H ops i _ b Hwf Hinv Ea) as (a & ops' & Hinv' & Hi & Hb & _).
      exists (H ++ [a]), ops'. split; auto. unfold hist_of. rewrite map_app. simpl. rewrite Hi, Hb. now apply (h_step _ _ _ s resp).
    + exists H, ops. split; auto. exists s, resp, s'. auto.
Qed.

Lemma reachable_inv {T} pr (next : T -> option bool -> option (option nat * T)) s0 e : wf_program pr -> reachable pr next s0 e ->
  exists H ops, einv pr e H ops /\ exists s resp, history next s0 (hist_of H) s resp.
Proof.
  intros Hwf (n & Hn). pose proof (execute_inv pr next s0 n Hwf) as Hi. destruct Hn as [(s & resp & Hn)|Hn]; rewrite Hn in Hi.
  - destruct Hi as (H & ops & Hinv & Hh). exists H, ops. split; auto. eauto.
  - destruct Hi as (H & ops & Hinv & (s & resp & s' & Hh & _)). exists H, ops. split; auto. eauto.
Qed.

Section Default.
Context (pr : program) (Hwf : wf_program pr) (st : sn_state) (Hst : default_strategy (p_rules pr) st).

Lemma default_rank : exists rk, ranked pr rk /\
  forall H s r, history sn_next st H s r -> S2 pr H.
Proof.
  destruct Hst as (nc & pc & H1 & H2 & H3). destruct (sn_rank_order _ _ _ H1 H2 st H3) as (rk & R1 & R2 & R3). exists rk. split.
  - intros i j ri rj a Hi Hj Ha. split.
    + intros xs Hx. split.
      * apply R1. exists rj, ri, a, (fst a, xs). auto 10.
      * intros Hg. apply R2. exists rj, ri, a, (fst a, xs). auto 10.
    + intros xs Hx. apply R2. exists rj, ri, a, (fst a, xs). auto 10.
  - intros H s r Hh k k' i j b b' ri rj p Hle Hk Hk' Hi Hj (a & Ha & <-). specialize (R3 H s r Hh k k' i j b b' Hle Hk Hk'). split.
    + intros (xs & Hx). assert (rk j < rk i); [|lia]. apply R2. exists rj, ri, a, (fst a, xs). auto 10.
    + intros Hg (xs & Hx). assert (rk j < rk i); [|lia]. apply R2. exists rj, ri, a, (fst a, xs). auto 10.
Qed.

Lemma default_S1 H : stops sn_next st H -> S1 pr H.
Proof.
  intros Hs. destruct Hst as (nc & pc & H1 & H2 & H3). pose proof (sn_quiet _ _ _ H1 H2 st H3 H Hs) as Hq.
  intros i ri Hi. destruct (Hq i) as (l & b & Hl & Hk); [apply nth_error_Some; congruence|]. exists l, b. split; auto.
  intros k j rj p Hle Hkj Hj (a & Ha & <-) (xs & Hx). apply (Hk k j Hle Hkj). exists rj, ri, a, (fst a, xs). auto 10.
Qed.

Theorem materialization_sound e : reachable pr sn_next st e -> forall p x, user_tag p -> result e p x -> deriv pr (result e) p x.
Proof.
  intros Hr p x Hp Hx. destruct (reachable_inv _ _ _ _ Hwf Hr) as (H & ops & Hinv & s & r & Hh). destruct default_rank as (rk & _ & HS2).
  eapply sound_result; eauto.
Qed.

Lemma finished_inv e n : execute pr sn_next st n = Finished e -> exists H ops, einv pr e H ops /\ S1 pr (hist_of H) /\ S2 pr (hist_of H).
Proof.
  intros Hn. pose proof (execute_inv pr sn_next st n Hwf) as Hi. rewrite Hn in Hi. destruct Hi as (H & ops & Hinv & Hs).
  exists H, ops. split; auto. split; [now apply default_S1|]. destruct Hs as (s & r & s' & Hh & _). destruct default_rank as (rk & _ & HS2). eauto.
Qed.

Theorem materialization_closed e n : execute pr sn_next st n = Finished e -> closed pr (result e).
Proof. intros Hn. destruct (finished_inv e n Hn) as (H & ops & Hinv & HS1 & HS2). eapply closed_result; eauto. Qed.

Theorem materialization_perfect e n : existential_free pr -> execute pr sn_next st n = Finished e ->
  perfect pr (result e) /\ forall M, perfect pr M -> forall p x, M p x <-> result e p x.
Proof.
  intros Hef Hn. destruct (finished_inv e n Hn) as (H & ops & Hinv & HS1 & HS2).
  assert (Hp : perfect pr (result e)) by (eapply perfect_result; eauto). split; auto.
  intros M HM. destruct default_rank as (rk & Hrk & _). eapply perfect_unique; eauto.
Qed.
End Default.

(** ** Independence of the order of rules and facts *)

Lemma deriv_same pr pr' M : same_program pr pr' -> forall p x, deriv pr M p x -> deriv pr' M p x.
Proof.
  intros (S1' & S2' & S3'). induction 1 as [p r Hp|p rows r Hp Hr|rl nu mu k a Hrl _ IH Hops Hneg Hk Hag Hmu|rl ag mu k a Hrl Hra Hk Hav].
  - apply d_fact. now apply S2'.
  - eapply d_import; eauto. now apply S3'.
  - eapply d_rule; eauto. now apply S1'.
  - eapply d_agg; eauto. now apply S1'.
Qed.

Theorem order_independent pr pr' st st' e e' n n' :
  wf_program pr -> wf_program pr' -> same_program pr pr' -> existential_free pr ->
  default_strategy (p_rules pr) st -> default_strategy (p_rules pr') st' ->
  execute pr sn_next st n = Finished e -> execute pr' sn_next st' n' = Finished e' ->
  forall p x, result e p x <-> result e' p x.
Proof.
  intros Hwf Hwf' Hs Hef Hst Hst' Hn Hn' p x.
  assert (Hs' : same_program pr' pr) by (destruct Hs as (A & B & C); repeat split; intros; firstorder).
  assert (Hef' : existential_free pr') by (intros r Hr; apply Hef; now apply Hs).
  destruct (materialization_perfect pr Hwf st Hst e n Hef Hn) as [_ Hu].
  destruct (materialization_perfect pr' Hwf' st' Hst' e' n' Hef' Hn') as [Hp' _].
  symmetry. apply Hu. intros q y. rewrite (Hp' q y). split; apply deriv_same; auto.
Qed.
