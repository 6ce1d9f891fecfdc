(** Proofs: the atoms of factors, and tables with given facts. *)
From Coq Require Import List Arith ZArith Bool Lia Permutation.
From Verif Require Import TableModel EngineModel EngineSpec EngineProofs1 EngineProofs2 EngineProofs3 StageModel StageSpec StageProofs1 StageProofs2 StageProofs3.
Import ListNotations.

Lemma linked_in l a b : linked l a b -> In a l /\ In b l.
Proof. induction 1; tauto. Qed.
Lemma linked_mono l l' a b : incl l l' -> linked l a b -> linked l' a b.
Proof. intros H. induction 1 as [a Ha|a b c v Ha H1 H2 _ IH]; [left; auto | eright; eauto]. Qed.
Lemma linked_trans l a b c : linked l a b -> linked l b c -> linked l a c.
Proof. induction 1 as [a Ha|a b d v Ha H1 H2 _ IH]; auto. intros H. eright; eauto. Qed.
Lemma linked_sym l a b : linked l a b -> linked l b a.
Proof.
  induction 1 as [a Ha|a b c v Ha H1 H2 Hbc IH]; [now left|]. apply (linked_trans _ _ _ _ IH).
  apply linked_step with (b := a) (v := v); auto; [apply (linked_in _ _ _ Hbc)|now left].
Qed.

(** Atoms of a factor are connected. *)
Lemma fold_linked l : forall p a b, In p (fold_left add_atom l []) -> In a (snd p) -> In b (snd p) -> linked l a b.
Proof.
  induction l as [|x l IH] using rev_ind; [intros p a b []|]. rewrite fold_left_app. cbn [fold_left]. intros p a b.
  pose proof (fold_parts l) as [H1 H2 _ _]. set (ps := fold_left add_atom l []) in *.
  unfold add_atom. rewrite partition_filter. set (f := fun p : partition_t => existsb (fun v => memv v (snd x)) (fst p)).
  assert (Mono : incl l (l ++ [x])) by (intros y Hy; apply in_app_iff; auto).
  rewrite in_app_iff. intros [Hp|[<-|[]]] Ha Hb.
  - apply filter_In in Hp. apply (linked_mono l); auto. apply (IH p); tauto.
  - cbn [snd] in Ha, Hb. assert (Hx : forall y, In y (x :: flat_map snd (filter f ps)) -> linked (l ++ [x]) x y).
    { intros y [<-|Hy]; [left; apply in_app_iff; simpl; auto|]. apply in_flat_map in Hy. destruct Hy as (q & Hq & Hy).
      apply filter_In in Hq. destruct Hq as [Hq Hf]. apply existsb_exists in Hf. destruct Hf as (v & Hv & Hm). apply memv_in in Hm.
      apply (H2 q v Hq) in Hv. destruct Hv as (c & Hc & Hv). apply linked_step with (b := c) (v := v); auto.
      - apply in_app_iff. simpl. auto.
      - apply (linked_mono l); auto. apply (IH q); auto. }
    apply (linked_trans _ _ x); [apply linked_sym|]; auto.
Qed.

Lemma same_part l a b : linked l a b -> exists p, In p (fold_left add_atom l []) /\ In a (snd p) /\ In b (snd p).
Proof.
  pose proof (fold_parts l) as [H1 H2 H3 H4]. set (ps := fold_left add_atom l []) in *.
  assert (Hin : forall a, In a l -> exists p, In p ps /\ In a (snd p)).
  { intros x Hx. apply (Permutation_in _ (Permutation_sym H1)), in_flat_map in Hx. exact Hx. }
  induction 1 as [a Ha|a b c v Ha Hv1 Hv2 _ IH].
  - destruct (Hin a Ha) as (p & Hp & Hap). eauto.
  - destruct IH as (p & Hp & Hb & Hc). destruct (Hin a Ha) as (q & Hq & Haq). exists p. split; auto. split; auto.
    destruct (fop_in _ _ p q H4 Hp Hq) as [->|[Hd|Hd]]; auto; exfalso; apply (Hd v); [apply (H2 p v)|apply (H2 q v)|apply (H2 q v)|apply (H2 p v)]; eauto.
Qed.

Definition factor_atoms (f : factor) : list atom := match f with FAtoms l => l | FOps _ => [] end.
Theorem factors_spec atoms ops fs rest : (forall v e, In (OEq v e) ops -> e_vars e = [] -> In v (atom_vars atoms)) -> partition_atoms atoms ops = (fs, rest) ->
  rest = ops /\ (forall f, In f fs -> exists l, f = FAtoms l /\ l <> []) /\
  Permutation (flat_map factor_atoms fs) atoms /\
  forall a b, linked atoms a b <-> exists l, In (FAtoms l) fs /\ In a l /\ In b l.
Proof.
  intros Hc H. unfold partition_atoms in H. cbn [constant_loop] in H. rewrite constant_pass_none in H by exact Hc. injection H as <- <-. rewrite app_nil_r.
  pose proof (fold_parts atoms) as [H1 H2 H3 H4]. split; auto. split; [|split].
  - intros f Hf. apply in_map_iff in Hf. destruct Hf as (p & <- & Hp). exists (snd p). split; auto.
  - rewrite flat_map_concat_map, map_map, <- flat_map_concat_map. cbn [factor_atoms]. exact H1.
  - intros a b. split.
    + intros Hl. destruct (same_part _ _ _ Hl) as (p & Hp & Ha & Hb). exists (snd p). split; auto. apply in_map_iff. exists p. auto.
    + intros (l & Hl & Ha & Hb). apply in_map_iff in Hl. destruct Hl as (p & E & Hp). injection E as <-. now apply (fold_linked atoms p).
Qed.

Lemma facts_reads facts : reads (facts_reader facts) (step0 facts).
Proof.
  intros p lo hi. eexists. split; [reflexivity|]. intros t. unfold step0.
  assert (F : In t (facts_of facts p) <-> In (p, t) facts).
  { unfold facts_of. rewrite in_map_iff. split.
    - intros ([q u] & <- & Hx). apply filter_In in Hx. destruct Hx as [Hx E]. apply Nat.eqb_eq in E. cbn in E. now subst q.
    - intros Hx. exists (p, t). split; auto. apply filter_In. cbn. now rewrite Nat.eqb_refl. }
  destruct ((lo =? 0) && (0 <? hi)) eqn:E.
  - apply andb_true_iff in E. destruct E as [E1 E2]. apply Nat.eqb_eq in E1. apply Nat.ltb_lt in E2. rewrite F. split.
    + intros Hx. exists 0. split; [lia|auto].
    + intros (s & _ & _ & Hx). exact Hx.
  - split; [intros []|]. intros (s & Hs & -> & _). apply andb_false_iff in E. rewrite Nat.eqb_neq, Nat.ltb_ge in E. lia.
Qed.

(** Variables that are bound, computed. *)
Lemma bound_by r vs fns rest : gen_function (atom_vars (r_pos r)) (r_ops r) = Some (vs, fns, rest) -> forall v, bound r v <-> In v vs.
Proof. intros H v. rewrite clo_bound. symmetry. apply (gen_function_clo _ _ _ _ _ H v). Qed.
