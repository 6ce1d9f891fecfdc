(** Rule selection: consequences stated in terms of rules, and small examples of condensations. *)
From Coq Require Import List Arith Bool Lia Permutation Relations.
From Verif Require Import TableModel EngineModel StrategyModel StrategySpec StrategyProofs StrategyProofs2.
Import ListNotations.

Lemma reach_feeds rules a b : reach (positive_edges rules) a b -> clos_refl_trans nat (feeds rules) a b.
Proof.
  induction 1 as [x y Hxy|x|x y z _ IH1 _ IH2]; [apply rt_step; now apply positive_edges_spec|apply rt_refl|eapply rt_trans; eauto].
Qed.

Theorem dg_later_feeds rules comps st : condensation (length rules) (positive_edges rules) comps -> dg_new comps rules = Some st ->
  forall H s r, history dg_next st H s r -> forall k k' i j b b', k <= k' -> nth_error H k = Some (i, b) -> nth_error H k' = Some (j, b') ->
    feeds rules j i -> clos_refl_trans nat (feeds rules) i j.
Proof.
  intros Hco Hst H s r Hh k k' i j b b' Hle Hi Hj Hf.
  destruct (dg_order rules comps st Hst H s r Hh k k' i j b b' Hle Hi Hj) as (c & c' & gi & gj & Hc & Hgi & Ii & Hgj & Ij).
  assert (He : In (j, i) (positive_edges rules)) by now apply positive_edges_spec.
  pose proof (co_topo _ _ _ Hco _ _ _ _ _ _ Hgj Hgi Ij Ii He) as Hc'. assert (c = c') as <- by lia. rewrite Hgi in Hgj. injection Hgj as <-.
  apply reach_feeds. apply (co_scc _ _ _ Hco gi i j); auto. eapply nth_error_In; eauto.
Qed.

Lemma singletons_condensation n edges : (forall u v, In (u, v) edges -> u <= v /\ v < n) ->
  condensation n edges (map (fun i => [i]) (seq 0 n)).
Proof.
  intros He. assert (Hr : forall a b, reach edges a b -> a <= b).
  { induction 1 as [x y Hxy|x|x y z _ IH1 _ IH2]; [apply He in Hxy; lia|lia|lia]. }
  constructor.
  - assert (E : concat (map (fun i => [i]) (seq 0 n)) = seq 0 n); [|rewrite E; auto]. generalize 0 as a. clear. induction n as [|n IH]; intros a; simpl; auto. now rewrite IH.
  - intros c Hc. apply in_map_iff in Hc. destruct Hc as (i & <- & _). discriminate.
  - intros c u v Hc Hu. apply in_map_iff in Hc. destruct Hc as (i & <- & _). destruct Hu as [<-|[]]. simpl. split.
    + intros [<-|[]]. split; apply rt_refl.
    + intros [H1 H2]. apply Hr in H1, H2. left. lia.
  - intros i j ci cj u v Hi Hj Hu Hv Huv. apply He in Huv. rewrite nth_error_map in Hi, Hj.
    destruct (nth_error (seq 0 n) i) as [x|] eqn:Ex; [|discriminate]. destruct (nth_error (seq 0 n) j) as [y|] eqn:Ey; [|discriminate].
    simpl in Hi, Hj. injection Hi as <-. injection Hj as <-. destruct Hu as [<-|[]]. destruct Hv as [<-|[]].
    assert (Hx : i < n) by (rewrite <- (seq_length n 0); apply nth_error_Some; congruence).
    assert (Hy : j < n) by (rewrite <- (seq_length n 0); apply nth_error_Some; congruence).
    rewrite (nth_error_nth' _ 0) in Ex by (rewrite seq_length; auto). rewrite (nth_error_nth' _ 0) in Ey by (rewrite seq_length; auto).
    rewrite seq_nth in Ex, Ey by auto. injection Ex as <-. injection Ey as <-. lia.
Qed.

Definition edgesb (n : nat) (edges : list (nat * nat)) : bool := forallb (fun e => (fst e <=? snd e) && (snd e <? n)) edges.
Lemma singletons_ok n edges : edgesb n edges = true -> condensation n edges (map (fun i => [i]) (seq 0 n)).
Proof.
  intros H. apply singletons_condensation. intros u v Hi. unfold edgesb in H. rewrite forallb_forall in H. specialize (H _ Hi). simpl in H.
  apply andb_prop in H. destruct H as [H1 H2]. apply Nat.leb_le in H1. apply Nat.ltb_lt in H2. auto.
Qed.
