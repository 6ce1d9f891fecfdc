(** C32. Variable orders. *)
From Coq Require Import List Arith ZArith Bool Lia Permutation.
From Verif Require Import TableModel EngineModel EngineSpec PermModel PermProofs PermProps OrderModel OrderSpec OrderProofs OrderProofs2.
Import ListNotations.

Lemma head_vars_in r v : In v (head_vars r) <-> in_head r v.
Proof.
  unfold head_vars, in_head, hatom_vars. rewrite in_flat_map. split.
  - intros (a & Ha & Hv). exists a. split; auto. apply in_flat_map in Hv. destruct Hv as ([w|w|c] & Ht & Hw); simpl in Hw; [destruct Hw as [<-|[]]; auto|destruct Hw as [<-|[]]; auto|destruct Hw].
  - intros (a & Ha & Hv). exists a. split; auto. apply in_flat_map. destruct Hv as [Hv|Hv]; eexists; (split; [exact Hv|simpl; auto]).
Qed.
Lemma atom_vars_in l v : In v (atom_vars l) <-> exists p xs, In (p, xs) l /\ In v xs.
Proof.
  unfold atom_vars. rewrite in_flat_map. split; [intros ([p xs] & H); exists p, xs; exact H|intros (p & xs & H); exists (p, xs); exact H].
Qed.
Lemma rule_vars_in r v : In v (rule_vars r) <-> in_rule r v.
Proof.
  unfold rule_vars, in_rule. rewrite !in_app_iff, head_vars_in, !atom_vars_in, in_flat_map.
  assert (Ha : In v match r_agg r with Some (a, _) => agg_vars a | None => [] end <->
     exists a k, r_agg r = Some (a, k) /\ (v = ag_in a \/ v = ag_out a \/ In v (ag_distinct a) \/ In v (ag_group a))).
  { destruct (r_agg r) as [[a k]|]; [|split; [intros []|intros (a & k & E & _); discriminate]]. unfold agg_vars. simpl. rewrite in_app_iff. split.
    - intros H. exists a, k. split; auto. intuition.
    - intros (a' & k' & E & H). injection E as <- <-. intuition. }
  rewrite Ha. assert (Hb : (exists p xs, In (p, xs) (r_pos r ++ r_neg r) /\ In v xs) <->
    (exists p xs, In (p, xs) (r_pos r) /\ In v xs) \/ (exists p xs, In (p, xs) (r_neg r) /\ In v xs)).
  { split.
    - intros (p & xs & H & Hv). apply in_app_iff in H. destruct H; [left|right]; eauto.
    - intros [(p & xs & H & Hv)|(p & xs & H & Hv)]; exists p, xs; rewrite in_app_iff; auto. }
  rewrite Hb. tauto.
Qed.

(** Computing the orders of a program never panics. The order of a rule has each of its variables exactly once.
    The variables of the positive body come first; among them, a variable that shares no atom with an
    earlier one is chosen only if no later variable does. The order for the head of an existential rule
    has each head variable exactly once. *)
Theorem C32_orders : forall pr, exists rules, compute_orders pr = Some rules /\
  Forall2 (fun r r' => same_rule r r' /\ once_each (r_order r') (in_rule r) /\
      (exists first rest, r_order r' = first ++ rest /\ once_each first (in_positive r) /\ connected (r_pos r) first) /\
      (is_existential r = true -> once_each (r_exorder r') (in_head r))) (p_rules pr) rules.
Proof.
  intros pr. destruct (compute_orders_spec pr) as (rs & E & H). exists rs. split; auto. eapply Forall2_weak; [|exact H].
  intros r r' (H1 & H2 & H3 & H4 & H5 & [O1 O2] & (f & t & Ef & [F1 F2] & Fc) & Hx). split; [repeat split; auto|]. split; [split; auto; intros v; rewrite O2; apply rule_vars_in|].
  split.
  - exists f, t. split; auto. split; auto. split; auto. intros v. rewrite F2. apply atom_vars_in.
  - intros Hex. destruct (Hx Hex) as [X1 X2]. split; auto. intros v. rewrite X2. apply head_vars_in.
Qed.
Print Assumptions C32_orders.

(** What rule execution assumes about the orders (wf_order and wf_exorder in EngineSpec) holds of every program. *)
Theorem C32_orders_suffice : forall pr rules, compute_orders pr = Some rules -> forall r, In r rules ->
  (NoDup (r_order r) /\ incl (atom_vars (r_pos r)) (r_order r)) /\
  (is_existential r = true -> NoDup (r_exorder r) /\ incl (head_vars r) (r_exorder r)).
Proof.
  intros pr rules E r Hr. destruct (C32_orders pr) as (rs & E' & H). rewrite E in E'. injection E' as <-.
  assert (Hq : exists r0, same_rule r0 r /\ once_each (r_order r) (in_rule r0) /\ (is_existential r0 = true -> once_each (r_exorder r) (in_head r0))).
  { clear E. induction H as [|r0 r1 l l' (P1 & P2 & _ & P4) _ IH]; [destruct Hr|]. destruct Hr as [<-|Hr]; eauto. }
  destruct Hq as (r0 & (S1 & S2 & S3 & S4 & S5) & [O1 O2] & Hx). split.
  - split; auto. intros v Hv. apply O2. right. left. apply atom_vars_in in Hv. destruct Hv as (p & xs & Hp & Hv). exists p, xs. rewrite <- S2. rewrite in_app_iff. auto.
  - intros He. assert (He0 : is_existential r0 = true) by (unfold is_existential in *; congruence). destruct (Hx He0) as [X1 X2]. split; auto.
    intros v Hv. apply X2. apply head_vars_in. unfold head_vars in *. congruence.
Qed.
Print Assumptions C32_orders_suffice.

(** One pass over all rules, with any iteration order and any valid column orders to start with: it gives an
    order for every rule such that for every body atom a column order that arranges its columns in the order of
    the rule's variables is among the column orders of its predicate. *)
Theorem C32_column_orders : forall it c idb bodies,
  (forall p l q, co_get c p = Some l -> In q l -> built q) ->
  exists orders c', build_for it c idb bodies = Some (orders, c') /\
    Forall2 (fun atoms o => exists L, vo_list o = Some L /\ once_each L (fun v => exists p xs, In (p, xs) atoms /\ In v xs) /\
        connected atoms L /\
        forall p xs, In (p, xs) atoms -> xs <> [] -> exists l q, co_get c' p = Some l /\ In q l /\ arranges q xs L) bodies orders.
Proof.
  intros it c idb bodies Hc. destruct (build_for_spec it c idb bodies) as (os & c' & E & _ & H).
  { intros p l y Hl Hy. apply built_wf. eauto. }
  exists os, c'. split; auto. eapply Forall2_weak; [|exact H]. intros atoms o (L & -> & [L1 L2] & Lc & Lcov). exists L.
  split; [now apply list_canon|]. split; [split; auto; intros v; rewrite L2; apply atom_vars_in|]. split; auto.
  intros p xs Hp Hx. destruct (Lcov p xs Hp Hx) as (x & Ex & l & q & Hl & Hq & Hg).
  { intros v Hv. apply L2. apply atom_vars_in. eauto. }
  exists l, q. split; auto. split; auto. destruct (column_order_spec L xs L1) as (x' & Ex' & _ & (A1 & A2 & A3)). rewrite Ex in Ex'. injection Ex' as <-.
  split; [|split].
  - intros i Hi. rewrite Hg. auto.
  - intros i j Hij. rewrite !Hg in Hij. auto.
  - intros i j y z b m a Hi Hj Ho. rewrite !Hg. eapply A3; eauto.
Qed.
Print Assumptions C32_column_orders.

(** The orders are hash maps. Their listing does not depend on the order in which a hash map is iterated. *)
Theorem C32_listing : forall L (o : vorder), NoDup L -> (forall v i, In (v, i) o <-> nth_error L i = Some v) -> NoDup o -> vo_iter o = L.
Proof.
  intros L o HL Ho Hn. unfold vo_iter. rewrite (sort_canon L); [apply canon_fst|].
  apply NoDup_Permutation; auto.
  - apply (NoDup_map_inv fst). now rewrite canon_fst.
  - intros [v i]. rewrite Ho. unfold canon.
    assert (H : forall k, In (v, i) (combine L (seq k (length L))) <-> k <= i /\ nth_error L (i - k) = Some v).
    { clear. induction L as [|x L IH]; intros k; simpl; [split; [tauto|intros [_ H]; destruct (i - k); discriminate]|]. rewrite IH. split.
      - intros [E|[H1 H2]]; [injection E as -> ->; rewrite Nat.sub_diag; auto|]. split; [lia|]. now replace (i - k) with (S (i - S k)) by lia.
      - intros [H1 H2]. destruct (Nat.eq_dec k i) as [->|Hd]; [rewrite Nat.sub_diag in H2; injection H2 as ->; auto|].
        right. split; [lia|]. now replace (i - k) with (S (i - S k)) in H2 by lia. }
    rewrite (H 0), Nat.sub_0_r. split; [intros E; split; [lia|auto]|tauto].
Qed.
Print Assumptions C32_listing.

(** Restricting an order keeps exactly the given variables, in the same order. *)
Theorem C32_restrict : forall L vs, NoDup L -> NoDup vs -> exists o, vo_restrict (vo_new L) vs = Some o /\
  vo_list o = Some (filter (fun v => memv v vs) L).
Proof.
  intros L vs HL Hv. rewrite new_canon by auto. eexists. split; [now apply restrict_canon|]. apply list_canon. now apply NoDup_filter.
Qed.
Print Assumptions C32_restrict.

(** ** Non-vacuity: t(x, w) :- p(x, y), q(z, w), r(y, z), a rule with a Cartesian product, and an existential rule. *)
Definition demo_orders : program := mkProgram
  [mkRule [(6, [HVar 0; HVar 3])] [(0, [0; 1]); (2, [2; 3]); (4, [1; 2])] [] [] None [] [];
   mkRule [(8, [HVar 0])] [(0, [0; 1]); (6, [2; 3])] [(4, [0; 5])] [] None [] [];
   mkRule [(2, [HVar 1; HEx 7]); (2, [HEx 7; HConst 3%Z])] [(6, [1; 1])] [] [] None [] []]
  [(0, [1; 2]%Z)] [] [(0, 2); (2, 2); (4, 2); (6, 2); (8, 1)] [].
Example demo_orders_computed : option_map (map (fun r => (r_order r, r_exorder r))) (compute_orders demo_orders) =
  Some [([2; 3; 1; 0], []); ([3; 2; 0; 1; 5], []); ([1; 7], [7; 1])].
Proof. vm_compute. reflexivity. Qed.
Example demo_restrict : vo_restrict (vo_new [4; 7; 2; 9]) [9; 4; 1] = Some (vo_new [4; 9]).
Proof. reflexivity. Qed.
