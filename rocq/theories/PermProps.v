(** C16. Column orders (permutations) obey their algebra. *)
From Coq Require Import List Arith Bool Lia Permutation.
From Verif Require Import PermModel PermProofs PermProofs2.
Import ListNotations.

(** ** Specification: the permutations a program can have *)
(** A list of the numbers below its length, in some order. *)
Definition arrangement (v : list nat) : Prop := Permutation v (seq 0 (length v)).
(** A finite bijection given by its entries. *)
Definition bijection (m : list (nat * nat)) : Prop := NoDup (map fst m) /\ Permutation (map fst m) (map snd m).

Inductive built : perm -> Prop :=
| b_default : built perm_default
| b_vector v p : arrangement v -> from_vector v = Some p -> built p
| b_map m p : bijection m -> from_map m = Some p -> built p
| b_invert p : built p -> built (invert p)
| b_chain p q r : built p -> built q -> chain p q = Some r -> built r.

Lemma built_wf : forall p, built p -> wfp p.
Proof.
  induction 1 as [|v p Hv E|m p [H1 H2] E|p _ IH|p q r _ IHp _ IHq E].
  - apply default_wfp.
  - apply vperm_iff in Hv. destruct (from_vector_spec v Hv) as (p' & E' & W & _). congruence.
  - destruct (from_map_spec m H1 H2) as (p' & E' & W & _). congruence.
  - now apply invert_wfp.
  - destruct (chain_spec p q IHp IHq) as (r' & E' & W & _). congruence.
Qed.

(** ** Theorems *)

(** Building from a vector never panics; the value at position [i] is mapped to [i], everything else to itself. *)
Theorem C16_from_vector : forall v, arrangement v -> exists p, from_vector v = Some p /\
  (forall i x, nth_error v i = Some x -> get p x = i) /\ (forall x, length v <= x -> get p x = x).
Proof.
  intros v Hv. apply vperm_iff in Hv. destruct (from_vector_spec v Hv) as (p & E & _ & G). exists p. split; auto. split.
  - intros i x Hi. specialize (G i). unfold vget in G. now rewrite Hi in G.
  - intros x Hx. specialize (G x). unfold vget in G. now rewrite (proj2 (nth_error_None v x) Hx) in G.
Qed.
Print Assumptions C16_from_vector.

(** Building from a map, whatever order the hash map is iterated in. *)
Theorem C16_from_map : forall m, bijection m -> exists p, from_map m = Some p /\
  (forall k x, In (k, x) m -> get p k = x) /\ (forall k, ~ In k (map fst m) -> get p k = k).
Proof.
  intros m [H1 H2]. destruct (from_map_spec m H1 H2) as (p & E & _ & G). exists p. split; auto. split.
  - intros k x Hk. rewrite G. apply mget_in in Hk; auto. now rewrite Hk.
  - intros k Hk. rewrite G. destruct (mget m k) as [x|] eqn:Em; auto. apply mget_in in Em; auto.
    exfalso. apply Hk. apply in_map_iff. exists (k, x). auto.
Qed.
Print Assumptions C16_from_map.

(** The inverse is a two-sided inverse. *)
Theorem C16_invert : forall p, built p -> forall i, get (invert p) (get p i) = i /\ get p (get (invert p) i) = i.
Proof. intros p Hp. apply invert_wfp. now apply built_wf. Qed.
Print Assumptions C16_invert.

(** Chaining never panics and composes: first [p], then [q]. *)
Theorem C16_chain : forall p q, built p -> built q -> exists r, chain p q = Some r /\ forall i, get r i = get q (get p i).
Proof.
  intros p q Hp Hq. destruct (chain_spec p q) as (r & E & _ & G); eauto using built_wf.
Qed.
Print Assumptions C16_chain.

(** Two permutations compare equal iff they are the same function; and [is_identity] means what it says. *)
Theorem C16_equality : forall p q, built p -> built q -> (perm_eqb p q = true <-> forall i, get p i = get q i).
Proof. intros p q Hp Hq. apply eqb_spec; now apply built_wf. Qed.
Print Assumptions C16_equality.

Theorem C16_is_identity : forall p, is_identity p = true <-> forall i, get p i = i.
Proof. exact is_identity_spec. Qed.
Print Assumptions C16_is_identity.

(** Consequently the group laws hold up to the equality of the code. *)
Theorem C16_group : forall p q r, built p -> built q -> built r ->
  exists pq qr pq_r p_qr pi ip, chain p q = Some pq /\ chain q r = Some qr /\ chain pq r = Some pq_r /\ chain p qr = Some p_qr /\
    chain p (invert p) = Some pi /\ chain (invert p) p = Some ip /\
    perm_eqb pq_r p_qr = true /\ perm_eqb pi perm_default = true /\ perm_eqb ip perm_default = true.
Proof.
  intros p q r Hp Hq Hr.
  assert (I : built (invert p)) by now constructor.
  destruct (C16_chain p q Hp Hq) as (pq & E1 & G1). destruct (C16_chain q r Hq Hr) as (qr & E2 & G2).
  assert (B1 : built pq) by (eapply b_chain with (p := p) (q := q); eauto). assert (B2 : built qr) by (eapply b_chain with (p := q) (q := r); eauto).
  destruct (C16_chain pq r B1 Hr) as (pq_r & E3 & G3). destruct (C16_chain p qr Hp B2) as (p_qr & E4 & G4).
  destruct (C16_chain p (invert p) Hp I) as (pi & E5 & G5). destruct (C16_chain (invert p) p I Hp) as (ip & E6 & G6).
  assert (D : forall i, get perm_default i = i) by (intros [|i]; reflexivity).
  exists pq, qr, pq_r, p_qr, pi, ip. repeat split; auto; apply C16_equality; eauto using built; intros i.
  - rewrite G3, G4, G1, G2. auto.
  - rewrite G5, D. now apply C16_invert.
  - rewrite G6, D. now apply C16_invert.
Qed.
Print Assumptions C16_group.

(** Permuting a slice moves the element at [i] to [get p i] (if the permutation does not move indices
    beyond the slice), is undone by the inverse, and permuting twice is permuting by the chain. *)
Theorem C16_permute : forall A p (v : list A), built p -> (forall i, length v <= i -> get p i = i) ->
  exists w, permute p v = Some w /\ length w = length v /\ (forall i, nth_error w (get p i) = nth_error v i) /\
    permute (invert p) w = Some v.
Proof.
  intros A p v Hp Hv. apply built_wf in Hp. destruct (permute_spec A p v Hp Hv) as (w & E & Hl & Hw).
  exists w. repeat split; auto. destruct (permute_invert A p v Hp Hv) as (w' & E' & I). congruence.
Qed.
Print Assumptions C16_permute.

Theorem C16_permute_chain : forall A p q (v : list A), built p -> built q ->
  (forall i, length v <= i -> get p i = i) -> (forall i, length v <= i -> get q i = i) ->
  exists r w u, chain p q = Some r /\ permute p v = Some w /\ permute q w = Some u /\ permute r v = Some u.
Proof. intros A p q v Hp Hq. apply permute_chain; now apply built_wf. Qed.
Print Assumptions C16_permute_chain.

(** The permutation computed for a slice of values sorts it, stably. *)
Theorem C16_from_unsorted : forall A (le : A -> A -> bool) d vals,
  (forall a b, le a b = true \/ le b a = true) -> (forall a b c, le a b = true -> le b c = true -> le a c = true) ->
  exists p r, from_unsorted le d vals = Some p /\ permute p vals = Some r /\ Permutation vals r /\
    (forall i j a b, i < j -> nth_error r i = Some a -> nth_error r j = Some b -> le a b = true) /\
    (forall i j a b, i < j -> nth_error vals i = Some a -> nth_error vals j = Some b -> le a b = true -> le b a = true -> get p i < get p j).
Proof.
  intros A le d vals H1 H2. destruct (from_unsorted_spec A le d H1 H2 vals) as (p & r & E & W & Ep & S1 & S2).
  exists p, r. repeat split; auto.
  assert (Hout : forall i, length vals <= i -> get p i = i).
  { destruct (sort_idx_spec A le d H1 H2 vals) as [Hp _]. assert (Hl : length (sort_idx le d vals) = length vals) by (apply Permutation_length in Hp; now rewrite seq_length in Hp).
    assert (Hv : arrangement (sort_idx le d vals)) by (unfold arrangement; now rewrite Hl).
    destruct (C16_from_vector _ Hv) as (p' & E' & _ & G). unfold from_unsorted in E. rewrite E in E'. injection E' as <-. rewrite Hl in G. auto. }
  destruct (permute_spec A p vals W Hout) as (r' & E' & Hl & Hr). rewrite Ep in E'. injection E' as <-.
  apply Permutation_nth_error. split; auto. destruct (invert_wfp p W) as [Wi Gi]. exists (get (invert p)). split; [intros i j; now apply get_inj|].
  intros i. destruct (Gi i) as [_ Q]. rewrite <- Hr. now rewrite Q.
Qed.
Print Assumptions C16_from_unsorted.

(** The permutation computed from a rearrangement performs it. *)
Theorem C16_from_transformation : forall A (eqb : A -> A -> bool), (forall a b, eqb a b = true <-> a = b) ->
  forall source target, NoDup source -> Permutation source target ->
  exists p, from_transformation eqb source target = Some p /\ permute p source = Some target.
Proof. intros A eqb He s t Hn Hp. destruct (from_transformation_spec A eqb He s t Hn Hp) as (p & E & _ & G). eauto. Qed.
Print Assumptions C16_from_transformation.

(** The largest moved index. *)
Theorem C16_last_mapped : forall p, match last_mapped p with
  | Some i => get p i <> i /\ forall j, i < j -> get p j = j
  | None => forall j, get p j = j
  end.
Proof. exact last_mapped_spec. Qed.
Print Assumptions C16_last_mapped.

(** The cycles found: each is a cycle of length at least two; together they list every moved index once. *)
Theorem C16_find_cycles : forall p, built p -> exists cycles, find_cycles p = Some cycles /\
  (forall c, In c cycles -> exists x y rest, c = x :: y :: rest /\
     forall k a, nth_error c k = Some a -> get p a = match nth_error c (S k) with Some b => b | None => x end) /\
  NoDup (concat cycles) /\ (forall a, In a (concat cycles) <-> get p a <> a).
Proof.
  intros p Hp. destruct (find_cycles_spec p (built_wf p Hp)) as (cy & E & H1 & H2 & H3). exists cy. repeat split; auto; try apply H3.
  intros c Hc. destruct (H1 c Hc) as (x & [|y rest] & -> & Hne & P); [congruence|]. exists x, y, rest. auto.
Qed.
Print Assumptions C16_find_cycles.

(** Sorted choices (projections with reordering): the choice computed for a list of distinct target columns
    yields them, is the identity only for the whole list, and its vector names the chosen columns. *)
Theorem C16_choice : forall A (eqb : A -> A -> bool), (forall a b, eqb a b = true <-> a = b) ->
  forall source target : list A, NoDup source -> NoDup target -> incl target source ->
  exists c v, choice_from_transformation eqb source target = Some c /\ transform c source = Some target /\
    (choice_is_identity c = true <-> source = target) /\
    as_vector c = Some v /\ map (fun i => nth_error source i) v = map Some target.
Proof.
  intros A eqb He s t Hs Ht Hi. destruct (choice_transform A eqb He s t Ht Hi) as (c & E & T & I & V). destruct (V Hs) as (v & Ev & Hv).
  exists c, v. repeat split; auto; now apply I.
Qed.
Print Assumptions C16_choice.

Theorem C16_choice_chain : forall c p i, choice_get (choice_chain c p) i = option_map (get p) (choice_get c i).
Proof. exact choice_chain_get. Qed.
Print Assumptions C16_choice_chain.

(** ** The hypotheses are met by non-trivial cases *)
Example ex_vector : arrangement [2; 0; 3; 1; 4].
Proof. apply NoDup_Permutation; [repeat constructor; simpl; intuition lia|apply seq_NoDup|]. intros x. simpl. intuition lia. Qed.
Example ex_built : match from_vector [2; 0; 3; 1; 4] with
  | Some p => val_to_idx p = [2; 0; 3; 1] /\ permute p [10; 11; 12; 13; 14] = Some [12; 10; 13; 11; 14] /\ find_cycles p = Some [[0; 1; 3; 2]]
  | None => False end.
Proof. vm_compute. repeat split. Qed.
Example ex_map : bijection [(7, 8); (0, 1); (8, 7); (1, 0)].
Proof.
  split; [repeat constructor; simpl; intuition lia|].
  apply NoDup_Permutation; [repeat constructor; simpl; intuition lia|repeat constructor; simpl; intuition lia|]. intros x. simpl. intuition lia.
Qed.
(** Without the hypothesis on the length, permuting panics. *)
Example ex_short : match from_vector [1; 0] with Some p => permute p [5] = None | None => False end.
Proof. vm_compute. reflexivity. Qed.
