(** C60: sets of storage types behave as sets. *)
From Coq Require Import List NArith Bool Lia.
From Verif Require Import BitsetModel BitsetSpec BitsetProofs.
Import ListNotations.
Local Open Scope N_scope.

(** Sets of numbers below the number of bits: the empty set, the first n numbers, one number. *)
Theorem C60_empty i : ~ elements bs_empty i.
Proof. unfold elements, bs_empty. rewrite N.bits_0. discriminate. Qed.
Print Assumptions C60_empty.
Theorem C60_full w n : n < w -> exists a, bs_full w n = Some a /\ fits w a /\ forall i, elements a i <-> i < n.
Proof.
  intros H. unfold bs_full. rewrite shl_ok by auto. cbn [obind]. unfold sub_word. assert (P : 0 < 2 ^ n) by (apply N.neq_0_lt_0, N.pow_nonzero; discriminate). rewrite (proj2 (N.leb_le _ _)) by lia.
  assert (E : forall i, elements (2 ^ n - 1) i <-> i < n).
  { intros i. rewrite N.sub_1_r, <- N.ones_equiv. unfold elements. destruct (N.lt_ge_cases i n) as [K|K]; [rewrite N.ones_spec_low by auto; tauto|rewrite N.ones_spec_high by auto; split; [discriminate|lia]]. }
  exists (2 ^ n - 1). split; [reflexivity|]. split; auto. apply fits_bits. intros i Hi. apply E in Hi. lia.
Qed.
Print Assumptions C60_full.
Theorem C60_single w i : i < w -> exists a, bs_single w i = Some a /\ fits w a /\ forall j, elements a j <-> j = i.
Proof.
  intros H. exists (2 ^ i). split; [now apply shl_ok|]. assert (E : forall j, elements (2 ^ i) j <-> j = i) by (intros j; rewrite pow_bit; intuition). split; auto. apply fits_bits. intros j Hj. apply E in Hj. now subst.
Qed.
Print Assumptions C60_single.

(** Intersection and union *)
Theorem C60_intersection w a b : fits w a -> fits w b ->
  fits w (bs_intersection a b) /\ forall i, elements (bs_intersection a b) i <-> elements a i /\ elements b i.
Proof.
  intros Ha _. assert (E : forall i, elements (bs_intersection a b) i <-> elements a i /\ elements b i) by (intros i; unfold elements, bs_intersection; now rewrite N.land_spec, andb_true_iff). split; auto.
  apply fits_bits. intros i Hi. apply E in Hi. now apply (fits_bits w a).
Qed.
Print Assumptions C60_intersection.
Theorem C60_union w a b : fits w a -> fits w b ->
  fits w (bs_union a b) /\ forall i, elements (bs_union a b) i <-> elements a i \/ elements b i.
Proof.
  intros Ha Hb. assert (E : forall i, elements (bs_union a b) i <-> elements a i \/ elements b i) by (intros i; unfold elements, bs_union; now rewrite N.lor_spec, orb_true_iff). split; auto.
  apply fits_bits. intros i Hi. apply E in Hi. destruct Hi; [now apply (fits_bits w a)|now apply (fits_bits w b)].
Qed.
Print Assumptions C60_union.

(** Adding, removing and asking for one number *)
Theorem C60_set w a i v : fits w a -> i < w -> exists b, bs_set w a i v = Some b /\ fits w b /\
  forall j, elements b j <-> if v then elements a j \/ j = i else elements a j /\ j <> i.
Proof.
  intros Ha Hi. pose proof (shl_ok w i Hi) as S. unfold bs_set, bs_single. rewrite S. destruct v; cbn [obind].
  - exists (bs_union a (2 ^ i)). split; auto. destruct (C60_union w a (2 ^ i) Ha) as (F & E); [apply N.pow_lt_mono_r; lia|]. split; auto. intros j. rewrite E, pow_bit. intuition.
  - exists (bs_intersection a (not_word w (2 ^ i))). split; auto.
    assert (E : forall j, elements (bs_intersection a (not_word w (2 ^ i))) j <-> elements a j /\ j <> i).
    { intros j. unfold elements, bs_intersection, not_word. rewrite N.land_spec, andb_true_iff, N.lxor_spec, N.pow2_bits_eqb. split; intros (A & B); split; auto.
      - intros ->. rewrite N.eqb_refl, N.ones_spec_low in B by auto. discriminate.
      - rewrite N.ones_spec_low by now apply (fits_bits w a). destruct (N.eqb_spec i j); [congruence|reflexivity]. }
    split; auto. apply fits_bits. intros j Hj. apply E in Hj. now apply (fits_bits w a).
Qed.
Print Assumptions C60_set.
Theorem C60_get w a i : i < w -> exists b, bs_get w a i = Some b /\ (b = true <-> elements a i).
Proof.
  intros Hi. unfold bs_get, bs_single. rewrite shl_ok by auto. cbn [obind]. eexists. split; [reflexivity|]. rewrite negb_true_iff, N.eqb_neq. unfold bs_intersection, bs_empty, elements. split.
  - intros H. destruct (N.testbit a i) eqn:E; auto. exfalso. apply H. apply N.bits_inj. intros j. rewrite N.land_spec, N.bits_0, N.pow2_bits_eqb. destruct (N.eqb_spec i j) as [->|]; [now rewrite E|apply andb_false_r].
  - intros H K. assert (N.testbit (N.land a (2 ^ i)) i = false) as C by now rewrite K, N.bits_0. rewrite N.land_spec, H, N.pow2_bits_true in C. discriminate.
Qed.
Print Assumptions C60_get.

(** Exactly one element; the second set is a subset of the first. *)
Theorem C60_is_single a : exists b, bs_is_single a = Some b /\ (b = true <-> exists i, forall j, elements a j <-> j = i).
Proof.
  unfold bs_is_single. destruct (N.eqb_spec a 0) as [->|N0]; cbn [negb].
  - exists false. split; auto. split; [discriminate|]. intros (i & H). specialize (H i). unfold elements in H. rewrite N.bits_0 in H. destruct H as (_ & H). specialize (H eq_refl). discriminate.
  - unfold sub_word. rewrite (proj2 (N.leb_le _ _)) by lia. cbn [obind]. eexists. split; [reflexivity|]. rewrite N.eqb_eq. split.
    + intros H. exists (N.log2 a). intros j. split; [|intros ->; now apply N.bit_log2]. intros Hj. unfold elements in Hj.
      destruct (N.eq_dec j (N.log2 a)) as [|Nj]; auto. exfalso.
      assert (L : j < N.log2 a). { destruct (N.lt_ge_cases (N.log2 a) j) as [K|K]; [rewrite N.bits_above_log2 in Hj by auto; discriminate|lia]. }
      assert (P : 2 ^ N.log2 a <= a - 1).
      { pose proof (N.log2_spec a ltac:(lia)) as (A & _). destruct (N.eq_dec a (2 ^ N.log2 a)) as [Ea|]; [|lia]. exfalso. rewrite Ea, N.pow2_bits_false in Hj by auto. discriminate. }
      assert (B : N.testbit (a - 1) (N.log2 a) = true).
      { replace (N.log2 a) with (N.log2 (a - 1)) at 1. { apply N.bit_log2. assert (0 < 2 ^ N.log2 a) by (apply N.neq_0_lt_0, N.pow_nonzero; discriminate). lia. }
        apply N.log2_unique; [lia|]. split; auto. pose proof (N.log2_spec a ltac:(lia)) as (_ & U). lia. }
      assert (C : N.testbit (N.land a (a - 1)) (N.log2 a) = false) by now rewrite H, N.bits_0. rewrite N.land_spec, B, N.bit_log2 in C by auto. discriminate.
    + intros (i & H). replace a with (2 ^ i). 2: { apply ext. intros j. rewrite pow_bit. rewrite H. intuition. }
      rewrite N.sub_1_r, <- N.ones_equiv, N.land_ones, N.mod_same; auto. apply N.pow_nonzero. discriminate.
Qed.
Print Assumptions C60_is_single.
Theorem C60_subset a b : bs_subset a b = true <-> forall i, elements b i -> elements a i.
Proof.
  unfold bs_subset, bs_intersection. rewrite N.eqb_eq. split.
  - intros H i Hi. unfold elements in *. rewrite <- H, N.land_spec in Hi. now apply andb_prop in Hi.
  - intros H. apply ext. intros i. unfold elements at 1. rewrite N.land_spec, andb_true_iff. split; [intros (_ & K); exact K|]. intros K. split; [now apply H|exact K].
Qed.
Print Assumptions C60_subset.
(** Sets are equal as words if they have the same elements (the derived equality). *)
Theorem C60_equality a b : (forall i, elements a i <-> elements b i) -> a = b.
Proof. apply ext. Qed.
Print Assumptions C60_equality.

(** ** Storage types: words of at least five bits *)
Theorem C60_types w a : 5 <= w -> exists l, st_types w a = Some l /\ NoDup l /\ forall t, In t l <-> has_type a t.
Proof.
  intros Hw. unfold st_types, num_types. cbn [seq].
  assert (G : forall i, i < 5 -> bs_get w a i = Some (N.testbit a i)).
  { intros i Hi. destruct (C60_get w a i ltac:(lia)) as (b & E & K). rewrite E. f_equal. unfold elements in K. destruct b, (N.testbit a i); intuition congruence. }
  unfold has_type, elements. cbn [st_loop]. change (N.of_nat 0) with 0. change (N.of_nat 1) with 1. change (N.of_nat 2) with 2. change (N.of_nat 3) with 3. change (N.of_nat 4) with 4.
  rewrite !G by reflexivity. cbn [obind from_order].
  destruct (N.testbit a 0) eqn:E0, (N.testbit a 1) eqn:E1, (N.testbit a 2) eqn:E2, (N.testbit a 3) eqn:E3, (N.testbit a 4) eqn:E4; cbn [obind];
    eexists; (split; [reflexivity|]); (split; [repeat constructor; cbn; intuition discriminate|]); intros []; cbn [order In]; rewrite ?E0, ?E1, ?E2, ?E3, ?E4; intuition (congruence || discriminate).
Qed.
Print Assumptions C60_types.
Theorem C60_type_sets w : 5 < w ->
  (forall t, ~ has_type st_empty t) /\
  (exists a, st_full w = Some a /\ type_set a /\ forall t, has_type a t) /\
  (forall t, exists a, st_bitset w t = Some a /\ type_set a /\ forall u, has_type a u <-> u = t) /\
  (forall a b, type_set a -> type_set b -> type_set (st_intersection a b) /\ type_set (st_union a b) /\
     forall t, (has_type (st_intersection a b) t <-> has_type a t /\ has_type b t) /\ (has_type (st_union a b) t <-> has_type a t \/ has_type b t)) /\
  (forall a t, exists b, st_contains w a t = Some b /\ (b = true <-> has_type a t)) /\
  (forall a, type_set a -> exists b, st_is_unique a = Some b /\ (b = true <-> exists t, forall u, has_type a u <-> u = t)).
Proof.
  intros Hw. split; [|split; [|split; [|split; [|split]]]].
  - intros t. apply C60_empty.
  - destruct (C60_full w 5 Hw) as (a & E & _ & K). exists a. split; [exact E|]. split; [apply (fits_bits 5); intros i Hi; now apply K|]. intros t. apply K, order_five.
  - intros t. pose proof (order_five t) as Ht. destruct (C60_single w (order t) ltac:(lia)) as (a & E & _ & K). exists a. split; [exact E|]. split; [apply (fits_bits 5); intros i Hi; apply K in Hi; now subst|]. intros u. unfold has_type. rewrite K. split; [apply order_inj|congruence].
  - intros a b Ha Hb. destruct (C60_intersection 5 a b Ha Hb) as (A & B). destruct (C60_union 5 a b Ha Hb) as (C & D). split; [exact A|]. split; [exact C|]. intros t. split; [apply B|apply D].
  - intros a t. pose proof (order_five t) as Ht. destruct (C60_single w (order t) ltac:(lia)) as (b & E & _ & K). unfold st_contains, st_bitset. rewrite E. cbn [obind]. eexists. split; [reflexivity|]. rewrite C60_subset. unfold has_type. split; [intros H; apply H; now apply K|]. intros H i Hi. apply K in Hi. now subst.
  - intros a Ha. destruct (C60_is_single a) as (b & E & K). exists b. split; [exact E|]. rewrite K. split.
    + intros (i & H). assert (Hi : i < 5) by (apply (proj1 (fits_bits 5 a) Ha); now apply H). assert (T : exists t, order t = i).
      { destruct (N.eq_dec i 0) as [->|]; [now exists Id32|]. destruct (N.eq_dec i 1) as [->|]; [now exists Id64|]. destruct (N.eq_dec i 2) as [->|]; [now exists Int64|]. destruct (N.eq_dec i 3) as [->|]; [now exists Float|]. exists Double. cbn. lia. }
      destruct T as (t & <-). exists t. intros u. unfold has_type. rewrite H. split; [apply order_inj|congruence].
    + intros (t & H). exists (order t). intros j. split.
      * intros Hj. assert (Hi : j < 5) by now apply (proj1 (fits_bits 5 a) Ha). assert (T : exists u, order u = j).
        { destruct (N.eq_dec j 0) as [->|]; [now exists Id32|]. destruct (N.eq_dec j 1) as [->|]; [now exists Id64|]. destruct (N.eq_dec j 2) as [->|]; [now exists Int64|]. destruct (N.eq_dec j 3) as [->|]; [now exists Float|]. exists Double. cbn. lia. }
        destruct T as (u & <-). apply H in Hj. now subst.
      * intros ->. now apply H.
Qed.
Print Assumptions C60_type_sets.

(** The full set of as many numbers as there are bits cannot be made: a shift by the number of bits. *)
Theorem C60_full_refuted w : bs_full w w = None.
Proof. unfold bs_full, one_shl. now rewrite N.ltb_irrefl. Qed.
Print Assumptions C60_full_refuted.

(** ** The hypotheses are met *)
Example sample_full : bs_full 64 5 = Some 31 /\ st_full 64 = Some 31. Proof. split; reflexivity. Qed.
Example sample_types : st_types 64 22 = Some [Id64; Int64; Double]. Proof. reflexivity. Qed.
Example sample_set : bs_set 64 22 1 false = Some 20 /\ bs_set 64 20 0 true = Some 21 /\ fits 64 22. Proof. repeat split. Qed.
Example sample_single : bs_is_single 16 = Some true /\ bs_is_single 20 = Some false /\ bs_is_single 0 = Some false. Proof. repeat split. Qed.
Example sample_contains : st_contains 64 22 Double = Some true /\ st_contains 64 22 Float = Some false. Proof. split; reflexivity. Qed.
