(** Proofs for sets of storage types: words as sets of digits. *)
From Coq Require Import List NArith Bool Lia.
From Verif Require Import BitsetModel BitsetSpec.
Import ListNotations.
Local Open Scope N_scope.

Lemma fits_bits w a : fits w a <-> forall i, elements a i -> i < w.
Proof.
  unfold fits, elements. split.
  - intros H i Hi. destruct (N.lt_ge_cases i w) as [K|K]; auto. exfalso. destruct (N.eq_dec a 0) as [->|N0]; [now rewrite N.bits_0 in Hi|].
    rewrite N.bits_above_log2 in Hi; [discriminate|]. apply N.lt_le_trans with w; auto. apply N.log2_lt_pow2; lia.
  - intros H. destruct (N.eq_dec a 0) as [->|N0]; [apply N.neq_0_lt_0, N.pow_nonzero; discriminate|]. apply N.log2_lt_pow2; [lia|]. apply H. now apply N.bit_log2.
Qed.
Lemma shl_ok w i : i < w -> one_shl w i = Some (2 ^ i).
Proof.
  intros H. unfold one_shl. rewrite (proj2 (N.ltb_lt _ _) H). f_equal. rewrite N.shiftl_1_l. apply N.mod_small. apply N.pow_lt_mono_r; lia.
Qed.
Lemma pow_bit i j : elements (2 ^ i) j <-> i = j.
Proof. unfold elements. rewrite N.pow2_bits_eqb, N.eqb_eq. tauto. Qed.
Lemma ext a b : (forall i, elements a i <-> elements b i) -> a = b.
Proof. intros H. apply N.bits_inj. intros i. specialize (H i). unfold elements in H. destruct (N.testbit a i), (N.testbit b i); auto; destruct H; intuition congruence. Qed.

Lemma order_five t : order t < 5.
Proof. destruct t; reflexivity. Qed.
Lemma order_inj t u : order t = order u -> t = u.
Proof. destruct t, u; intros H; auto; discriminate. Qed.
