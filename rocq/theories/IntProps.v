(* C27: integer arithmetic is exact or undefined.

   The specification (means1, means2, meansn, in_range, representable, exceptional1-2-n) is in
   IntSpec.v; the model of integer64.rs is in IntModel.v.

   The full claim "every operation on every 64-bit input returns the correct result or no value,
   never wraps around and never panics" is false of the code for four operations; the inputs
   concerned are exactly named by exceptional1 / exceptional2 / exceptionaln, the `_partial`
   theorems cover every other input, and each exceptional case is refuted below. *)

From Coq Require Import ZArith List Bool Lia.
From Verif Require Import IntModel IntSpec IntProofs.
Import ListNotations.
Open Scope Z_scope.

(* Unary operations: a returned number fits and is correct; when nothing is returned, no
   representable value would have been correct; no panic. *)
Theorem C27_unary_partial : forall debug f a,
  in_range a -> ~ exceptional1 f a ->
  match run1 debug f a with
  | Num z => in_range z /\ means1 f a (Number z)
  | Truth t => means1 f a (Boolean t)
  | Undef => forall v, representable v -> ~ means1 f a v
  | Panic | OutOfFuel => False
  end.
Proof. exact unary_correct. Qed.

Theorem C27_binary_partial : forall debug f a b,
  in_range a -> in_range b -> ~ exceptional2 f a b ->
  match run2 debug f a b with
  | Num z => in_range z /\ means2 f a b (Number z)
  | Truth t => means2 f a b (Boolean t)
  | Undef => forall v, representable v -> ~ means2 f a b v
  | Panic | OutOfFuel => False
  end.
Proof. exact binary_correct. Qed.

Theorem C27_nary_partial : forall debug f l,
  (forall x, In x l -> in_range x) -> ~ (l <> [] /\ exceptionaln f l) ->
  match runn debug f l with
  | Num z => in_range z /\ l <> [] /\ meansn f l (Number z)
  | Undef => may_be_undefined f l
  | Truth _ | Panic | OutOfFuel => False
  end.
Proof. exact nary_correct. Qed.

(* Addition, subtraction, multiplication, division, power, logarithm, comparisons, negation, square
   root, sum, product, minimum and maximum have no exceptional inputs at all. *)
Theorem C27_arithmetic : forall debug a b,
  in_range a -> in_range b ->
  forall f, In f [Add; Sub; Mul; Div; Pow; Log; Lt; Le; Gt; Ge] ->
  match run2 debug f a b with
  | Num z => in_range z /\ means2 f a b (Number z)
  | Truth t => means2 f a b (Boolean t)
  | Undef => forall v, representable v -> ~ means2 f a b v
  | Panic | OutOfFuel => False
  end.
Proof.
  intros debug a b Ha Hb f Hf. apply binary_correct; auto.
  cbn in Hf. intuition (subst f; auto).
Qed.

(* The correct result is unique, so that "exact" leaves no freedom. *)
Theorem C27_binary_functional : forall f a b v w,
  in_range a -> in_range b -> means2 f a b v -> means2 f a b w -> v = w.
Proof.
  assert (Hbool : forall t t' (P : Prop), (t = true <-> P) -> (t' = true <-> P) -> t = t').
  { intros [|] [|] P H1 H2; try reflexivity; [symmetry|]; apply H2 || apply H1; tauto. }
  assert (Hlow : forall x z z', same_low_bits x z -> same_low_bits x z' -> z = z').
  { intros x z z' [H1 [k Hk]] [H2 [k' Hk']]. unfold in_range in *. lia. }
  assert (Hsh : forall b u w w', 0 <= b -> w * 2 ^ b <= u < (w + 1) * 2 ^ b ->
                 w' * 2 ^ b <= u < (w' + 1) * 2 ^ b -> w = w').
  { intros b u w w' Hb H1 H2. assert (0 < 2 ^ b) by (apply Z.pow_pos_nonneg; lia). nia. }
  intros f a b v w Ha Hb Hv Hw.
  destruct f, v as [z|t], w as [z'|t']; cbn in Hv, Hw; try contradiction; f_equal;
    try (eapply Hbool; eassumption); try lia.
  - destruct Hv as (r & ? & ? & ?), Hw as (r' & ? & ? & ?).
    destruct (div_unique_trunc a b z r z' r'); auto.
  - destruct Hv as (r & ? & ? & ?), Hw as (r' & ? & ? & ?).
    destruct (div_unique_trunc a b r z r' z'); auto.
  - destruct Hv as (H1 & H2 & H3 & H4), Hw as (_ & H5 & H6 & H7).
    assert (Hlt : z < z' + 1).
    { apply (Z.pow_lt_mono_r_iff b); [lia|lia|]. lia. }
    assert (Hlt' : z' < z + 1).
    { apply (Z.pow_lt_mono_r_iff b); [lia|lia|]. lia. }
    lia.
  - destruct Hv as (? & ?), Hw as (? & ?). eapply Hlow; eassumption.
  - destruct Hv as (? & ?), Hw as (? & ?). eapply Hsh; eassumption.
  - destruct Hv as (Hb0 & u & x & Hu & [k Hk] & Hx & Hz),
             Hw as (_ & u' & x' & Hu' & [k' Hk'] & Hx' & Hz').
    assert (u = u') by lia. subst u'.
    assert (x = x') by (eapply Hsh; eassumption). subst x'. eapply Hlow; eassumption.
Qed.

(* --- the exceptional inputs really violate the claim --- *)

(* abs(-2^63): with overflow checks a panic, without a negative "absolute value". *)
Theorem C27_abs_refuted :
  in_range (- 2 ^ 63) /\
  run1 true Abs (- 2 ^ 63) = Panic /\
  run1 false Abs (- 2 ^ 63) = Num (- 2 ^ 63) /\ ~ means1 Abs (- 2 ^ 63) (Number (- 2 ^ 63)).
Proof.
  split; [unfold in_range; lia|]. split; [reflexivity|]. split; [reflexivity|].
  cbn. intros [_ H]. assert (H' := H ltac:(lia)). discriminate.
Qed.

(* (-2^63) % (-1) panics in every build; the correct result is 0. *)
Theorem C27_rem_refuted : forall debug,
  in_range (- 2 ^ 63) /\ in_range (-1) /\
  run2 debug Rem (- 2 ^ 63) (-1) = Panic /\ means2 Rem (- 2 ^ 63) (-1) (Number 0).
Proof.
  intros debug. repeat split; try (unfold in_range; lia). exists (2 ^ 63). lia.
Qed.

(* Shifting by 64 or more: every such shift panics with overflow checks, and without them 1 << 64
   and 1 >> 64 return 1 instead of 0. *)
Theorem C27_shift_refuted :
  (forall f a b, In f [Shl; Shr; Shru] -> 64 <= b -> run2 true f a b = Panic) /\
  run2 false Shl 1 64 = Num 1 /\ ~ means2 Shl 1 64 (Number 1) /\
  run2 false Shr 1 64 = Num 1 /\ ~ means2 Shr 1 64 (Number 1) /\
  run2 false Shru 1 64 = Num 1 /\ ~ means2 Shru 1 64 (Number 1).
Proof.
  split.
  - intros f a b Hf Hb.
    assert (H1 : (b <? 0) = false) by (apply Z.ltb_ge; lia).
    assert (H2 : (b <? 64) = false) by (apply Z.ltb_ge; lia).
    cbn in Hf. destruct Hf as [<-|[<-|[<-|[]]]]; cbn [run2];
      unfold bitwise_shl, bitwise_shr, bitwise_shru, shift_amount; rewrite H1, H2; reflexivity.
  - split; [reflexivity|]. split.
    { cbn [means2]. intros [_ [_ [k Hk]]]. change (1 * 2 ^ 64) with (2 ^ 64) in Hk. lia. }
    split; [reflexivity|]. split.
    { cbn [means2]. lia. }
    split; [reflexivity|].
    cbn [means2]. intros (_ & u & w & Hu & [k Hk] & Hw & [_ [j Hj]]).
    assert (u = 1) by lia. subst. lia.
Qed.

(* AND of negative numbers: the fold starts at 2^63 - 1, whose sign bit is 0, so that
   AND(-1) = 2^63 - 1; whenever all arguments are negative the result is wrong. *)
Theorem C27_and_refuted :
  runn true And [-1; -1] = Num (2 ^ 63 - 1) /\
  (forall debug l z, l <> [] -> (forall x, In x l -> in_range x /\ x < 0) ->
     runn debug And l = Num z -> ~ meansn And l (Number z)).
Proof.
  split; [reflexivity|]. intros debug l z Hne Hl Hr Hm.
  destruct l as [|a l]; [congruence|]. unfold runn, bitwise_and in Hr.
  assert (Hz := f_equal (fun o => match o with Num y => y | _ => 0 end) Hr). cbv beta iota in Hz.
  cbn [meansn] in Hm. specialize (Hm 63 ltac:(lia)). rewrite <- Hz in Hm.
  assert (Hb : Z.testbit (fold_left Z.land (a :: l) i64_max) 63 = true).
  { apply Hm. intros x Hx. destruct (Hl x Hx) as [Hrx Hx0].
    destruct (Z.testbit x 63) eqn:E; [reflexivity|]. exfalso.
    assert (Hs : Z.shiftr x 63 = -1).
    { apply in_range_shiftr in Hrx as [H|H]; [|exact H].
      rewrite Z.shiftr_div_pow2 in H by lia. pose proof (Z.div_mod x (2 ^ 63)).
      pose proof (Z.mod_pos_bound x (2 ^ 63)). rewrite H in *.
      destruct (Hl x Hx) as [_ Hx1]. lia. }
    assert (Ht : Z.testbit (Z.shiftr x 63) 0 = Z.testbit x 63) by (apply Z.shiftr_spec; lia).
    rewrite Hs, E in Ht. discriminate. }
  apply fold_land_bit in Hb; [|lia]. destruct Hb as [Hb _].
  rewrite testbit_max in Hb by lia. discriminate.
Qed.

(* The remainder has the sign of the first argument, not (as the documentation of the function
   says) of the second. *)
Theorem C27_rem_sign_documentation_refuted :
  run2 true Rem 7 (-3) = Num 1 /\ run2 true Rem (-7) 3 = Num (-1).
Proof. repeat split. Qed.

Print Assumptions C27_unary_partial.
Print Assumptions C27_binary_partial.
Print Assumptions C27_nary_partial.
Print Assumptions C27_arithmetic.
Print Assumptions C27_binary_functional.
Print Assumptions C27_abs_refuted.
Print Assumptions C27_rem_refuted.
Print Assumptions C27_shift_refuted.
Print Assumptions C27_and_refuted.
Print Assumptions C27_rem_sign_documentation_refuted.

(* Non-vacuity: inputs on the boundary meet the hypotheses, and both outcomes occur. *)
Example C27_ex_add :
  in_range (2 ^ 63 - 1) /\ ~ exceptional2 Add (2 ^ 63 - 1) 1 /\
  run2 true Add (2 ^ 63 - 1) 1 = Undef /\ run2 true Add (2 ^ 63 - 2) 1 = Num (2 ^ 63 - 1).
Proof. repeat split; try lia; try (unfold in_range; lia). intros []. Qed.

Example C27_ex_div : run2 true Div (- 2 ^ 63) (-1) = Undef /\ run2 true Div (-7) 2 = Num (-3)
  /\ run2 true Div 7 0 = Undef.
Proof. repeat split. Qed.

Example C27_ex_pow :
  run2 true Pow (-2) 63 = Num (- 2 ^ 63) /\ run2 true Pow 2 63 = Undef /\
  run2 true Pow 3 39 = Num (3 ^ 39) /\ run2 true Pow 3 40 = Undef /\
  run2 true Pow 10 (-1) = Undef /\ run2 true Pow (-1) (2 ^ 63 - 1) = Num (-1) /\
  run2 true Pow 0 0 = Num 1.
Proof. vm_compute. repeat split. Qed.

Example C27_ex_log :
  run2 true Log (2 ^ 63 - 1) 2 = Num 62 /\ run2 true Log 1000 10 = Num 3 /\
  run2 true Log 999 10 = Num 2 /\ run2 true Log 0 10 = Undef.
Proof. vm_compute. repeat split. Qed.

Example C27_ex_shift :
  run2 true Shl 3 63 = Num (- 2 ^ 63) /\ run2 true Shru (-1) 1 = Num (2 ^ 63 - 1) /\
  run2 true Shr (-5) 1 = Num (-3).
Proof. vm_compute. repeat split. Qed.

Example C27_ex_nary :
  runn true And [6; 3; -1] = Num 2 /\ runn true Xor [5; 1] = Num 4 /\
  runn true Sum [2 ^ 63 - 1; 1; -1] = Undef /\
  ~ ([6; 3; -1] <> [] /\ exceptionaln And [6; 3; -1]).
Proof.
  repeat split. intros [_ [_ H]]. specialize (H 6 (or_introl eq_refl)). lia.
Qed.
