(** Integers of the standard library: parsing and printing. *)
From Coq Require Import List ZArith Bool Lia String.
From Verif Require Import LexModel LexSpec.
Import ListNotations.
Open Scope Z_scope.
Open Scope list_scope.

Lemma str_eqb_eq : forall a b, str_eqb a b = true <-> a = b.
Proof.
  induction a as [|x a IH]; intros [|y b]; cbn; split; try congruence; intros H; auto.
  - apply andb_true_iff in H as [E H]. apply Z.eqb_eq in E. apply IH in H. congruence.
  - injection H as -> ->. rewrite Z.eqb_refl. cbn. now apply IH.
Qed.

Lemma str_eqb_refl a : str_eqb a a = true. Proof. now apply str_eqb_eq. Qed.
Lemma str_eqb_sym a b : str_eqb a b = str_eqb b a.
Proof.
  destruct (str_eqb b a) eqn:E; [apply str_eqb_eq in E; subst; apply str_eqb_refl|].
  destruct (str_eqb a b) eqn:E'; auto. apply str_eqb_eq in E'. subst. rewrite str_eqb_refl in E. discriminate.
Qed.

Lemma digit_spec c : match digit c with Some d => is_digit c /\ d = c - 48 | None => ~ is_digit c end.
Proof.
  unfold digit, is_digit. destruct ((48 <=? c) && (c <=? 57)) eqn:E.
  - apply andb_true_iff in E as [A B]. apply Z.leb_le in A, B. lia.
  - intros H. apply andb_false_iff in E as [A|A]; apply Z.leb_gt in A; lia.
Qed.
Lemma digit_some c : is_digit c -> digit c = Some (c - 48).
Proof. intros H. pose proof (digit_spec c). destruct (digit c); [destruct H0; congruence|contradiction]. Qed.

Definition dv_from (a : Z) (ds : str) : Z := fold_left (fun a c => a * 10 + (c - 48)) ds a.
Lemma digits_value_from ds : digits_value ds = dv_from 0 ds. Proof. reflexivity. Qed.
Lemma dv_from_app a x y : dv_from a (x ++ y) = dv_from (dv_from a x) y.
Proof. unfold dv_from. now rewrite fold_left_app. Qed.
Lemma dv_from_shift : forall ds a, dv_from a ds = a * 10 ^ Z.of_nat (List.length ds) + dv_from 0 ds.
Proof.
  induction ds as [|c ds IH]; intros a.
  - cbn. lia.
  - unfold dv_from in *. cbn [fold_left List.length]. rewrite IH. rewrite (IH (0 * 10 + (c - 48))).
    rewrite Nat2Z.inj_succ, Z.pow_succ_r by lia. ring.
Qed.
Lemma digits_value_app x y : digits_value (x ++ y) = digits_value x * 10 ^ Z.of_nat (List.length y) + digits_value y.
Proof. rewrite !digits_value_from, dv_from_app. apply dv_from_shift. Qed.
Lemma digits_value_cons c y : digits_value (c :: y) = (c - 48) * 10 ^ Z.of_nat (List.length y) + digits_value y.
Proof.
  change (c :: y) with ([c] ++ y). rewrite digits_value_app. f_equal. 
Qed.
Lemma digits_value_snoc x c : digits_value (x ++ [c]) = digits_value x * 10 + (c - 48).
Proof. rewrite digits_value_app. cbn. lia. Qed.
Lemma digits_value_range : forall ds, Forall is_digit ds -> 0 <= digits_value ds < 10 ^ Z.of_nat (List.length ds).
Proof.
  induction ds as [|c ds IH]; intros H.
  - cbn. lia.
  - inversion H; subst. specialize (IH H3). rewrite digits_value_cons. cbn [List.length].
    rewrite Nat2Z.inj_succ, Z.pow_succ_r by lia. unfold is_digit in *. nia.
Qed.
Lemma dv_from_mono : forall ds a, Forall is_digit ds -> 0 <= a -> a <= dv_from a ds.
Proof.
  induction ds as [|c ds IH]; intros a H Ha; [cbn; lia|].
  inversion H; subst. unfold dv_from in *. cbn [fold_left]. unfold is_digit in *.
  specialize (IH (a * 10 + (c - 48)) H3). lia.
Qed.

Lemma bounds_true lo hi z : in_bounds lo hi z = true <-> lo <= z <= hi.
Proof. unfold in_bounds. rewrite andb_true_iff, !Z.leb_le. tauto. Qed.
Lemma bounds_false lo hi z : in_bounds lo hi z = false <-> ~ lo <= z <= hi.
Proof. rewrite <- bounds_true. destruct (in_bounds lo hi z); split; congruence. Qed.

(** The digit loops. *)
Lemma pos_digits_ok lo hi : lo <= 0 -> forall s acc z, 0 <= acc <= hi ->
  (pos_digits lo hi acc s = inl z <-> Forall is_digit s /\ z = dv_from acc s /\ z <= hi).
Proof.
  intros Hlo. induction s as [|c s IH]; intros acc z Ha; cbn [pos_digits].
  - cbn. split; [intros [= <-]; repeat split; auto; lia|intros (_ & -> & _); auto].
  - pose proof (digit_spec c) as D. destruct (digit c) as [d|] eqn:Ed.
    + destruct D as [D ->]. unfold is_digit in D.
      assert (forall w, Forall is_digit (c :: s) /\ z = dv_from acc (c :: s) /\ z <= hi -> w = true \/ acc * 10 + (c - 48) <= hi) as K.
      { intros w (Fd & Ez & Hz). right. unfold dv_from in Ez. cbn [fold_left] in Ez. inversion Fd; subst.
        pose proof (dv_from_mono s (acc * 10 + (c - 48)) H2). unfold dv_from in H. lia. }
      destruct (in_bounds lo hi (acc * 10)) eqn:B1; cbn [negb].
      * destruct (in_bounds lo hi (acc * 10 + (c - 48))) eqn:B2; cbn [negb].
        { apply bounds_true in B2. rewrite IH by lia. split.
          - intros (Fd & -> & Hz). repeat split; auto; try (constructor; auto; fail).
          - intros (Fd & -> & Hz). inversion Fd; subst. repeat split; auto. }
        { apply bounds_false in B2. split; [discriminate|]. intros H. destruct (K false H) as [|]; [discriminate|lia]. }
      * apply bounds_false in B1. split; [discriminate|]. intros H. destruct (K false H) as [|]; [discriminate|lia].
    + split; [discriminate|]. intros (Fd & _). inversion Fd. subst. contradiction.
Qed.

Lemma neg_digits_ok lo hi : 0 <= hi -> forall s acc z, lo <= acc <= 0 ->
  (neg_digits lo hi acc s = inl z <-> Forall is_digit s /\ z = - dv_from (- acc) s /\ lo <= z).
Proof.
  intros Hhi. induction s as [|c s IH]; intros acc z Ha; cbn [neg_digits].
  - cbn. split; [intros [= <-]; repeat split; auto; lia|intros (_ & -> & _); f_equal; lia].
  - pose proof (digit_spec c) as D. destruct (digit c) as [d|] eqn:Ed.
    + destruct D as [D ->]. unfold is_digit in D.
      assert (Forall is_digit (c :: s) /\ z = - dv_from (- acc) (c :: s) /\ lo <= z -> lo <= acc * 10 - (c - 48)) as K.
      { intros (Fd & Ez & Hz). unfold dv_from in Ez. cbn [fold_left] in Ez. inversion Fd; subst.
        pose proof (dv_from_mono s (- acc * 10 + (c - 48)) H2). unfold dv_from in H. lia. }
      destruct (in_bounds lo hi (acc * 10)) eqn:B1; cbn [negb].
      * destruct (in_bounds lo hi (acc * 10 - (c - 48))) eqn:B2; cbn [negb].
        { apply bounds_true in B2. rewrite IH by lia. unfold dv_from. cbn [fold_left].
          replace (- (acc * 10 - (c - 48))) with (- acc * 10 + (c - 48)) by lia. split.
          - intros (Fd & -> & Hz). repeat split; auto; try (constructor; auto; fail).
          - intros (Fd & -> & Hz). inversion Fd; subst. repeat split; auto. }
        { apply bounds_false in B2. split; [discriminate|]. intros H. specialize (K H). lia. }
      * apply bounds_false in B1. split; [discriminate|]. intros H. specialize (K H). lia.
    + split; [discriminate|]. intros (Fd & _). inversion Fd. subst. contradiction.
Qed.

Lemma pos_digits_invalid lo hi : forall s acc, Forall is_digit s -> pos_digits lo hi acc s <> inr IInvalidDigit /\ pos_digits lo hi acc s <> inr IEmpty.
Proof.
  induction s as [|c s IH]; intros acc H; cbn [pos_digits]; [split; discriminate|].
  inversion H; subst. rewrite (digit_some c) by auto.
  destruct (negb _); [split; discriminate|]. destruct (negb _); [split; discriminate|]. auto.
Qed.
Lemma neg_digits_invalid lo hi : forall s acc, Forall is_digit s -> neg_digits lo hi acc s <> inr IInvalidDigit /\ neg_digits lo hi acc s <> inr IEmpty.
Proof.
  induction s as [|c s IH]; intros acc H; cbn [neg_digits]; [split; discriminate|].
  inversion H; subst. rewrite (digit_some c) by auto.
  destruct (negb _); [split; discriminate|]. destruct (negb _); [split; discriminate|]. auto.
Qed.
Lemma pos_digits_not_empty lo hi : forall s acc, pos_digits lo hi acc s <> inr IEmpty.
Proof.
  induction s as [|c s IH]; intros acc; cbn [pos_digits]; [discriminate|].
  destruct (digit c); [|discriminate]. destruct (negb _); [discriminate|]. destruct (negb _); [discriminate|]. auto.
Qed.

Lemma not_sign_digit c : is_digit c -> c <> 43 /\ c <> 45.
Proof. unfold is_digit. lia. Qed.

(** The shape of [parse_int], as one case distinction. *)
Lemma parse_int_shape signed lo hi c s :
  parse_int signed lo hi (c :: s) =
    if c =? 43 then match s with [] => inr IInvalidDigit | _ => pos_digits lo hi 0 s end
    else if c =? 45 then
      match s with [] => inr IInvalidDigit | _ => if signed then neg_digits lo hi 0 s else inr IInvalidDigit end
    else pos_digits lo hi 0 (c :: s).
Proof.
  unfold parse_int. destruct (Z.eqb_spec c 43) as [->|N].
  - destruct s; reflexivity.
  - destruct (Z.eqb_spec c 45) as [->|N']; cbn [orb andb]; destruct s; try reflexivity;
    destruct signed; reflexivity.
Qed.

(** `from_str` of a signed type: exactly the literals whose value is in the bounds. *)
Theorem parse_signed_ok lo hi s z : lo <= 0 <= hi ->
  (parse_int true lo hi s = inl z <-> int_literal s z /\ lo <= z <= hi).
Proof.
  intros Hb. destruct s as [|c s].
  { cbn. split; [discriminate|]. intros ((sg & sgn & ds & E & _ & N & _) & _). destruct sg, ds; try discriminate; congruence. }
  rewrite parse_int_shape. destruct (Z.eqb_spec c 43) as [->|N43]; [|destruct (Z.eqb_spec c 45) as [->|N45]].
  - assert (forall w, int_literal (43 :: s) w <-> s <> [] /\ Forall is_digit s /\ w = digits_value s) as L.
    { intros w. split.
      - intros (sg & sgn & ds & E & S & N & Fd & ->). inversion S; subst; cbn in E.
        + destruct ds as [|x ds]; [congruence|]. injection E as <- ->. inversion Fd. unfold is_digit in *; lia.
        + injection E as ->. repeat split; auto; try lia.
        + discriminate.
      - intros (N & Fd & ->). exists [43], 1, s. repeat split; auto; try constructor; try lia. }
    rewrite L. destruct s as [|d s]; [split; [discriminate|intros ((N & _) & _); congruence]|].
    rewrite pos_digits_ok by lia. rewrite <- digits_value_from. split.
    + intros (Fd & -> & Hz). pose proof (digits_value_range _ Fd); repeat split; auto; try congruence; lia.
    + intros ((_ & Fd & ->) & Hz). repeat split; auto; try lia.
  - assert (forall w, int_literal (45 :: s) w <-> s <> [] /\ Forall is_digit s /\ w = - digits_value s) as L.
    { intros w. split.
      - intros (sg & sgn & ds & E & S & N & Fd & ->). inversion S; subst; cbn in E.
        + destruct ds as [|x ds]; [congruence|]. injection E as <- ->. inversion Fd. unfold is_digit in *; lia.
        + discriminate.
        + injection E as ->. repeat split; auto; try lia.
      - intros (N & Fd & ->). exists [45], (-1), s. repeat split; auto; try constructor; try lia. }
    rewrite L. destruct s as [|d s]; [split; [discriminate|intros ((N & _) & _); congruence]|].
    rewrite neg_digits_ok by lia. change (- 0) with 0. rewrite <- digits_value_from. split.
    + intros (Fd & -> & Hz). pose proof (digits_value_range _ Fd); repeat split; auto; try congruence; lia.
    + intros ((_ & Fd & ->) & Hz). repeat split; auto; try lia.
  - assert (forall w, int_literal (c :: s) w <-> Forall is_digit (c :: s) /\ w = digits_value (c :: s)) as L.
    { intros w. split.
      - intros (sg & sgn & ds & E & S & N & Fd & ->). inversion S; subst; cbn in E.
        + subst. split; auto; try lia.
        + injection E as -> _. congruence.
        + injection E as -> _. congruence.
      - intros (Fd & ->). exists [], 1, (c :: s). repeat split; auto; try constructor; try congruence; try lia. }
    rewrite L. rewrite pos_digits_ok by lia. rewrite <- digits_value_from. split.
    + intros (Fd & -> & Hz). repeat split; auto; pose proof (digits_value_range _ Fd); lia.
    + intros ((Fd & ->) & Hz). repeat split; auto; try lia.
Qed.

(** An error on a literal is an overflow; InvalidDigit means that the string is not an integer literal. *)
Theorem parse_signed_error lo hi s z : int_literal s z ->
  parse_int true lo hi s <> inr IInvalidDigit /\ parse_int true lo hi s <> inr IEmpty.
Proof.
  intros (sg & sgn & ds & -> & S & N & Fd & ->). inversion S; subst; cbn [app].
  - destruct ds as [|c ds]; [congruence|]. rewrite parse_int_shape.
    assert (is_digit c) as D by (inversion Fd; auto). unfold is_digit in D.
    destruct (Z.eqb_spec c 43); [lia|]. destruct (Z.eqb_spec c 45); [lia|]. now apply pos_digits_invalid.
  - rewrite parse_int_shape. rewrite Z.eqb_refl. destruct ds; [congruence|]. now apply pos_digits_invalid.
  - rewrite parse_int_shape. change (45 =? 43) with false. rewrite Z.eqb_refl. cbn iota. destruct ds; [congruence|].
    now apply neg_digits_invalid.
Qed.

(** `from_str` of an unsigned type: no minus sign. *)
Theorem parse_unsigned_ok hi s z : 0 <= hi ->
  (parse_int false 0 hi s = inl z <-> int_literal s z /\ hd_error s <> Some 45 /\ z <= hi).
Proof.
  intros Hb. destruct s as [|c s].
  { cbn. split; [discriminate|]. intros ((sg & sgn & ds & E & _ & N & _) & _). destruct sg, ds; try discriminate; congruence. }
  rewrite parse_int_shape. cbn [hd_error]. destruct (Z.eqb_spec c 43) as [->|N43]; [|destruct (Z.eqb_spec c 45) as [->|N45]].
  - assert (forall w, int_literal (43 :: s) w <-> s <> [] /\ Forall is_digit s /\ w = digits_value s) as L.
    { intros w. split.
      - intros (sg & sgn & ds & E & S & N & Fd & ->). inversion S; subst; cbn in E.
        + destruct ds as [|x ds]; [congruence|]. injection E as <- ->. inversion Fd. unfold is_digit in *; lia.
        + injection E as ->. repeat split; auto; try lia.
        + discriminate.
      - intros (N & Fd & ->). exists [43], 1, s. repeat split; auto; try constructor; try lia. }
    rewrite L. destruct s as [|d s]; [split; [discriminate|intros ((N & _) & _); congruence]|].
    rewrite pos_digits_ok by lia. rewrite <- digits_value_from. split.
    + intros (Fd & -> & Hz). repeat split; auto; try congruence.
    + intros ((_ & Fd & ->) & _ & Hz). repeat split; auto; try lia.
  - split; [destruct s; discriminate|]. intros (_ & H & _). congruence.
  - assert (forall w, int_literal (c :: s) w <-> Forall is_digit (c :: s) /\ w = digits_value (c :: s)) as L.
    { intros w. split.
      - intros (sg & sgn & ds & E & S & N & Fd & ->). inversion S; subst; cbn in E.
        + subst. split; auto; try lia.
        + injection E as -> _. congruence.
        + injection E as -> _. congruence.
      - intros (Fd & ->). exists [], 1, (c :: s). repeat split; auto; try constructor; try congruence; try lia. }
    rewrite L. rewrite pos_digits_ok by lia. rewrite <- digits_value_from. split.
    + intros (Fd & -> & Hz). repeat split; auto; try congruence.
    + intros ((Fd & ->) & _ & Hz). repeat split; auto; try lia.
Qed.

(** ** Printing *)
Definition canonical_digits (ds : str) : Prop := Forall is_digit ds /\ ds <> [] /\ (hd_error ds = Some 48 -> ds = [48]).

Lemma dec_digits_spec : forall n z acc, 0 <= z -> z < 2 ^ Z.of_nat n -> (0 < n)%nat ->
  exists ds, dec_digits n z acc = ds ++ acc /\ canonical_digits ds /\ digits_value ds = z.
Proof.
  induction n as [|n IH]; intros z acc H0 Hz Hn; [lia|].
  cbn [dec_digits]. destruct (Z.ltb_spec z 10) as [L|L].
  - exists [48 + z]. repeat split.
    + constructor; [unfold is_digit; lia|constructor].
    + discriminate.
    + cbn. intros [= E]. f_equal. lia.
    + unfold digits_value; cbn [fold_left]; lia.
  - destruct (IH (z / 10) ((48 + z mod 10) :: acc)) as (ds & E & (Fd & N & C) & V).
    + apply Z.div_pos; lia.
    + apply Z.div_lt_upper_bound; [lia|]. rewrite Nat2Z.inj_succ, Z.pow_succ_r in Hz by lia.
      pose proof (Z.pow_pos_nonneg 2 (Z.of_nat n)). lia.
    + destruct n; [cbn in Hz; lia|lia].
    + exists (ds ++ [48 + z mod 10]). rewrite E, <- app_assoc. pose proof (Z.mod_pos_bound z 10).
      repeat split.
      * apply Forall_app. split; auto. constructor; [unfold is_digit; lia|constructor].
      * destruct ds; discriminate.
      * intros Hh. destruct ds as [|d ds]; [congruence|]. cbn in Hh. injection Hh as ->.
        specialize (C eq_refl). injection C as ->. exfalso. cbn in V. pose proof (Z.div_le_lower_bound z 10 1). lia.
      * rewrite digits_value_snoc, V. pose proof (Z.div_mod z 10). lia.
Qed.

Lemma log2_fuel z : 0 <= z -> z < 2 ^ Z.of_nat (S (Z.to_nat (Z.log2 z))).
Proof.
  intros H. rewrite Nat2Z.inj_succ, Z2Nat.id by apply Z.log2_nonneg.
  destruct (Z.eq_dec z 0) as [->|N]; [cbn; lia|]. apply Z.log2_spec. lia.
Qed.

Lemma int_to_string_spec z : exists ds, canonical_digits ds /\ digits_value ds = Z.abs z /\
  int_to_string z = (if z <? 0 then [45] else []) ++ ds.
Proof.
  unfold int_to_string. destruct (Z.ltb_spec z 0) as [L|L].
  - destruct (dec_digits_spec (S (Z.to_nat (Z.log2 (- z)))) (- z) []) as (ds & E & C & V); try lia.
    { apply log2_fuel. lia. }
    exists ds. rewrite E, app_nil_r. repeat split; try apply C. lia.
  - destruct (dec_digits_spec (S (Z.to_nat (Z.log2 z))) z []) as (ds & E & C & V); try lia.
    { apply log2_fuel. lia. }
    exists ds. rewrite E, app_nil_r. repeat split; try apply C. lia.
Qed.

Lemma int_to_string_literal z : int_literal (int_to_string z) z.
Proof.
  destruct (int_to_string_spec z) as (ds & (Fd & N & _) & V & ->). destruct (Z.ltb_spec z 0).
  - exists [45], (-1), ds. repeat split; auto; try constructor; try lia.
  - exists [], 1, ds. repeat split; auto; try constructor; try lia.
Qed.
Lemma int_to_string_hd z : 0 <= z -> hd_error (int_to_string z) <> Some 45.
Proof.
  intros H. destruct (int_to_string_spec z) as (ds & (Fd & N & _) & V & ->). destruct (Z.ltb_spec z 0); [lia|].
  cbn. destruct ds as [|d ds]; [congruence|]. inversion Fd; subst. unfold is_digit in *. cbn. intros [= E]. lia.
Qed.

Lemma int_literal_inj s z w : int_literal s z -> int_literal s w -> z = w.
Proof.
  intros H1 H2. pose (lo := Z.min (Z.min z w) 0). pose (hi := Z.max (Z.max z w) 0).
  assert (parse_int true lo hi s = inl z) as A by (apply parse_signed_ok; [lia|split; auto; lia]).
  assert (parse_int true lo hi s = inl w) as B by (apply parse_signed_ok; [lia|split; auto; lia]).
  congruence.
Qed.
Lemma int_to_string_inj z w : int_to_string z = int_to_string w -> z = w.
Proof. intros H. eapply int_literal_inj; [apply int_to_string_literal|]. rewrite H. apply int_to_string_literal. Qed.

Lemma parse_i64_print z : i64_lo <= z <= i64_hi -> parse_i64 (int_to_string z) = inl z.
Proof. intros H. apply parse_signed_ok; [unfold i64_lo, i64_hi; lia|]. split; auto. apply int_to_string_literal. Qed.
Lemma parse_u64_print z : 0 <= z <= u64_hi -> parse_u64 (int_to_string z) = inl z.
Proof.
  intros H. apply parse_unsigned_ok; [unfold u64_hi; lia|]. split; [apply int_to_string_literal|].
  split; [now apply int_to_string_hd|lia].
Qed.
