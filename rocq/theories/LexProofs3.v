(** Canonical forms of numbers. *)
From Coq Require Import List ZArith Bool Lia String.
From Verif Require Import LexModel LexSpec LexProofs1 LexProofs2.
Import ListNotations.
Open Scope Z_scope.
Open Scope list_scope.

Lemma strip0_digits ip : Forall is_digit ip -> Forall is_digit (strip0 ip).
Proof. induction ip as [|c ip IH]; intros H; cbn [strip0]; auto. inversion H; subst. destruct (c =? 48); auto. Qed.
Lemma strip0_value ip : digits_value (strip0 ip) = digits_value ip.
Proof.
  induction ip as [|c ip IH]; cbn [strip0]; auto. destruct (Z.eqb_spec c 48) as [->|N]; auto.
Qed.
Lemma strip0_hd ip : hd_error (strip0 ip) <> Some 48.
Proof. induction ip as [|c ip IH]; cbn [strip0]; [discriminate|]. destruct (Z.eqb_spec c 48); auto. cbn. congruence. Qed.
Lemma strip0_id ip : hd_error ip <> Some 48 -> strip0 ip = ip.
Proof. destruct ip as [|c ip]; auto. cbn. destruct (Z.eqb_spec c 48); congruence. Qed.

Lemma strip0_nonempty_value ip : Forall is_digit ip -> strip0 ip <> [] -> 0 < digits_value ip.
Proof.
  intros H N. rewrite <- strip0_value. pose proof (strip0_digits _ H). pose proof (strip0_hd ip).
  destruct (strip0 ip) as [|c s]; [congruence|]. inversion H0; subst. rewrite digits_value_cons.
  pose proof (digits_value_range _ H5). pose proof (Z.pow_pos_nonneg 10 (Z.of_nat (List.length s))).
  assert (c <> 48) by (intros ->; apply H1; reflexivity). unfold is_digit in *. nia.
Qed.
Lemma strip0_empty_value ip : strip0 ip = [] -> digits_value ip = 0.
Proof. intros H. rewrite <- strip0_value, H. reflexivity. Qed.

Lemma ip_canon_spec ip : Forall is_digit ip -> canonical_digits (ip_canon ip) /\ digits_value (ip_canon ip) = digits_value ip.
Proof.
  intros H. unfold ip_canon. destruct (strip0 ip) eqn:E; cbn [emptyb].
  - split; [|symmetry; now rewrite (strip0_empty_value _ E)].
    split; [constructor; [unfold is_digit; lia|constructor]|]. split; [discriminate|auto].
  - rewrite <- E. split; [|apply strip0_value]. split; [now apply strip0_digits|]. split; [congruence|].
    intros Hh. now apply strip0_hd in Hh.
Qed.
Lemma ip_canon_id ip : canonical_digits ip -> ip_canon ip = ip.
Proof.
  intros (Fd & N & C). unfold ip_canon. destruct ip as [|c ip]; [congruence|].
  destruct (Z.eq_dec c 48) as [->|N48].
  - rewrite (C eq_refl). reflexivity.
  - rewrite strip0_id by (cbn; congruence). reflexivity.
Qed.

Lemma same_length_value : forall a b, Forall is_digit a -> Forall is_digit b -> List.length a = List.length b ->
  digits_value a = digits_value b -> a = b.
Proof.
  induction a as [|x a IH]; intros [|y b] Ha Hb L V; try discriminate; auto.
  inversion Ha; inversion Hb; subst. injection L as L. rewrite !digits_value_cons, L in V.
  pose proof (digits_value_range _ H2) as R1. pose proof (digits_value_range _ H6) as R2. rewrite L in R1.
  set (p := 10 ^ Z.of_nat (List.length b)) in *. unfold is_digit in *.
  assert (x = y) as -> by nia. f_equal. apply IH; auto. lia.
Qed.

Lemma canonical_length a : canonical_digits a -> digits_value a <> 0 ->
  10 ^ (Z.of_nat (List.length a) - 1) <= digits_value a < 10 ^ Z.of_nat (List.length a).
Proof.
  intros (Fd & N & C) V. split; [|apply digits_value_range; auto].
  destruct a as [|c a]; [congruence|]. inversion Fd; subst. rewrite digits_value_cons.
  pose proof (digits_value_range _ H2). cbn [List.length]. replace (Z.of_nat (S (List.length a)) - 1) with (Z.of_nat (List.length a)) by lia.
  pose proof (Z.pow_pos_nonneg 10 (Z.of_nat (List.length a))).
  assert (c <> 48). { intros ->. assert (a = []) as -> by (specialize (C eq_refl); congruence). apply V. reflexivity. }
  unfold is_digit in *. nia.
Qed.

Theorem canonical_unique a b : canonical_digits a -> canonical_digits b -> digits_value a = digits_value b -> a = b.
Proof.
  intros Ca Cb V. destruct (Z.eq_dec (digits_value a) 0) as [E|E].
  - assert (forall x, canonical_digits x -> digits_value x = 0 -> x = [48]) as K.
    { intros x (Fd & N & C) Vx. destruct x as [|c x]; [congruence|]. apply C. cbn. f_equal. inversion Fd; subst.
      rewrite digits_value_cons in Vx. pose proof (digits_value_range _ H2).
      pose proof (Z.pow_pos_nonneg 10 (Z.of_nat (List.length x))). unfold is_digit in *. nia. }
    rewrite (K a), (K b); auto; congruence.
  - pose proof (canonical_length a Ca E) as La. assert (digits_value b <> 0) as E' by congruence.
    pose proof (canonical_length b Cb E') as Lb. rewrite V in La.
    assert (List.length a = List.length b) as L.
    { destruct (Nat.lt_trichotomy (List.length a) (List.length b)) as [H|[H|H]]; auto; exfalso.
      - assert (10 ^ Z.of_nat (List.length a) <= 10 ^ (Z.of_nat (List.length b) - 1)) by (apply Z.pow_le_mono_r; lia). lia.
      - assert (10 ^ Z.of_nat (List.length b) <= 10 ^ (Z.of_nat (List.length a) - 1)) by (apply Z.pow_le_mono_r; lia). lia. }
    apply same_length_value; auto; [apply Ca|apply Cb].
Qed.

(** A canonical integer is the printed form of its value. *)
Lemma canonical_int sg sgn ds : sign sg sgn -> canonical_digits ds -> digits_value ds <> 0 ->
  sign_prefix sg ++ ds = int_to_string (sgn * digits_value ds).
Proof.
  intros S C V. destruct (int_to_string_spec (sgn * digits_value ds)) as (ds' & C' & V' & ->).
  pose proof (digits_value_range ds (proj1 C)). inversion S; subst; cbn [sign_prefix app].
  - destruct (Z.ltb_spec (1 * digits_value ds) 0); [lia|]. cbn. apply canonical_unique; auto. lia.
  - destruct (Z.ltb_spec (1 * digits_value ds) 0); [lia|]. change (43 =? 45) with false. cbn. apply canonical_unique; auto. lia.
  - destruct (Z.ltb_spec (-1 * digits_value ds) 0); [|lia]. rewrite Z.eqb_refl. cbn. f_equal. apply canonical_unique; auto. lia.
Qed.

(** The canonical form of a decimal that is not an integer. *)
Definition canon_dec (lex : str) (m k : Z) : Prop :=
  exists sg sgn ip fp, sign sg sgn /\ sign_prefix sg = sg /\ canonical_digits ip /\ Forall is_digit fp /\ fp <> [] /\ last fp 48 <> 48 /\
    lex = sg ++ ip ++ [46] ++ fp /\ m = sgn * digits_value (ip ++ fp) /\ k = Z.of_nat (List.length fp).

Lemma canon_dec_literal lex m k : canon_dec lex m k -> dec_literal lex m k.
Proof.
  intros (sg & sgn & ip & fp & S & _ & (Fi & Ni & _) & Ff & Nf & _ & -> & -> & ->).
  exists sg, sgn, ip, fp. split; auto. split; auto. split; auto. split; [destruct ip; [congruence|discriminate]|].
  split; auto.
Qed.

Lemma last_mod fp ip : Forall is_digit (ip ++ fp) -> fp <> [] -> digits_value (ip ++ fp) mod 10 = last fp 48 - 48.
Proof.
  intros Fd N. destruct (exists_last N) as (x & c & ->). rewrite last_last, app_assoc, digits_value_snoc.
  apply Forall_app in Fd as [_ Fd]. apply Forall_app in Fd as [_ Fd]. inversion Fd; subst. unfold is_digit in *.
  rewrite Z.add_comm, Z.mod_add by lia. apply Z.mod_small. lia.
Qed.

Lemma canon_dec_mod lex m k : canon_dec lex m k -> m mod 10 <> 0 /\ 0 < k.
Proof.
  intros (sg & sgn & ip & fp & S & _ & (Fi & Ni & _) & Ff & Nf & La & _ & -> & ->).
  assert (digits_value (ip ++ fp) mod 10 <> 0) as M.
  { rewrite last_mod; auto; [lia|]. apply Forall_app; auto. }
  split; [|destruct fp; [congruence|cbn; lia]].
  inversion S; subst; [now rewrite Z.mul_1_l|now rewrite Z.mul_1_l|].
  replace (-1 * digits_value (ip ++ fp)) with (- digits_value (ip ++ fp)) by lia.
  rewrite Z.mod_opp_l_nz; try lia. pose proof (Z.mod_pos_bound (digits_value (ip ++ fp)) 10). lia.
Qed.

Lemma pow10_split a b : 0 <= a <= b -> 10 ^ b = 10 ^ a * 10 ^ (b - a).
Proof. intros H. rewrite <- Z.pow_add_r by lia. f_equal. lia. Qed.

Lemma mod10_zero m j : 0 < j -> (m * 10 ^ j) mod 10 = 0.
Proof. intros H. replace j with (Z.succ (j - 1)) by lia. rewrite Z.pow_succ_r by lia. replace (m * (10 * 10 ^ (j - 1))) with (m * 10 ^ (j - 1) * 10) by ring. apply Z.mod_mul. lia. Qed.

Lemma same_number_reduced m1 k1 m2 k2 : 0 <= k1 -> 0 <= k2 -> same_number m1 k1 m2 k2 ->
  (0 < k1 -> m1 mod 10 <> 0) -> (0 < k2 -> m2 mod 10 <> 0) -> m1 = m2 /\ k1 = k2.
Proof.
  unfold same_number. intros H1 H2 E N1 N2.
  destruct (Z.lt_trichotomy k1 k2) as [L|[L|L]].
  - exfalso. rewrite (pow10_split k1 k2) in E by lia.
    assert (m1 * 10 ^ (k2 - k1) = m2) as E'. { pose proof (Z.pow_pos_nonneg 10 k1). nia. }
    apply N2; [lia|]. rewrite <- E'. apply mod10_zero. lia.
  - subst. split; auto. pose proof (Z.pow_pos_nonneg 10 k2). nia.
  - exfalso. rewrite (pow10_split k2 k1) in E by lia.
    assert (m2 * 10 ^ (k1 - k2) = m1) as E'. { pose proof (Z.pow_pos_nonneg 10 k2). nia. }
    apply N1; [lia|]. rewrite <- E'. apply mod10_zero. lia.
Qed.

Theorem canon_dec_unique l1 m1 k1 l2 m2 k2 : canon_dec l1 m1 k1 -> canon_dec l2 m2 k2 -> same_number m1 k1 m2 k2 -> l1 = l2.
Proof.
  intros C1 C2 E. destruct (canon_dec_mod _ _ _ C1) as [M1 K1]. destruct (canon_dec_mod _ _ _ C2) as [M2 K2].
  destruct (same_number_reduced m1 k1 m2 k2) as [-> ->]; auto; try lia.
  destruct C1 as (sg1 & sgn1 & ip1 & fp1 & S1 & P1 & Ci1 & Ff1 & Nf1 & La1 & -> & Em1 & Ek1).
  destruct C2 as (sg2 & sgn2 & ip2 & fp2 & S2 & P2 & Ci2 & Ff2 & Nf2 & La2 & -> & Em2 & Ek2).
  assert (List.length fp1 = List.length fp2) as L by lia.
  assert (Forall is_digit (ip1 ++ fp1)) as F1 by (apply Forall_app; split; [apply Ci1|auto]).
  assert (Forall is_digit (ip2 ++ fp2)) as F2 by (apply Forall_app; split; [apply Ci2|auto]).
  pose proof (digits_value_range _ F1) as R1. pose proof (digits_value_range _ F2) as R2.
  assert (m2 <> 0) as Nz by (intros ->; apply M2; reflexivity).
  assert (sgn1 = sgn2 /\ digits_value (ip1 ++ fp1) = digits_value (ip2 ++ fp2)) as [Es Ev].
  { inversion S1; inversion S2; subst; split; lia. }
  rewrite !digits_value_app, L in Ev.
  pose proof (digits_value_range _ Ff1) as Q1. pose proof (digits_value_range _ Ff2) as Q2. rewrite L in Q1.
  pose proof (digits_value_range _ (proj1 Ci1)) as I1. pose proof (digits_value_range _ (proj1 Ci2)) as I2.
  set (p := 10 ^ Z.of_nat (List.length fp2)) in *.
  assert (digits_value ip1 = digits_value ip2) as Ei by nia.
  assert (ip1 = ip2) as -> by (apply canonical_unique; auto).
  assert (fp1 = fp2) as -> by (apply same_length_value; auto; lia).
  f_equal. rewrite <- P1, <- P2. inversion S1; inversion S2; subst; auto; cbn in *; try discriminate; try lia.
Qed.

Lemma same_number_trans m1 k1 m2 k2 m3 k3 : 0 <= k1 -> 0 <= k2 -> 0 <= k3 ->
  same_number m1 k1 m2 k2 -> same_number m2 k2 m3 k3 -> same_number m1 k1 m3 k3.
Proof.
  unfold same_number. intros H1 H2 H3 A B. apply (Z.mul_cancel_r _ _ (10 ^ k2)); [pose proof (Z.pow_pos_nonneg 10 k2); lia|].
  replace (m1 * 10 ^ k3 * 10 ^ k2) with (m1 * 10 ^ k2 * 10 ^ k3) by ring. rewrite A.
  replace (m2 * 10 ^ k1 * 10 ^ k3) with (m2 * 10 ^ k3 * 10 ^ k1) by ring. rewrite B. ring.
Qed.
Lemma same_number_sym m1 k1 m2 k2 : same_number m1 k1 m2 k2 -> same_number m2 k2 m1 k1.
Proof. unfold same_number. auto. Qed.
Lemma same_number_refl m k : same_number m k m k. Proof. reflexivity. Qed.
Lemma dec_literal_k s m k : dec_literal s m k -> 0 <= k.
Proof. intros (sg & sgn & ip & fp & _ & _ & _ & _ & _ & _ & ->). lia. Qed.

Lemma int_dec_literal s z : int_literal s z -> dec_literal s z 0.
Proof.
  intros (sg & sgn & ds & -> & S & N & Fd & ->). exists sg, sgn, ds, []. rewrite app_nil_r. 
  split; [auto|]. split; [auto|]. split; [constructor|]. split; [auto|]. split; [auto|]. split; reflexivity.
Qed.

(** Decimal literals have one value. *)
Lemma split_point : forall a b c d, Forall is_digit a -> Forall is_digit c -> a ++ 46 :: b = c ++ 46 :: d -> a = c /\ b = d.
Proof.
  induction a as [|x a IH]; intros b [|y c] d Ha Hc E; cbn in E.
  - injection E as ->. auto.
  - injection E as <- E. inversion Hc; subst. unfold is_digit in *. lia.
  - injection E as -> E. inversion Ha; subst. unfold is_digit in *. lia.
  - injection E as -> E. inversion Ha; inversion Hc; subst. destruct (IH _ _ _ H2 H6 E). subst. auto.
Qed.
Lemma no_point : forall a b c, Forall is_digit a -> Forall is_digit c -> c <> a ++ 46 :: b.
Proof.
  intros a b c Ha Hc ->. apply Forall_app in Hc as [_ Hc]. inversion Hc; subst. unfold is_digit in *. lia.
Qed.
Lemma sign_cancel sg1 n1 sg2 n2 x y : sign sg1 n1 -> sign sg2 n2 -> sg1 ++ x = sg2 ++ y ->
  (hd_error x <> Some 43 /\ hd_error x <> Some 45) -> (hd_error y <> Some 43 /\ hd_error y <> Some 45) -> sg1 = sg2 /\ n1 = n2 /\ x = y.
Proof.
  intros S1 S2 E [Ax Bx] [Ay By]. inversion S1; inversion S2; subst; cbn in E; try discriminate; subst; cbn in *; try congruence; auto.
  - injection E as ->. auto.
  - injection E as ->. auto.
Qed.
Lemma hd_digits_point ip t : Forall is_digit ip -> (t = [] \/ hd_error t = Some 46) -> hd_error (ip ++ t) <> Some 43 /\ hd_error (ip ++ t) <> Some 45.
Proof.
  intros F T. destruct ip as [|c ip]; cbn.
  - destruct T as [E|E]; rewrite E; split; cbn; congruence.
  - inversion F; subst. unfold is_digit in *. split; intros [= E]; lia.
Qed.
Lemma dec_literal_inj s m1 k1 m2 k2 : dec_literal s m1 k1 -> dec_literal s m2 k2 -> m1 = m2 /\ k1 = k2.
Proof.
  intros (sg1 & n1 & ip1 & fp1 & S1 & I1 & F1 & N1 & E1 & -> & ->) (sg2 & n2 & ip2 & fp2 & S2 & I2 & F2 & N2 & E2 & -> & ->).
  assert (exists t1 t2, s = sg1 ++ ip1 ++ t1 /\ s = sg2 ++ ip2 ++ t2 /\ (t1 = [] /\ fp1 = [] \/ t1 = 46 :: fp1) /\ (t2 = [] /\ fp2 = [] \/ t2 = 46 :: fp2))
    as (t1 & t2 & -> & Es & T1 & T2).
  { destruct E1 as [[-> -> ]| -> ], E2 as [[A ->]|A].
    - exists [], []. rewrite !app_nil_r. auto 10.
    - exists [], (46 :: fp2). rewrite !app_nil_r. auto 10.
    - exists (46 :: fp1), []. rewrite !app_nil_r. auto 10.
    - exists (46 :: fp1), (46 :: fp2). auto 10. }
  destruct (sign_cancel _ _ _ _ _ _ S1 S2 Es) as (-> & -> & Ex).
  - apply hd_digits_point; auto. destruct T1 as [[-> _ ]| -> ]; auto.
  - apply hd_digits_point; auto. destruct T2 as [[-> _ ]| -> ]; auto.
  - destruct T1 as [[-> -> ]| -> ], T2 as [[-> -> ]| -> ].
    + rewrite !app_nil_r in Ex. subst. auto.
    + rewrite app_nil_r in Ex. exfalso. eapply no_point; [| |exact Ex]; auto.
    + rewrite app_nil_r in Ex. exfalso. symmetry in Ex. eapply no_point; [| |exact Ex]; auto.
    + apply split_point in Ex as [-> ->]; auto.
Qed.
