(** The results of parsing numbers. *)
From Coq Require Import List ZArith Bool Lia String.
From Verif Require Import LexModel LexSpec LexProofs1 LexProofs2 LexProofs3.
Import ListNotations.
Open Scope Z_scope.
Open Scope list_scope.

Section P.
Context {F : float_ops}.
Notation dval := (dval F).

Definition i64 (z : Z) : Prop := i64_lo <= z <= i64_hi.

(** The forms that numbers have as data values. *)
Definition num_canon (v : dval) : Prop :=
  match v with
  | VLong z => i64 z
  | VULong z => i64_hi < z <= u64_hi
  | VOther lex dt => dt = xsd "integer" /\ (exists z, lex = int_to_string z /\ ~ i64 z) \/
                     dt = xsd "decimal" /\ (exists m k, canon_dec lex m k)
  | _ => False
  end.

Lemma i64_bounds : i64_lo <= 0 <= i64_hi. Proof. unfold i64_lo, i64_hi. lia. Qed.

Lemma parse_i64_cases s : (exists z, int_literal s z /\ i64 z /\ parse_i64 s = inl z) \/
  (exists e, parse_i64 s = inr e /\ forall z, int_literal s z -> ~ i64 z /\ (e = IPosOverflow \/ e = INegOverflow)).
Proof.
  destruct (parse_i64 s) as [z|e] eqn:E.
  - left. exists z. apply parse_signed_ok in E as [A B]; [|apply i64_bounds]. auto.
  - right. exists e. split; auto. intros z L. split.
    + intros B. assert (parse_i64 s = inl z) by (apply parse_signed_ok; [apply i64_bounds|auto]). congruence.
    + destruct (parse_signed_error i64_lo i64_hi s z L) as [A B]. unfold parse_i64 in E. rewrite E in A, B.
      destruct e; auto; congruence.
Qed.

Definition type_range (t : decimal_type) (z : Z) : Prop :=
  match t with
  | TDecimal | TInteger => True
  | TNonNegativeInteger => 0 <= z
  | TPositiveInteger => 0 < z
  | TNonPositiveInteger => z <= 0
  | TNegativeInteger => z < 0
  end.

Lemma large_int s z t : int_literal s z -> ~ i64 z ->
  (type_range t z -> parse_large_decimal_literal s t = POk (VOther (int_to_string z) (xsd "integer")) :> parsed F) /\
  (~ type_range t z -> parse_large_decimal_literal s t = PErr :> parsed F).
Proof.
  intros (sg & sgn & ds & -> & S & N & Fd & ->) B.
  destruct (scan_integer sg sgn ds S Fd) as (st & E & Et & Ef & Es & Ez & Ed).
  assert (digits_value ds <> 0) as Nz. { intros V. apply B. rewrite V. pose proof i64_bounds. unfold i64. rewrite Z.mul_0_r. auto. }
  assert (strip0 ds <> []) as Ns by (intros V; apply Nz; now apply strip0_empty_value).
  assert (emptyb (strip0 ds) = false) as Eb by (destruct (strip0 ds); [congruence|reflexivity]).
  assert (emptyb ds = false) as Ed' by (destruct ds; [congruence|reflexivity]).
  assert (canonical_digits (strip0 ds)) as C.
  { split; [now apply strip0_digits|]. split; auto. intros H. now apply strip0_hd in H. }
  pose proof (canonical_int sg sgn (strip0 ds) S C) as CI. rewrite strip0_value in CI. specialize (CI Nz).
  unfold parse_large_decimal_literal. rewrite E, Ed, Ed', Ef, Ez, Eb, Es, Et, CI. cbn [negb].
  pose proof (digits_value_range _ Fd).
  inversion S; subst; cbn [sign_is_plus]; try change (43 =? 45) with false; try change (45 =? 45) with true; cbn [negb];
    destruct t; cbn [type_range]; split; intros; try reflexivity; lia.
Qed.

Lemma int_as_dec z : same_number z 0 z 0. Proof. reflexivity. Qed.

Lemma large_point sg sgn ip fp : sign sg sgn -> Forall is_digit ip -> Forall is_digit fp -> ip ++ fp <> [] ->
  exists v : dval, parse_large_decimal_literal (sg ++ ip ++ [46] ++ fp) TDecimal = POk v /\
    denotes v (sgn * digits_value (ip ++ fp)) (Z.of_nat (List.length fp)) /\ num_canon v.
Proof.
  intros S Fi Ff N. destruct (scan_decimal sg sgn ip fp S Fi Ff) as (st & E & Ef & Et & Eh & Ed).
  assert (emptyb (ip ++ fp) = false) as En by (destruct (ip ++ fp); [congruence|reflexivity]).
  unfold parse_large_decimal_literal. rewrite E, Ed, En, Ef, Eh. cbn [negb]. cbv zeta. rewrite Et.
  destruct (ip_canon_spec ip Fi) as (Ci & Vi).
  assert (exists zs, fp = rstrip0 fp ++ zs /\ Forall (eq 48) zs) as (zs & Ezs & Fz).
  { clear. induction fp as [|c fp (zs & IH & Fz)] using rev_ind; [exists []; auto|].
    rewrite rstrip0_snoc. destruct (Z.eqb_spec c 48) as [->|].
    - exists (zs ++ [48]). rewrite app_assoc, <- IH. split; auto. apply Forall_app; auto.
    - exists []. now rewrite app_nil_r. }
  assert (digits_value zs = 0) as Vz.
  { clear - Fz. induction zs as [|c zs IH]; auto. inversion Fz; subst. rewrite digits_value_cons, IH; auto. }
  assert (digits_value (ip ++ fp) = digits_value (ip_canon ip ++ rstrip0 fp) * 10 ^ Z.of_nat (List.length zs)) as Vf.
  { rewrite Ezs at 1. rewrite app_assoc, digits_value_app, Vz, !(digits_value_app _ (rstrip0 fp)), Vi. lia. }
  assert (Z.of_nat (List.length fp) = Z.of_nat (List.length (rstrip0 fp)) + Z.of_nat (List.length zs)) as Lf.
  { rewrite Ezs at 1. rewrite app_length. lia. }
  assert (Forall is_digit (rstrip0 fp)) as Fr by (rewrite Ezs in Ff; now apply Forall_app in Ff as [? _]).
  assert (same_number (sgn * digits_value (ip_canon ip ++ rstrip0 fp)) (Z.of_nat (List.length (rstrip0 fp)))
            (sgn * digits_value (ip ++ fp)) (Z.of_nat (List.length fp))) as SN.
  { unfold same_number. rewrite Vf, Lf, Z.pow_add_r by lia. ring. }
  destruct (emptyb (rstrip0 fp)) eqn:Ee; cbn [negb].
  - (* an integer *)
    assert (rstrip0 fp = []) as Er by (destruct (rstrip0 fp); [auto|discriminate]). rewrite Er, app_nil_r in *.
    cbn [List.length] in SN. change (Z.of_nat 0) with 0 in SN.
    
    assert (sign (sign_prefix sg) sgn) as Sp by (inversion S; subst; constructor).
    assert (int_literal (sign_prefix sg ++ ip_canon ip) (sgn * digits_value (ip_canon ip))) as IL.
    { exists (sign_prefix sg), sgn, (ip_canon ip). repeat split; auto; apply Ci. }
    destruct (parse_i64_cases (sign_prefix sg ++ ip_canon ip)) as [(z & L & B & Ep)|(e & Ep & Nb)].
    + exists (VLong z). rewrite Ep. split; auto. split; auto. cbn. now rewrite (int_literal_inj _ _ _ L IL).
    + rewrite Ep. destruct (Nb _ IL) as [B _].
      assert (digits_value (ip_canon ip) <> 0) as Nz.
      { intros V. apply B. rewrite V, Z.mul_0_r. unfold i64. pose proof i64_bounds. auto. }
      pose proof (canonical_int sg sgn (ip_canon ip) S Ci Nz) as CI.
      destruct (parse_u64 (sign_prefix sg ++ ip_canon ip)) as [z|] eqn:Eu.
      * exists (VULong z). split; auto. pose proof Eu as Eu'. apply parse_unsigned_ok in Eu as (L & _ & Hz); [|unfold u64_hi; lia].
        pose proof (int_literal_inj _ _ _ L IL) as ->. split; [exact SN|]. cbn. split; [|auto].
        destruct (Z.lt_ge_cases i64_hi (sgn * digits_value (ip_canon ip))); auto. exfalso.
        destruct (Z.lt_ge_cases (sgn * digits_value (ip_canon ip)) i64_lo); [|apply B; split; auto].
        unfold parse_u64 in Eu'.
        (* negative numbers are printed with '-', which u64 does not accept *)
        pose proof i64_bounds. pose proof (digits_value_range _ (proj1 Ci)).
        assert (sg = [45]) as ->. { inversion S; subst; auto; lia. }
        cbn [sign_prefix] in Eu'. rewrite Z.eqb_refl in Eu'. cbn [app] in Eu'. rewrite parse_int_shape in Eu'. destruct (ip_canon ip); discriminate.
      * exists (VOther (sign_prefix sg ++ ip_canon ip) (xsd "integer")). split; auto. split.
        { split; [auto|]. exists (sgn * digits_value (ip_canon ip)), 0. split; [now apply int_dec_literal|exact SN]. }
        { left. split; auto. exists (sgn * digits_value (ip_canon ip)). auto. }
  - assert (rstrip0 fp <> []) as Nr by (intros H; rewrite H in Ee; discriminate).
    assert (canon_dec (sign_prefix sg ++ ip_canon ip ++ 46 :: rstrip0 fp)
              (sgn * digits_value (ip_canon ip ++ rstrip0 fp)) (Z.of_nat (List.length (rstrip0 fp)))) as CD.
    { assert (last (rstrip0 fp) 48 <> 48) as La.
      { clear - Nr. revert Nr. induction fp as [|c fp IH] using rev_ind; [cbn; congruence|]. rewrite rstrip0_snoc.
        destruct (Z.eqb_spec c 48); auto. intros _. rewrite last_last. auto. }
      exists (sign_prefix sg), sgn, (ip_canon ip), (rstrip0 fp).
      split; [inversion S; subst; constructor|]. split; [inversion S; subst; reflexivity|]. repeat (split; [auto|]). reflexivity. }
    exists (VOther (sign_prefix sg ++ ip_canon ip ++ 46 :: rstrip0 fp) (xsd "decimal")). split; auto. split.
    + split; auto. do 2 eexists. split; [apply canon_dec_literal; exact CD|exact SN].
    + right. split; auto. do 2 eexists. exact CD.
Qed.

Lemma large_error s t : (forall m k, ~ dec_literal s m k) -> parse_large_decimal_literal s t = PErr :> parsed F.
Proof.
  intros H. unfold parse_large_decimal_literal. destruct (scan_all scan0 s) as [st|] eqn:E; auto.
  destruct (scan_inv s st E) as (sg & sgn & ip & fp & S & Fi & Ff & D).
  assert (ip ++ fp = []) as En.
  { destruct (ip ++ fp) eqn:En; auto. exfalso. eapply H. exists sg, sgn, ip, fp. repeat split; eauto. congruence. }
  apply app_eq_nil in En as [-> ->].
  destruct D as [[-> _]| ->].
  - destruct (scan_integer sg sgn [] S Fi) as (st' & E' & _ & _ & _ & _ & Ed). rewrite E in E'. injection E' as <-. rewrite Ed. reflexivity.
  - destruct (scan_decimal sg sgn [] [] S Fi Ff) as (st' & E' & _ & _ & _ & Ed). rewrite E in E'. injection E' as <-. rewrite Ed. reflexivity.
Qed.

Lemma large_point_error sg sgn ip fp t : sign sg sgn -> Forall is_digit ip -> Forall is_digit fp -> t <> TDecimal ->
  parse_large_decimal_literal (sg ++ ip ++ [46] ++ fp) t = PErr :> parsed F.
Proof.
  intros S Fi Ff N. destruct (scan_decimal sg sgn ip fp S Fi Ff) as (st & E & Ef & Et & Eh & Ed).
  unfold parse_large_decimal_literal. rewrite E, Ef. destruct (negb (saw_digit st)); auto. cbn [negb]. destruct t; auto. congruence.
Qed.

Lemma dec_int_cases s m k : dec_literal s m k -> (exists z, int_literal s z /\ m = z /\ k = 0) \/
  exists sg sgn ip fp, sign sg sgn /\ Forall is_digit ip /\ Forall is_digit fp /\ ip ++ fp <> [] /\ s = sg ++ ip ++ [46] ++ fp /\
    m = sgn * digits_value (ip ++ fp) /\ k = Z.of_nat (List.length fp).
Proof.
  intros (sg & sgn & ip & fp & S & Fi & Ff & N & [[-> ->]| ->] & -> & ->).
  - rewrite app_nil_r in *. left. exists (sgn * digits_value ip). split; auto. exists sg, sgn, ip. auto.
  - right. exists sg, sgn, ip, fp. repeat split; auto.
Qed.
Lemma point_not_int sg sgn ip fp z : sign sg sgn -> Forall is_digit ip -> ~ int_literal (sg ++ ip ++ [46] ++ fp) z.
Proof.
  intros S Fi (sg' & sgn' & ds & E & S' & N & Fd & _).
  destruct (sign_cancel _ _ _ _ _ _ S S' E) as (_ & _ & E').
  - apply hd_digits_point; auto.
  - rewrite <- (app_nil_r ds). apply hd_digits_point; auto.
  - symmetry in E'. eapply no_point; [| |exact E']; auto.
Qed.

(** The arbitrary-size integer types. *)
Theorem big_integer_ok s t z : int_literal s z -> type_range t z -> exists v : dval,
  new_from_decimal_type_literal s t = POk v /\ denotes v z 0 /\ num_canon v /\ (i64 z /\ v = VLong z \/ ~ i64 z /\ v = VOther (int_to_string z) (xsd "integer")).
Proof.
  intros L R. unfold new_from_decimal_type_literal. destruct (parse_i64_cases s) as [(w & L' & B & ->)|(e & -> & H)].
  - pose proof (int_literal_inj _ _ _ L' L) as ->. exists (VLong z). split; [|split; [reflexivity|split; auto]].
    unfold from_decimal_typed_long, type_range in *. destruct t; auto.
    + destruct (Z.ltb_spec z 0); auto. lia.
    + destruct (Z.leb_spec z 0); auto. lia.
    + destruct (Z.ltb_spec 0 z); auto. lia.
    + destruct (Z.leb_spec 0 z); auto. lia.
  - destruct (H z L) as [B O]. exists (VOther (int_to_string z) (xsd "integer")).
    destruct (large_int s z t L B) as [A _]. rewrite (A R). split; [|split; [|split; auto]].
    + destruct O as [-> | ->]; reflexivity.
    + split; auto. exists z, 0. split; [apply int_dec_literal, int_to_string_literal|reflexivity].
    + left. split; auto. exists z. auto.
Qed.

Theorem big_integer_err s t : t <> TDecimal -> (forall z, int_literal s z -> ~ type_range t z) ->
  new_from_decimal_type_literal s t = PErr :> parsed F.
Proof.
  intros Nt R. unfold new_from_decimal_type_literal. destruct (parse_i64_cases s) as [(w & L' & B & ->)|(e & -> & H)].
  - specialize (R _ L'). unfold from_decimal_typed_long, type_range in *. destruct t; try tauto.
    + destruct (Z.ltb_spec w 0); auto. lia.
    + destruct (Z.leb_spec w 0); auto. lia.
    + destruct (Z.ltb_spec 0 w); auto. lia.
    + destruct (Z.leb_spec 0 w); auto. lia.
  - assert (parse_large_decimal_literal s t = PErr :> parsed F) as E; [|destruct e, t; auto; congruence].
    destruct (scan_all scan0 s) as [st|] eqn:Es.
    + destruct (scan_inv s st Es) as (sg & sgn & ip & fp & S & Fi & Ff & [[-> ->]| ->]).
      * destruct ip as [|c ip].
        { apply large_error. intros m k (sg' & sgn' & ip' & fp' & S' & Fi' & Ff' & N' & [[E' ->]|E'] & _).
          - destruct (sign_cancel _ _ _ _ _ _ S S' E') as (_ & _ & E2); [cbn; split; discriminate| |].
            + rewrite <- (app_nil_r ip'). apply hd_digits_point; auto.
            + subst. apply N'. reflexivity.
          - destruct (sign_cancel _ _ _ _ _ _ S S' E') as (_ & _ & E2); [cbn; split; discriminate| |].
            + apply hd_digits_point; auto.
            + destruct ip'; discriminate. }
        assert (int_literal (sg ++ c :: ip) (sgn * digits_value (c :: ip))) as L.
        { exists sg, sgn, (c :: ip). repeat split; auto. congruence. }
        destruct (H _ L) as [B _]. apply (large_int _ _ t L B). now apply R.
      * now apply large_point_error with sgn.
    + unfold parse_large_decimal_literal. now rewrite Es.
Qed.

(** Decimals. *)
Theorem decimal_ok s m k : dec_literal s m k -> exists v : dval,
  new_from_decimal_type_literal s TDecimal = POk v /\ denotes v m k /\ num_canon v.
Proof.
  intros D. destruct (dec_int_cases s m k D) as [(z & L & -> & ->)|(sg & sgn & ip & fp & S & Fi & Ff & N & -> & -> & ->)].
  - destruct (big_integer_ok s TDecimal z L) as (v & A & B & C & _); [exact I|]. exists v. auto.
  - destruct (large_point sg sgn ip fp S Fi Ff N) as (v & E & Dv & Cv). exists v. split; auto.
    unfold new_from_decimal_type_literal. destruct (parse_i64_cases (sg ++ ip ++ [46] ++ fp)) as [(w & L' & _ & _)|(e & Ee & _)].
    + exfalso. eapply point_not_int; [| |exact L']; eauto.
    + rewrite Ee. destruct e; auto. exfalso. 
      unfold parse_i64 in Ee. destruct (sg ++ ip ++ [46] ++ fp) as [|c s] eqn:Es; [destruct sg, ip; discriminate|].
      rewrite parse_int_shape in Ee. destruct (c =? 43); [destruct s; [discriminate|]; now apply pos_digits_not_empty in Ee|].
      destruct (c =? 45); [|now apply pos_digits_not_empty in Ee]. destruct s; [discriminate|].
      clear - Ee. revert Ee. generalize 0 as acc. generalize (z :: s). 
      induction l as [|x l IH]; intros acc; cbn [neg_digits]; [discriminate|]. destruct (digit x); [|discriminate].
      destruct (negb _); [discriminate|]. destruct (negb _); [discriminate|]. apply IH.
Qed.
Theorem decimal_err s : (forall m k, ~ dec_literal s m k) -> new_from_decimal_type_literal s TDecimal = PErr :> parsed F.
Proof.
  intros H. unfold new_from_decimal_type_literal. destruct (parse_i64_cases s) as [(w & L' & _ & _)|(e & -> & _)].
  - exfalso. eapply H. apply int_dec_literal. eauto.
  - rewrite large_error by auto. destruct e; auto.
Qed.

(** Equal numbers: the same data value, except between 2^63 and 2^64. *)
Lemma denotes_fun (v : dval) m1 k1 m2 k2 : 0 <= k1 -> 0 <= k2 -> denotes v m1 k1 -> denotes v m2 k2 -> same_number m1 k1 m2 k2.
Proof.
  intros H1 H2. destruct v; cbn [denotes]; try tauto.
  - intros A B. eapply same_number_trans; [| | |apply same_number_sym; exact A|exact B]; lia.
  - intros A B. eapply same_number_trans; [| | |apply same_number_sym; exact A|exact B]; lia.
  - intros (_ & m & k & D & A) (_ & m' & k' & D' & B). destruct (dec_literal_inj _ _ _ _ _ D D') as [<- <-].
    pose proof (dec_literal_k _ _ _ D).
    eapply same_number_trans; [| | |apply same_number_sym; exact A|exact B]; lia.
Qed.

Definition num_value (v : dval) (m k : Z) : Prop :=
  match v with
  | VLong z | VULong z => m = z /\ k = 0
  | VOther lex dt => dt = xsd "integer" /\ (exists z, lex = int_to_string z /\ ~ i64 z /\ m = z /\ k = 0) \/ dt = xsd "decimal" /\ canon_dec lex m k
  | _ => False
  end.
Lemma num_canon_value v m k : 0 <= k -> num_canon v -> denotes v m k -> exists m' k', num_value v m' k' /\ 0 <= k' /\ same_number m' k' m k.
Proof.
  intros Hk C D. destruct v; cbn in C, D; try contradiction.
  - exists z, 0. cbn. repeat split; auto. lia.
  - exists z, 0. cbn. repeat split; auto. lia.
  - destruct D as (_ & m' & k' & D & S). destruct C as [[E (z & El & B)]|[E (m2 & k2 & CD)]].
    + exists z, 0. cbn. split; [left; split; auto; exists z; auto|]. split; [lia|].
      assert (dec_literal lex z 0) as D' by (rewrite El; apply int_dec_literal, int_to_string_literal).
      destruct (dec_literal_inj _ _ _ _ _ D D') as [-> ->]. exact S.
    + exists m2, k2. cbn. split; [right; auto|]. destruct (dec_literal_inj _ _ _ _ _ D (canon_dec_literal _ _ _ CD)) as [-> ->].
      split; auto. eapply dec_literal_k; eauto.
Qed.

Theorem num_canon_unique v w m k : 0 <= k -> num_canon v -> num_canon w -> denotes v m k -> denotes w m k ->
  (forall z, same_number z 0 m k -> ~ i64_hi < z <= u64_hi) -> v = w.
Proof.
  intros Hk Cv Cw Dv Dw U.
  destruct (num_canon_value v m k Hk Cv Dv) as (m1 & k1 & V1 & K1 & S1).
  destruct (num_canon_value w m k Hk Cw Dw) as (m2 & k2 & V2 & K2 & S2).
  assert (same_number m1 k1 m2 k2) as S by (eapply same_number_trans; [| | |exact S1|apply same_number_sym; exact S2]; lia).
  assert (forall a b, same_number a 0 b 0 -> a = b) as K by (unfold same_number; intros; lia).
  assert (forall lex a b c, canon_dec lex a b -> ~ same_number a b c 0) as NI.
  { intros lex a b c CD Sn. destruct (canon_dec_mod _ _ _ CD) as [M P]. destruct (same_number_reduced a b c 0) as [_ E0]; auto; lia. }
  destruct v, w; cbn in V1, V2, Cv, Cw; try contradiction.
  - destruct V1, V2. subst. f_equal. now apply K.
  - destruct V1; subst. exfalso. apply (U z S1). exact Cv.
  - destruct V1; subst. exfalso. apply (U z S1). exact Cv.
  - destruct V2; subst. exfalso. apply (U z0 S2). exact Cw.
  - destruct V1, V2. subst. f_equal. now apply K.
  - destruct V1; subst. destruct V2 as [[-> (z0 & _ & B & -> & ->)]|[_ CD]].
    + apply K in S. subst. contradiction.
    + exfalso. eapply NI; [exact CD|]. apply same_number_sym. eauto.
  - destruct V2; subst. exfalso. apply (U z S2). exact Cw.
  - destruct V2; subst. destruct V1 as [[-> (z0 & _ & B & -> & ->)]|[_ CD]].
    + apply K in S. subst. contradiction.
    + exfalso. eapply NI; [exact CD|]. eauto.
  - destruct V1 as [[-> (z1 & -> & B1 & -> & ->)]|[-> CD1]], V2 as [[-> (z2 & -> & B2 & -> & ->)]|[-> CD2]].
    + apply K in S. now subst.
    + exfalso. eapply NI; [exact CD2|]. apply same_number_sym. eauto.
    + exfalso. eapply NI; [exact CD1|]. eauto.
    + now rewrite (canon_dec_unique _ _ _ _ _ _ CD1 CD2 S).
Qed.
End P.
