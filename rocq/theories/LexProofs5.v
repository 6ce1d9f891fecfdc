(** Typed literals: exactness, canonical forms, identity. *)
From Coq Require Import List ZArith Bool Lia String.
From Verif Require Import LexModel LexSpec LexProofs1 LexProofs2 LexProofs3 LexProofs4.
Import ListNotations.
Open Scope Z_scope.
Open Scope list_scope.

Lemma strip_prefix_app p s : strip_prefix p (p ++ s) = Some s.
Proof. induction p as [|c p IH]; cbn; auto. now rewrite Z.eqb_refl. Qed.
Lemma strip_prefix_spec : forall p s n, strip_prefix p s = Some n -> s = p ++ n.
Proof.
  induction p as [|c p IH]; intros s n H; cbn in *; [congruence|]. destruct s as [|d s]; [discriminate|].
  destruct (Z.eqb_spec c d); [|discriminate]. subst. f_equal. auto.
Qed.

Section P.
Context {F : float_ops}.
Notation dval := (dval F).

Lemma typed_string s : new_from_typed_literal s (xsd "string") = POk (VString s) :> parsed F. Proof. reflexivity. Qed.
Lemma typed_long s : new_from_typed_literal s (xsd "long") = parse_integer_unbounded s :> parsed F. Proof. reflexivity. Qed.
Lemma typed_int s : new_from_typed_literal s (xsd "int") = parse_integer s (- 2147483648) 2147483647 :> parsed F. Proof. reflexivity. Qed.
Lemma typed_integer s : new_from_typed_literal s (xsd "integer") = new_from_decimal_type_literal s TInteger :> parsed F. Proof. reflexivity. Qed.
Lemma typed_decimal s : new_from_typed_literal s (xsd "decimal") = new_from_decimal_type_literal s TDecimal :> parsed F. Proof. reflexivity. Qed.
Lemma typed_ulong s : new_from_typed_literal s (xsd "unsignedLong") =
  match parse_u64 s with inl z => if in_bounds i64_lo i64_hi z then POk (VLong z) else POk (VULong z) | inr _ => PErr end :> parsed F.
Proof. reflexivity. Qed.

Lemma parse_integer_ok s lo hi z : i64_lo <= lo -> hi <= i64_hi -> int_literal s z -> lo <= z <= hi ->
  parse_integer s lo hi = POk (VLong z) :> parsed F.
Proof.
  intros H1 H2 L R. unfold parse_integer. destruct (parse_i64_cases s) as [(w & L' & B & ->)|(e & -> & H)].
  - pose proof (int_literal_inj _ _ _ L' L) as ->. apply bounds_true in R. now rewrite R.
  - destruct (H z L) as [B _]. exfalso. apply B. unfold i64. lia.
Qed.
Lemma parse_integer_err s lo hi : (forall z, int_literal s z -> ~ lo <= z <= hi) -> parse_integer s lo hi = PErr :> parsed F.
Proof.
  intros H. unfold parse_integer. destruct (parse_i64_cases s) as [(w & L' & B & ->)|(e & -> & _)]; auto.
  specialize (H w L'). apply bounds_false in H. now rewrite H.
Qed.
Lemma parse_unbounded_ok s z : int_literal s z -> i64 z -> parse_integer_unbounded s = POk (VLong z) :> parsed F.
Proof.
  intros L B. unfold parse_integer_unbounded. destruct (parse_i64_cases s) as [(w & L' & _ & ->)|(e & -> & H)].
  - now rewrite (int_literal_inj _ _ _ L' L).
  - now destruct (H z L).
Qed.
Lemma parse_unbounded_err s : (forall z, int_literal s z -> ~ i64 z) -> parse_integer_unbounded s = PErr :> parsed F.
Proof.
  intros H. unfold parse_integer_unbounded. destruct (parse_i64_cases s) as [(w & L' & B & ->)|(e & -> & _)]; auto.
  exfalso. eapply H; eauto.
Qed.

(** Integer datatypes. *)
Theorem integer_ok s dt range z : integer_type dt range -> range z -> int_literal s z ->
  (dt = xsd "unsignedLong" -> hd_error s <> Some 45) ->
  exists v : dval, new_from_typed_literal s dt = POk v /\ denotes v z 0 /\ num_canon v.
Proof.
  intros T R L U.
  assert (forall t, type_range t z -> exists v : dval, new_from_decimal_type_literal s t = POk v /\ denotes v z 0 /\ num_canon v) as KB.
  { intros t Rt. destruct (big_integer_ok (F := F) s t z L Rt) as (v & A & B & C & _). exists v. auto. }
  assert (forall lo hi, i64_lo <= lo -> hi <= i64_hi -> lo <= z <= hi ->
            exists v : dval, parse_integer s lo hi = POk v /\ denotes v z 0 /\ num_canon v) as KI.
  { intros lo hi H1 H2 H3. exists (VLong z). split; [now apply parse_integer_ok|]. split; [reflexivity|]. cbn. unfold i64. lia. }
  inversion T; subst; cbn beta in R.
  - apply KB. exact I.
  - apply (KB TPositiveInteger). exact R.
  - apply (KB TNonNegativeInteger). exact R.
  - apply (KB TNegativeInteger). exact R.
  - apply (KB TNonPositiveInteger). exact R.
  - rewrite typed_long. exists (VLong z). assert (i64 z) by (unfold i64, i64_lo, i64_hi; lia).
    split; [now apply parse_unbounded_ok|]. split; [reflexivity|auto].
  - apply (KI (- 2147483648) 2147483647); unfold i64_lo, i64_hi; lia.
  - apply (KI (- 32768) 32767); unfold i64_lo, i64_hi; lia.
  - apply (KI (- 128) 127); unfold i64_lo, i64_hi; lia.
  - rewrite typed_ulong. specialize (U eq_refl).
    assert (parse_u64 s = inl z) as -> by (apply parse_unsigned_ok; unfold u64_hi; [lia|split; [auto|split; [auto|lia]]]).
    destruct (in_bounds i64_lo i64_hi z) eqn:B.
    + apply bounds_true in B. exists (VLong z). split; auto. split; [reflexivity|exact B].
    + apply bounds_false in B. exists (VULong z). split; auto. split; [reflexivity|]. cbn [num_canon]. unfold i64_lo, u64_hi, i64_hi in *. lia.
  - apply (KI 0 4294967295); unfold i64_lo, i64_hi; lia.
  - apply (KI 0 65535); unfold i64_lo, i64_hi; lia.
  - apply (KI 0 255); unfold i64_lo, i64_hi; lia.
Qed.

Theorem integer_err s dt range : integer_type dt range -> (forall z, int_literal s z -> ~ range z) ->
  new_from_typed_literal s dt = PErr :> parsed F.
Proof.
  intros T R.
  assert (forall lo hi (r : Z -> Prop), (forall z, int_literal s z -> ~ r z) -> (forall z, lo <= z <= hi -> r z) ->
    parse_integer s lo hi = PErr :> parsed F) as KI.
  { intros lo hi r H1 H2. apply parse_integer_err. intros z L B. apply (H1 z L). auto. }
  inversion T; subst; cbn beta in R.
  - apply (big_integer_err s TInteger); [discriminate|exact R].
  - apply (big_integer_err s TPositiveInteger); [discriminate|exact R].
  - apply (big_integer_err s TNonNegativeInteger); [discriminate|exact R].
  - apply (big_integer_err s TNegativeInteger); [discriminate|exact R].
  - apply (big_integer_err s TNonPositiveInteger); [discriminate|exact R].
  - rewrite typed_long. apply parse_unbounded_err. intros z L B. apply (R z L). unfold i64, i64_lo, i64_hi in B. lia.
  - apply (KI (- 2147483648) 2147483647 _ R). lia.
  - apply (KI (- 32768) 32767 _ R). lia.
  - apply (KI (- 128) 127 _ R). lia.
  - rewrite typed_ulong. destruct (parse_u64 s) as [z|] eqn:E; auto. exfalso.
    apply parse_unsigned_ok in E as (L & H & B); [|unfold u64_hi; lia]. apply (R z L). split; [|unfold u64_hi in B; lia].
    destruct L as (sg & sgn & ds & -> & S & N & Fd & ->). pose proof (digits_value_range _ Fd).
    inversion S; subst; try lia. cbn in H. congruence.
  - apply (KI 0 4294967295 _ R). lia.
  - apply (KI 0 65535 _ R). lia.
  - apply (KI 0 255 _ R). lia.
Qed.

(** Canonical numbers are read back unchanged. *)
Theorem num_canon_roundtrip (v : dval) : num_canon v -> new_from_typed_literal (lexical_value v) (datatype_iri v) = POk v.
Proof.
  intros C. destruct v; cbn in C; try contradiction; cbn [lexical_value].
  - assert (datatype_iri (VULong z : dval) = xsd "unsignedLong") as ->.
    { cbn. unfold ulong_domain, i32_max, u32_max, i64_hi in *.
      destruct (Z.leb_spec z (2 ^ 31 - 1)); [lia|]. destruct (Z.leb_spec z (2 ^ 32 - 1)); [lia|]. destruct (Z.leb_spec z (2 ^ 63 - 1)); [lia|]. reflexivity. }
    rewrite typed_ulong, parse_u64_print by (unfold i64_hi, u64_hi in *; lia).
    destruct (in_bounds i64_lo i64_hi z) eqn:B; auto. apply bounds_true in B. unfold i64_hi, i64_lo, u64_hi in *; lia.
  - assert ((datatype_iri (VLong z : dval) = xsd "int" /\ - 2147483648 <= z <= 2147483647) \/ datatype_iri (VLong z : dval) = xsd "long") as D.
    { cbn. unfold long_domain, i32_max, i32_min, u32_max. destruct (Z.leb_spec 0 z).
      - destruct (Z.leb_spec z (2 ^ 31 - 1)); [left; split; [reflexivity|lia]|]. destruct (z <=? 2 ^ 32 - 1); right; reflexivity.
      - destruct (Z.leb_spec (- 2 ^ 31) z); [left; split; [reflexivity|lia]|right; reflexivity]. }
    destruct D as [[-> B]| ->].
    + rewrite typed_int. apply parse_integer_ok; auto; [unfold i64_lo; lia|unfold i64_hi; lia|apply int_to_string_literal].
    + rewrite typed_long. apply parse_unbounded_ok; auto. apply int_to_string_literal.
  - destruct C as [[-> (z & -> & B)]|[-> (m & k & CD)]]; cbn [datatype_iri].
    + rewrite typed_integer. destruct (big_integer_ok (F := F) (int_to_string z) TInteger z) as (v & -> & _ & _ & [[B' _]|[_ ->]]); auto.
      * apply int_to_string_literal.
      * exact I.
      * contradiction.
    + rewrite typed_decimal. destruct (decimal_ok (F := F) lex m k) as (v & -> & D & C); [now apply canon_dec_literal|].
      f_equal. pose proof (dec_literal_k _ _ _ (canon_dec_literal _ _ _ CD)).
      apply (num_canon_unique v (VOther lex (xsd "decimal")) m k); auto.
      * right. split; auto. exists m, k. auto.
      * split; auto. exists m, k. split; [now apply canon_dec_literal|reflexivity].
      * intros z Sn. exfalso. destruct (canon_dec_mod _ _ _ CD) as [M P]. destruct (same_number_reduced z 0 m k); auto; try lia.
Qed.

(** What the parser can return. *)
Definition typed_canon (v : dval) : Prop :=
  num_canon v \/
  match v with
  | VString _ | VDouble _ | VBool _ => True
  | VOther lex dt => new_from_typed_literal lex dt = POk v
  | _ => False
  end.

Lemma big_integer_canon s t (v : dval) : new_from_decimal_type_literal s t = POk v -> num_canon v.
Proof.
  intros E.
  assert ((exists m k, dec_literal s m k) \/ ~ (exists m k, dec_literal s m k)) as [(m & k & D)|N].
  { destruct (scan_all scan0 s) as [st|] eqn:Es.
    - destruct (scan_inv s st Es) as (sg & sgn & ip & fp & S & Fi & Ff & D).
      destruct (ip ++ fp) as [|c r] eqn:En.
      + right. intros (m & k & D'). 
        assert (new_from_decimal_type_literal s TDecimal = PErr :> parsed F) as A.
        { unfold new_from_decimal_type_literal. apply app_eq_nil in En as [-> ->].
          assert (parse_large_decimal_literal s TDecimal = PErr :> parsed F) as B.
          { unfold parse_large_decimal_literal. destruct D as [[-> _]| ->].
            - destruct (scan_integer sg sgn [] S Fi) as (st' & E' & _ & _ & _ & _ & Ed). rewrite E', Ed. reflexivity.
            - destruct (scan_decimal sg sgn [] [] S Fi Ff) as (st' & E' & _ & _ & _ & Ed). rewrite E', Ed. reflexivity. }
          destruct (parse_i64_cases s) as [(w & L & _ & _)|(e & -> & _)]; [|destruct e; auto].
          exfalso. destruct D as [[-> _]| ->].
          - destruct L as (sg' & sgn' & ds & E' & S' & N' & Fd & _). destruct (sign_cancel _ _ _ _ _ _ S S' E') as (_ & _ & E2); [cbn; split; discriminate| |congruence].
            rewrite <- (app_nil_r ds). apply hd_digits_point; auto.
          - eapply (point_not_int sg sgn [] []); eauto. }
        destruct (decimal_ok (F := F) s m k D') as (w & A' & _). congruence.
      + left. do 2 eexists. exists sg, sgn, ip, fp. repeat split; auto. rewrite En. discriminate.
    - right. intros (m & k & D). destruct D as (sg & sgn & ip & fp & S & Fi & Ff & _ & [[-> _]| ->] & _).
      + destruct (scan_integer sg sgn ip S Fi) as (st' & E' & _). congruence.
      + destruct (scan_decimal sg sgn ip fp S Fi Ff) as (st' & E' & _). congruence. }
  - destruct (dec_int_cases s m k D) as [(z & L & -> & ->)|(sg & sgn & ip & fp & S & Fi & Ff & N & -> & -> & ->)].
    + assert (type_range t z \/ ~ type_range t z) as [R|R] by (destruct t; cbn; lia).
      * destruct (big_integer_ok (F := F) s t z L R) as (v' & A & _ & C & _). congruence.
      * rewrite big_integer_err in E; [discriminate| |].
        { intros ->. apply R. exact I. }
        { intros w L'. now rewrite (int_literal_inj _ _ _ L' L). }
    + assert (t = TDecimal \/ t <> TDecimal) as [->|Nt] by (destruct t; auto; right; discriminate).
      * destruct (decimal_ok (F := F) _ _ _ D) as (v' & A & _ & C). congruence.
      * rewrite big_integer_err in E; [discriminate|auto|]. intros z L. exfalso. eapply point_not_int; [| |exact L]; eauto.
  - assert (t = TDecimal \/ t <> TDecimal) as [->|Nt] by (destruct t; auto; right; discriminate).
    + rewrite decimal_err in E; [discriminate|]. intros m k D. apply N. eauto.
    + rewrite big_integer_err in E; [discriminate|auto|]. intros z L. exfalso. apply N. eauto using int_dec_literal.
Qed.

Lemma parse_integer_canon s lo hi (v : dval) : parse_integer s lo hi = POk v -> num_canon v.
Proof.
  unfold parse_integer. destruct (parse_i64_cases s) as [(w & L' & B & ->)|(e & -> & _)]; [|discriminate].
  destruct (negb _); [discriminate|]. intros [= <-]. exact B.
Qed.
Lemma parse_unbounded_canon s (v : dval) : parse_integer_unbounded s = POk v -> num_canon v.
Proof.
  unfold parse_integer_unbounded. destruct (parse_i64_cases s) as [(w & L' & B & ->)|(e & -> & _)]; [|discriminate].
  intros [= <-]. exact B.
Qed.

Theorem typed_result s dt (v : dval) : new_from_typed_literal s dt = POk v -> typed_canon v.
Proof.
  intros E. pose proof E as E0. unfold new_from_typed_literal in E. destruct (strip_prefix xsd_prefix dt) as [n|].
  2:{ injection E as <-. right. exact E0. }
  repeat match type of E with
  | (if str_eqb n ?x then _ else _) = _ => destruct (str_eqb n x)
  end; try (left; first [now apply big_integer_canon in E|now apply parse_integer_canon in E|now apply parse_unbounded_canon in E]).
  - injection E as <-. right. exact I.
  - left. destruct (parse_u64 s) as [z|] eqn:Ez; [|discriminate]. destruct (in_bounds i64_lo i64_hi z) eqn:B.
    + injection E as <-. now apply bounds_true in B.
    + injection E as <-. apply bounds_false in B. apply parse_unsigned_ok in Ez as (L & Hh & Hz); [|unfold u64_hi; lia].
      assert (0 <= z). { destruct L as (sg & sgn & ds & -> & S & N & Fd & ->). pose proof (digits_value_range _ Fd). inversion S; subst; try lia. cbn in Hh. congruence. }
      cbn [num_canon]. unfold i64_lo in B. lia.
  - destruct (f64_parse F s); [|discriminate]. injection E as <-. right. exact I.
  - destruct (_ || _); [injection E as <-; right; exact I|]. destruct (_ || _); [injection E as <-; right; exact I|discriminate].
  - injection E as <-. right. exact E0.
Qed.

Theorem typed_roundtrip s dt (v : dval) : (forall x, f64_parse F (f64_print F x) = Some x) ->
  new_from_typed_literal s dt = POk v -> new_from_typed_literal (lexical_value v) (datatype_iri v) = POk v.
Proof.
  intros G E. destruct (typed_result s dt v E) as [C|C]; [now apply num_canon_roundtrip|].
  destruct v; try contradiction.
  - reflexivity.
  - change (match f64_parse F (f64_print F f) with Some x => POk (VDouble x) | None => PErr end = POk (VDouble f) :> parsed F).
    now rewrite G.
  - destruct b; reflexivity.
  - exact C.
Qed.

Lemma big_no_panic s t : new_from_decimal_type_literal s t <> PPanic :> parsed F.
Proof.
  assert ((exists z, int_literal s z /\ type_range t z) \/ ~ (exists z, int_literal s z /\ type_range t z)) as [(z & L & R)|N].
  { destruct (parse_i64_cases s) as [(w & L & _)|(e & _ & _)].
    - assert (type_range t w \/ ~ type_range t w) as [R|R] by (destruct t; cbn; lia).
      + left. eauto.
      + right. intros (z & L' & R'). rewrite (int_literal_inj _ _ _ L' L) in R'. contradiction.
    - destruct (scan_all scan0 s) as [st|] eqn:Es.
      + destruct (scan_inv s st Es) as (sg & sgn & ip & fp & S & Fi & Ff & [[-> ->]| ->]).
        * destruct ip as [|c ip].
          { right. intros (z & L & _). destruct L as (sg' & sgn' & ds & E' & S' & N' & Fd & _). destruct (sign_cancel _ _ _ _ _ _ S S' E') as (_ & _ & E2); [cbn; split; discriminate| |congruence].
            rewrite <- (app_nil_r ds). apply hd_digits_point; auto. }
          assert (int_literal (sg ++ c :: ip) (sgn * digits_value (c :: ip))) as L.
          { exists sg, sgn, (c :: ip). repeat split; auto. congruence. }
          assert (type_range t (sgn * digits_value (c :: ip)) \/ ~ type_range t (sgn * digits_value (c :: ip))) as [R|R] by (destruct t; cbn [type_range]; lia).
          { left. eauto. }
          { right. intros (z & L' & R'). rewrite (int_literal_inj _ _ _ L' L) in R'. contradiction. }
        * right. intros (z & L & _). eapply point_not_int; [| |exact L]; eauto.
      + right. intros (z & (sg & sgn & ds & -> & S & N & Fd & _) & _). destruct (scan_integer sg sgn ds S Fd) as (st' & E' & _). congruence. }
  - destruct (big_integer_ok (F := F) s t z L R) as (v' & A & _). rewrite A. discriminate.
  - assert (t = TDecimal \/ t <> TDecimal) as [->|Nt] by (destruct t; auto; right; discriminate).
    + destruct (scan_all scan0 s) as [st|] eqn:Es.
      * destruct (scan_inv s st Es) as (sg & sgn & ip & fp & S & Fi & Ff & D).
        destruct (ip ++ fp) as [|c r] eqn:En.
        { rewrite decimal_err; [discriminate|]. intros m k D'. apply app_eq_nil in En as [-> ->].
          destruct (dec_int_cases s m k D') as [(z & L & _)|(sg' & sgn' & ip' & fp' & S' & Fi' & Ff' & N' & E' & _)].
          - apply N. exists z. split; [auto|exact I].
          - destruct D as [[-> _]| ->].
            + destruct (sign_cancel _ _ _ _ _ _ S S' E') as (_ & _ & E2); [cbn; split; discriminate| |destruct ip'; discriminate].
              apply hd_digits_point; auto.
            + destruct (sign_cancel _ _ _ _ _ _ S S' E') as (_ & _ & E2); [cbn; split; discriminate|apply hd_digits_point; auto|].
              apply (split_point [] [] ip' fp') in E2 as [<- <-]; auto. }
        { destruct (decimal_ok (F := F) s (sgn * digits_value (ip ++ fp)) (Z.of_nat (List.length fp))) as (v & A & _); [|rewrite A; discriminate].
          exists sg, sgn, ip, fp. repeat split; auto. rewrite En. discriminate. }
      * rewrite decimal_err; [discriminate|]. intros m k (sg & sgn & ip & fp & S & Fi & Ff & _ & [[-> _]| ->] & _).
        { destruct (scan_integer sg sgn ip S Fi) as (st' & E' & _). congruence. }
        { destruct (scan_decimal sg sgn ip fp S Fi Ff) as (st' & E' & _). congruence. }
    + rewrite big_integer_err; [discriminate|auto|]. intros z L R. apply N. eauto.
Qed.

Theorem typed_no_panic s dt : new_from_typed_literal s dt <> PPanic :> parsed F.
Proof.
  unfold new_from_typed_literal. destruct (strip_prefix xsd_prefix dt) as [n|]; [|discriminate].
  assert (forall lo hi, parse_integer s lo hi <> PPanic :> parsed F) as KI.
  { intros lo hi. unfold parse_integer. destruct (parse_i64 s); [|discriminate]. destruct (negb _); discriminate. }
  repeat match goal with
  | |- (if str_eqb n ?x then _ else _) <> _ => destruct (str_eqb n x)
  end; try discriminate; try apply big_no_panic; try apply KI.
  - unfold parse_integer_unbounded. destruct (parse_i64 s); discriminate.
  - destruct (parse_u64 s); [|discriminate]. destruct (in_bounds _ _ _); discriminate.
  - destruct (f64_parse F s); discriminate.
  - destruct (_ || _); [discriminate|]. destruct (_ || _); discriminate.
Qed.
End P.
