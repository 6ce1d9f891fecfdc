(** C30: lexical forms and data values; C38: order of data values. *)
From Coq Require Import List ZArith Bool Lia String.
From Verif Require Import LexModel LexSpec LexProofs1 LexProofs3 LexProofs4 LexProofs5 LexProofs6.
Import ListNotations.
Open Scope Z_scope.
Open Scope list_scope.

(** A small set of floating-point numbers with a positive and a negative zero, for examples: a sign and a magnitude. *)
Definition toy_val (x : bool * Z) : Z := if fst x then - snd x else snd x.
Definition toy_bits (x : bool * Z) : Z := 2 * snd x + (if fst x then 1 else 0).
Definition toy : float_ops := {|
  f64 := bool * Z; f64_parse := fun s => match s with [a; m] => Some (a =? 45, m) | _ => None end;
  f64_print := fun x => [if fst x then 45 else 43; snd x];
  f64_eqb := fun x y => toy_val x =? toy_val y; f64_cmp := fun x y => toy_val x ?= toy_val y; f64_bits := toy_bits;
  f32 := bool * Z; f32_print := fun x => [if fst x then 45 else 43; snd x];
  f32_eqb := fun x y => toy_val x =? toy_val y; f32_cmp := fun x y => toy_val x ?= toy_val y; f32_bits := toy_bits |}.
Example toy_good : good_floats toy.
Proof.
  constructor; cbn; intros.
  - destruct x as [[] m]; reflexivity.
  - apply Z.eqb_refl.
  - apply Z.eqb_sym.
  - apply Z.eqb_eq in H, H0. apply Z.eqb_eq. congruence.
  - now rewrite Z.eqb_eq, Z.compare_eq_iff.
  - apply Z.compare_antisym.
  - apply Z.compare_lt_iff in H, H0. apply Z.compare_lt_iff. eapply Z.lt_trans; eauto.
  - apply Z.eqb_eq in H. now rewrite H.
  - apply Z.eqb_refl.
  - apply Z.eqb_sym.
  - apply Z.eqb_eq in H, H0. apply Z.eqb_eq. congruence.
  - now rewrite Z.eqb_eq, Z.compare_eq_iff.
  - apply Z.compare_antisym.
  - apply Z.compare_lt_iff in H, H0. apply Z.compare_lt_iff. eapply Z.lt_trans; eauto.
  - apply Z.eqb_eq in H. now rewrite H.
Qed.

(** Reading the canonical form of any parsed literal gives the very same value. *)
Theorem C30_roundtrip : forall F s dt (v : dval F), good_floats F ->
  new_from_typed_literal s dt = POk v ->
  new_from_typed_literal (lexical_value v) (datatype_iri v) = POk v.
Proof. intros F s dt v G. apply typed_roundtrip. apply (gf_print F G). Qed.
Print Assumptions C30_roundtrip.

(** A numeric literal of XML Schema is read as the number that it denotes, every other lexical form of the numeric
    datatypes is rejected, and no input at all makes the parser panic. (One exception: see the next theorem.) *)
Theorem C30_numbers_partial : forall F s dt,
  (forall m k, numeric_literal s dt m k -> ~ (dt = xsd "unsignedLong" /\ hd_error s = Some 45) ->
     exists v : dval F, new_from_typed_literal s dt = POk v /\ denotes v m k) /\
  ((dt = xsd "decimal" \/ exists range, integer_type dt range) -> (forall m k, ~ numeric_literal s dt m k) ->
     new_from_typed_literal s dt = PErr :> parsed F) /\
  new_from_typed_literal s dt <> PPanic :> parsed F.
Proof.
  intros F s dt. split; [|split].
  - intros m k [range z T R L|m' k' -> D] U.
    + destruct (integer_ok (F := F) s dt range z T R L) as (v & A & B & _); [|exists v; auto].
      intros E H. apply U. auto.
    + destruct (decimal_ok (F := F) s m' k' D) as (v & A & B & _). exists v. auto.
  - intros [->|(range & T)] H.
    + apply (decimal_err s). intros m k D. apply (H m k). now apply nl_decimal.
    + apply (integer_err s dt range T). intros z L R. apply (H z 0). now apply nl_integer with range.
  - apply typed_no_panic.
Qed.
Print Assumptions C30_numbers_partial.

(** The exception: "-0" is an xsd:unsignedLong, but is rejected (it is accepted for every other datatype with zero). *)
Theorem C30_minus_zero_refuted : forall F,
  numeric_literal (lit "-0") (xsd "unsignedLong") 0 0 /\
  new_from_typed_literal (lit "-0") (xsd "unsignedLong") = PErr :> parsed F /\
  new_from_typed_literal (lit "-0") (xsd "unsignedInt") = POk (VLong 0) :> parsed F.
Proof.
  intros F. split; [|split; reflexivity]. eapply nl_integer; [constructor|cbn; lia|].
  exists [45], (-1), [48]. repeat split; [constructor|discriminate|]. constructor; [unfold is_digit; lia|constructor].
Qed.
Print Assumptions C30_minus_zero_refuted.

(** Two numeric literals of any datatypes that denote the same number are read as the same value, if the number is
    not an integer between 2^63 and 2^64 (see below); literals that denote different numbers never are. *)
Theorem C30_equal_values_partial : forall F s1 dt1 m1 k1 s2 dt2 m2 k2 (v1 v2 : dval F), good_floats F ->
  numeric_literal s1 dt1 m1 k1 -> numeric_literal s2 dt2 m2 k2 ->
  new_from_typed_literal s1 dt1 = POk v1 -> new_from_typed_literal s2 dt2 = POk v2 ->
  (same_number m1 k1 m2 k2 -> (forall z, same_number z 0 m1 k1 -> ~ 2 ^ 63 <= z < 2 ^ 64) -> dval_eqb v1 v2 = true) /\
  (dval_eqb v1 v2 = true -> same_number m1 k1 m2 k2).
Proof.
  intros F s1 dt1 m1 k1 s2 dt2 m2 k2 v1 v2 G N1 N2 E1 E2.
  assert (forall s dt m k (v : dval F), numeric_literal s dt m k -> new_from_typed_literal s dt = POk v -> denotes v m k /\ num_canon v /\ 0 <= k) as K.
  { intros s dt m k v [range z T R L|m' k' -> D] E.
    - assert (dt = xsd "unsignedLong" -> hd_error s <> Some 45) as U.
      { intros -> H. rewrite typed_ulong in E. destruct (parse_u64 s) eqn:Eu; [|discriminate].
        apply parse_unsigned_ok in Eu as (_ & Hn & _); [congruence|unfold u64_hi; lia]. }
      destruct (integer_ok (F := F) s dt range z T R L U) as (w & A & B & C). rewrite E in A. injection A as ->. auto with zarith.
    - rewrite typed_decimal in E. destruct (decimal_ok (F := F) s m' k' D) as (w & A & B & C). rewrite E in A. injection A as ->.
      apply dec_literal_k in D. auto. }
  destruct (K _ _ _ _ _ N1 E1) as (D1 & C1 & K1). destruct (K _ _ _ _ _ N2 E2) as (D2 & C2 & K2). split.
  - intros S U. assert (v1 = v2) as ->; [|apply eqb_refl; auto; now apply num_canon_valid].
    apply (num_canon_unique v1 v2 m1 k1); auto.
    + destruct v2; cbn [denotes] in *; try contradiction.
      * eapply same_number_trans; [| | |exact D2|apply same_number_sym; exact S]; lia.
      * eapply same_number_trans; [| | |exact D2|apply same_number_sym; exact S]; lia.
      * destruct D2 as (T & m & k & L & D). split; auto. exists m, k. split; auto.
        eapply same_number_trans; [| | |exact D|apply same_number_sym; exact S]; try lia. eapply dec_literal_k; eauto.
    + intros z Sz [A B]. apply (U z Sz). unfold i64_hi, u64_hi in *. lia.
  - intros Q. assert (valid v1) as V1 by now apply num_canon_valid. assert (valid v2) as V2 by now apply num_canon_valid.
    destruct (is_int_dec v1) as [I|N], (is_int_dec v2) as [I'|N'].
    + rewrite int_eqb in Q by auto. apply Z.eqb_eq in Q.
      destruct v1; cbn in I; try tauto; destruct v2; cbn in I'; try tauto; cbn [raw_int denotes] in *; subst;
        (eapply same_number_trans; [| | |apply same_number_sym; exact D1|exact D2]; lia).
    + destruct (int_eqb_other v1 v2 I N'); congruence.
    + destruct (int_eqb_other v2 v1 I' N); congruence.
    + destruct v1; try contradiction; destruct v2; try contradiction; cbn in N, N'; try tauto.
      cbn [dval_eqb] in Q. apply andb_true_iff in Q as [A B]. apply str_eqb_eq in A, B. subst.
      eapply (denotes_fun (VOther lex0 dt0 : dval F)); eauto.
Qed.
Print Assumptions C30_equal_values_partial.

(** Between 2^63 and 2^64 the same number has two unequal data values: an xsd:integer is kept as text, an
    xsd:unsignedLong (and an xsd:decimal with a point) is a 64-bit number. *)
Theorem C30_unsigned_long_refuted : forall F, exists v1 v2 : dval F,
  new_from_typed_literal (lit "9223372036854775808") (xsd "integer") = POk v1 /\
  new_from_typed_literal (lit "9223372036854775808") (xsd "unsignedLong") = POk v2 /\
  new_from_typed_literal (lit "9223372036854775808.0") (xsd "decimal") = POk v2 /\
  new_from_typed_literal (lit "9223372036854775808") (xsd "decimal") = POk v1 /\
  denotes v1 (2 ^ 63) 0 /\ denotes v2 (2 ^ 63) 0 /\ dval_eqb v1 v2 = false.
Proof.
  intros F. exists (VOther (lit "9223372036854775808") (xsd "integer")), (VULong (2 ^ 63)).
  split; [reflexivity|]. split; [reflexivity|]. split; [reflexivity|]. split; [reflexivity|]. split; [|split; reflexivity].
  split; auto. exists (2 ^ 63), 0. split; [|reflexivity]. apply int_dec_literal. exact (int_to_string_literal (2 ^ 63)).
Qed.
Print Assumptions C30_unsigned_long_refuted.

(** Equality of values is an equivalence relation, and equal values other than floating-point numbers are hashed alike. *)
Theorem C30_equality_hash_partial : forall F (u v w : dval F), good_floats F -> valid u -> valid v -> valid w ->
  dval_eqb u u = true /\ dval_eqb u v = dval_eqb v u /\
  (dval_eqb u v = true -> dval_eqb v w = true -> dval_eqb u w = true) /\
  (~ is_float u -> dval_eqb u v = true -> hash_input u = hash_input v).
Proof.
  intros F u v w G U V W. split; [now apply eqb_refl|]. split; [now apply eqb_sym|]. split; [now apply eqb_trans|]. now apply eqb_hash.
Qed.
Print Assumptions C30_equality_hash_partial.

(** The two zeros are equal, but have different bits and so different hashes. *)
Theorem C30_zero_hash_refuted : exists (F : float_ops) (v w : dval F), good_floats F /\
  dval_eqb v w = true /\ hash_input v <> hash_input w.
Proof.
  exists toy, (VDouble (F := toy) (false, 0)), (VDouble (F := toy) (true, 0)). split; [apply toy_good|]. split; [reflexivity|]. discriminate.
Qed.
Print Assumptions C30_zero_hash_refuted.

(** Values read from literals are identified by their canonical lexical form and datatype (floating-point numbers
    apart: the two zeros are equal and printed differently). *)
Theorem C30_identity_partial : forall F s1 dt1 s2 dt2 (v1 v2 : dval F), good_floats F ->
  new_from_typed_literal s1 dt1 = POk v1 -> new_from_typed_literal s2 dt2 = POk v2 -> ~ is_float v1 ->
  (dval_eqb v1 v2 = true <-> lexical_value v1 = lexical_value v2 /\ datatype_iri v1 = datatype_iri v2).
Proof.
  intros F s1 dt1 s2 dt2 v1 v2 G E1 E2 NF. pose proof (typed_valid _ _ _ E1) as V1. pose proof (typed_valid _ _ _ E2) as V2. split.
  - intros Q. destruct (is_int_dec v1) as [I|N], (is_int_dec v2) as [I'|N'].
    + pose proof Q as Q'. rewrite int_eqb in Q by auto. apply Z.eqb_eq in Q. pose proof (int_domain v1 v2 I I' V1 V2 Q) as D.
      destruct v1; cbn in I; try tauto; destruct v2; cbn in I'; try tauto; cbn [raw_int] in Q; subst;
        (split; [reflexivity|]); unfold datatype_iri; f_equal; exact D.
    + destruct (int_eqb_other v1 v2 I N'); congruence.
    + destruct (int_eqb_other v2 v1 I' N); congruence.
    + destruct v1; cbn in N, NF; try tauto; destruct v2; cbn in N'; try tauto; try discriminate Q; cbn [dval_eqb] in Q;
        rewrite ?andb_true_iff, ?str_eqb_eq in Q; try (apply Bool.eqb_prop in Q); try (destruct Q); subst; auto.
  - intros [L D]. assert (v1 = v2) as ->; [|now apply eqb_refl].
    pose proof (C30_roundtrip F _ _ _ G E1) as R1. pose proof (C30_roundtrip F _ _ _ G E2) as R2. rewrite L, D in R1. congruence.
Qed.
Print Assumptions C30_identity_partial.

(** Language-tagged strings are not: the "bijection" from pairs of strings to lexical values has collisions. *)
Theorem C30_lang_refuted : forall F, exists v w : dval F,
  v = new_lang_string (lit "x@@") (lit "b") /\ w = new_lang_string (lit "x") (lit "@b") /\
  lexical_value v = lexical_value w /\ datatype_iri v = datatype_iri w /\ dval_eqb v w = false.
Proof. intros F. do 2 eexists. split; [reflexivity|]. split; [reflexivity|]. repeat split. Qed.
Print Assumptions C30_lang_refuted.

(** 32-bit floats are not read back: the datatype that they are printed with is not among those the parser knows. *)
Theorem C30_float_refuted : forall F (f : f32 F), exists w,
  new_from_typed_literal (lexical_value (VFloat f : dval F)) (datatype_iri (VFloat f : dval F)) = POk w /\
  dval_eqb (VFloat f) w = false.
Proof. intros F f. eexists. split; reflexivity. Qed.
Print Assumptions C30_float_refuted.

(** C38: comparison of values never fails, is a total order whose equality is the equality of values, and compares
    integers by their value whatever their representation. *)
Theorem C38_order : forall F (u v w : dval F), good_floats F -> valid u -> valid v -> valid w ->
  (exists c, dval_cmp u v = Some c /\ dval_cmp v u = Some (CompOpp c) /\ (c = Eq <-> dval_eqb u v = true)) /\
  (dval_cmp u v = Some Lt -> dval_cmp v w = Some Lt -> dval_cmp u w = Some Lt).
Proof. intros F u v w G U V W. split; [now apply cmp_total|now apply cmp_trans]. Qed.
Print Assumptions C38_order.

Theorem C38_integers : forall F (v w : dval F) a b, valid v -> valid w ->
  (v = VLong a \/ v = VULong a) -> (w = VLong b \/ w = VULong b) -> dval_cmp v w = Some (a ?= b).
Proof.
  intros F v w a b V W A B. rewrite int_cmp; auto.
  - f_equal. destruct A as [-> | ->], B as [-> | ->]; reflexivity.
  - destruct A as [-> | ->]; exact I.
  - destruct B as [-> | ->]; exact I.
Qed.
Print Assumptions C38_integers.

(** Examples: literals that meet the hypotheses. *)
Example ex_decimal : new_from_typed_literal (lit "-00012.3400") (xsd "decimal") = POk (VOther (lit "-12.34") (xsd "decimal")) :> parsed toy.
Proof. reflexivity. Qed.
Example ex_numeric : numeric_literal (lit "-00012.3400") (xsd "decimal") (-123400) 4 /\ numeric_literal (lit "-12.34") (xsd "decimal") (-1234) 2 /\
  same_number (-123400) 4 (-1234) 2.
Proof.
  split; [|split; [|reflexivity]]; apply nl_decimal; auto.
  - exists [45], (-1), [48; 48; 48; 49; 50], [51; 52; 48; 48]. split; [constructor|]. split; [repeat (apply Forall_cons; [unfold is_digit; lia|]); apply Forall_nil|]. split; [repeat (apply Forall_cons; [unfold is_digit; lia|]); apply Forall_nil|]. split; [discriminate|]. split; [now right|]. split; reflexivity.
  - exists [45], (-1), [49; 50], [51; 52]. split; [constructor|]. split; [repeat (apply Forall_cons; [unfold is_digit; lia|]); apply Forall_nil|]. split; [repeat (apply Forall_cons; [unfold is_digit; lia|]); apply Forall_nil|]. split; [discriminate|]. split; [now right|]. split; reflexivity.
Qed.
Example ex_big : new_from_typed_literal (lit "+00099999999999999999999") (xsd "positiveInteger") =
  POk (VOther (lit "99999999999999999999") (xsd "integer")) :> parsed toy.
Proof. reflexivity. Qed.
Example ex_int : new_from_typed_literal (lit "+0042") (xsd "byte") = POk (VLong 42) :> parsed toy /\
  new_from_typed_literal (lit "42.000") (xsd "decimal") = POk (VLong 42) :> parsed toy /\
  datatype_iri (VLong 42 : dval toy) = xsd "int" /\ lexical_value (VLong 42 : dval toy) = lit "42".
Proof. repeat split. Qed.
Example ex_reject : new_from_typed_literal (lit "300") (xsd "unsignedByte") = PErr :> parsed toy /\
  new_from_typed_literal (lit "1.0") (xsd "integer") = PErr :> parsed toy /\
  new_from_typed_literal (lit ".") (xsd "decimal") = PErr :> parsed toy.
Proof. repeat split. Qed.
Example ex_order : dval_cmp (VLong (- 5) : dval toy) (VULong (2 ^ 63)) = Some Lt /\ dval_cmp (VIri (lit "b") : dval toy) (VString (lit "a")) = Some Lt.
Proof. split; reflexivity. Qed.
