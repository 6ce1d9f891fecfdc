(* C42: casts, type checks and boolean functions. *)
From Coq Require Import List ZArith Bool Lia String.
From Verif Require Import LexModel LexSpec LexProofs1 TextModel CastModel CastSpec CastProofs LexProps.
Import ListNotations.
Open Scope Z_scope.
Open Scope list_scope.
Notation length := List.length.

Lemma width : forall c, length (utf8_char c) = if c <? 128 then 1%nat else if c <? 2048 then 2%nat else if c <? 65536 then 3%nat else 4%nat.
Proof. intros c. unfold utf8_char. destruct (c <? 128); [reflexivity|]. destruct (c <? 2048); [reflexivity|]. destruct (c <? 65536); reflexivity. Qed.
Lemma split_two : forall a b c r, let s := a :: b :: c :: r in
  cut_inside s /\ split_bytes 2 s = None \/ ~ cut_inside s /\ (split_bytes 2 s = Some ([a], b :: c :: r) /\ 128 <= a \/ split_bytes 2 s = Some ([a; b], c :: r)).
Proof.
  intros a b c r s. unfold s. cbn [split_bytes]. rewrite !width. unfold cut_inside.
  destruct (Z.ltb_spec a 128) as [A|A].
  - cbn [Nat.leb Nat.sub split_bytes]. rewrite ?width. destruct (Z.ltb_spec b 128) as [B|B].
    + right. split; [|right; reflexivity]. intros (a' & b' & c' & r' & E & H). injection E as <- <- <- <-. lia.
    + left. split; [exists a, b, c, r; split; [reflexivity|lia]|]. destruct (b <? 2048); [reflexivity|]. destruct (b <? 65536); reflexivity.
  - destruct (Z.ltb_spec a 2048) as [A2|A2].
    + right. split; [|left; split; [reflexivity|lia]]. intros (a' & b' & c' & r' & E & H). injection E as <- <- <- <-. lia.
    + left. split; [exists a, b, c, r; split; [reflexivity|lia]|]. destruct (a <? 65536); reflexivity.
Qed.
Lemma no_prefix_decimal : forall x r z, x = 98 \/ x = 111 \/ x = 120 -> ~ int_literal (48 :: x :: r) z.
Proof.
  intros x r z Hx (sg & sgn & ds & E & HS & N & HF & _). destruct HS; cbn in E; [|discriminate|discriminate]. subst ds. inversion HF as [|? ? _ HF2]; subst. inversion HF2 as [|? ? HX _]; subst. unfold is_digit in HX. lia.
Qed.
Lemma prefixed : forall p x r s z, p = [48; x] -> s = p ++ r -> (x = 98 \/ x = 111 \/ x = 120) ->
  (integer_text s z <-> (x = 98 /\ radix_literal 2 r z) \/ (x = 111 /\ radix_literal 8 r z) \/ (x = 120 /\ radix_literal 16 r z)).
Proof.
  intros p x r s z -> -> Hx. split.
  - intros [H|r' E H|r' E H|r' E H]; cbn in E || idtac.
    + destruct (no_prefix_decimal _ _ _ Hx H).
    + injection E as -> ->. auto.
    + injection E as -> ->. auto.
    + injection E as -> ->. auto.
  - intros [[-> H]|[[-> H]|[-> H]]]; [eapply binary_text|eapply octal_text|eapply hexadecimal_text]; try exact H; reflexivity.
Qed.
Lemma unprefixed : forall s z, (forall x r, x = 98 \/ x = 111 \/ x = 120 -> s <> 48 :: x :: r) -> (integer_text s z <-> int_literal s z).
Proof.
  intros s z H. split; [|apply decimal_text]. intros [K|r E K|r E K|r E K]; [exact K| | |]; exfalso; eapply H; try exact E; auto.
Qed.
Lemma option_cases : forall {F} (o : option Z) (P : Z -> Prop), (forall z, o = Some z <-> P z /\ i64_lo <= z <= i64_hi) ->
  (exists z, P z /\ i64_lo <= z <= i64_hi /\ fmap (@VLong F) (of_option o) = Value (VLong z)) \/
  (forall z, P z -> ~ i64_lo <= z <= i64_hi) /\ fmap (@VLong F) (of_option o) = Undefined.
Proof.
  intros F [z|] P H.
  - left. exists z. destruct (proj1 (H z) eq_refl). auto.
  - right. split; [|reflexivity]. intros z HP HB. assert (K : None = Some z) by (apply H; auto). discriminate.
Qed.
Lemma literal_nonempty : forall r s z, radix_literal r s z -> s <> [].
Proof. intros r s z (sg & sgn & cs & ds & -> & _ & N & _) E. apply app_eq_nil in E. destruct E; congruence. Qed.

(* INT of a string or of a literal with an unknown datatype.  If the text is an integer (decimal, or binary, octal or
   hexadecimal after the prefixes 0b, 0o, 0x) of 64 bits, then the result is this integer.  Otherwise there is no
   result; unless the first two bytes of a text of at least three characters are not whole characters: then the
   program panics. *)
Theorem C42_int_text_partial : forall F (C : float_casts F) v s, string_like v s -> ~ cut_inside s ->
  (exists z, integer_text s z /\ i64_lo <= z <= i64_hi /\ cast_integer C v = Value (VLong z)) \/
  (forall z, integer_text s z -> ~ i64_lo <= z <= i64_hi) /\ cast_integer C v = Undefined.
Proof.
  intros F C v s Hv Hc. assert (E : cast_integer C v = int_of_string s) by (destruct Hv as [-> |(dt & ->)]; reflexivity). rewrite E. clear E Hv v.
  assert (HD : (exists z, int_literal s z /\ i64_lo <= z <= i64_hi /\ fmap (@VLong F) (match parse_i64 s with inl z => Value z | inr _ => Undefined end) = Value (VLong z)) \/
    (forall z, int_literal s z -> ~ i64_lo <= z <= i64_hi) /\ fmap (@VLong F) (match parse_i64 s with inl z => Value z | inr _ => Undefined end) = Undefined).
  { pose proof (fun z => parse_signed_ok i64_lo i64_hi s z ltac:(unfold i64_lo, i64_hi; lia)) as K. fold (parse_i64 s) in K. destruct (parse_i64 s) as [z|e].
    - left. exists z. destruct (proj1 (K z) eq_refl). auto.
    - right. split; [|reflexivity]. intros z HL HB. assert (X : inr e = inl z) by (apply K; auto). discriminate. }
  assert (HU : (forall x r, x = 98 \/ x = 111 \/ x = 120 -> s = 48 :: x :: r -> r = []) -> (exists z, integer_text s z /\ i64_lo <= z <= i64_hi /\ fmap (@VLong F) (match parse_i64 s with inl z => Value z | inr _ => Undefined end) = Value (VLong z)) \/
    (forall z, integer_text s z -> ~ i64_lo <= z <= i64_hi) /\ fmap (@VLong F) (match parse_i64 s with inl z => Value z | inr _ => Undefined end) = Undefined).
  { intros HN. assert (K : forall z, integer_text s z <-> int_literal s z).
    { intros z. split; [|apply decimal_text]. intros [K|r E K|r E K|r E K]; [exact K| | |]; cbn in E; apply HN in E; auto; subst r; destruct (literal_nonempty _ _ _ K eq_refl). }
    destruct HD as [(z & H1 & H2 & H3)|[H1 H2]]; [left; exists z; rewrite K; auto|right; split; [|exact H2]; intros z; rewrite K; apply H1]. }
  unfold int_of_string. destruct (Nat.leb_spec 3 (length s)) as [L|L].
  2: { apply HU. intros x r Hx ->. destruct r; [reflexivity|cbn in L; lia]. }
  destruct s as [|a [|b [|c r]]]; cbn [length] in L; try lia. clear L.
  destruct (split_two a b c r) as [[H _]|[_ [[H A]|H]]]; [congruence|rewrite H|rewrite H].
  - assert (a <> 48) by lia. change (lit "0b") with [48; 98]. change (lit "0o") with [48; 111]. change (lit "0x") with [48; 120]. cbn [str_eqb]. rewrite !andb_false_r. apply HU. intros x r' Hx E. injection E as -> _. lia.
  - change (lit "0b") with [48; 98]. change (lit "0o") with [48; 111]. change (lit "0x") with [48; 120]. cbn [str_eqb]. rewrite !andb_true_r.
    destruct (Z.eqb_spec a 48) as [->|A]; cbn [andb]; [|apply HU; intros x r' Hx E; injection E as -> _; congruence].
    destruct (Z.eqb_spec b 98) as [->|B1]; [|destruct (Z.eqb_spec b 111) as [->|B2]; [|destruct (Z.eqb_spec b 120) as [->|B3]]].
    + pose proof (fun z => prefixed [48; 98] 98 (c :: r) (48 :: 98 :: c :: r) z eq_refl eq_refl (or_introl eq_refl)) as K.
      destruct (@option_cases F (parse_radix 2 (c :: r)) (radix_literal 2 (c :: r)) (fun z => parse_radix_ok 2 (c :: r) z ltac:(lia))) as [(z & H1 & H2 & H3)|[H1 H2]].
      * left. exists z. rewrite K. auto.
      * right. split; [|exact H2]. intros z. rewrite K. intros [[_ X]|[[X _]|[X _]]]; [apply H1, X|discriminate|discriminate].
    + pose proof (fun z => prefixed [48; 111] 111 (c :: r) (48 :: 111 :: c :: r) z eq_refl eq_refl ltac:(auto)) as K.
      destruct (@option_cases F (parse_radix 8 (c :: r)) (radix_literal 8 (c :: r)) (fun z => parse_radix_ok 8 (c :: r) z ltac:(lia))) as [(z & H1 & H2 & H3)|[H1 H2]].
      * left. exists z. rewrite K. auto.
      * right. split; [|exact H2]. intros z. rewrite K. intros [[X _]|[[_ X]|[X _]]]; [discriminate|apply H1, X|discriminate].
    + pose proof (fun z => prefixed [48; 120] 120 (c :: r) (48 :: 120 :: c :: r) z eq_refl eq_refl ltac:(auto)) as K.
      destruct (@option_cases F (parse_radix 16 (c :: r)) (radix_literal 16 (c :: r)) (fun z => parse_radix_ok 16 (c :: r) z ltac:(lia))) as [(z & H1 & H2 & H3)|[H1 H2]].
      * left. exists z. rewrite K. auto.
      * right. split; [|exact H2]. intros z. rewrite K. intros [[X _]|[[X _]|[_ X]]]; [discriminate|discriminate|apply H1, X].
    + apply HU. intros x r' Hx E. injection E as -> _. lia.
Qed.
Theorem C42_int_panic_refuted : forall F (C : float_casts F) v s, string_like v s -> cut_inside s ->
  cast_integer C v = Panic /\ forall z, ~ integer_text s z.
Proof.
  intros F C v s Hv Hc. assert (E : cast_integer C v = int_of_string s) by (destruct Hv as [-> |(dt & ->)]; reflexivity). rewrite E.
  pose proof Hc as (a & b & c & r & -> & H). destruct (split_two a b c r) as [[_ K]|[K _]]; [|destruct (K Hc)]. split.
  - unfold int_of_string. cbn [length Nat.leb]. rewrite K. reflexivity.
  - intros z [(sg & sgn & ds & E' & HS & N & HF & _)|r' E' _|r' E' _|r' E' _]; cbn in E'; try (injection E' as -> -> _; lia).
    destruct HS; cbn in E'; [subst ds|injection E' as -> <-|injection E' as -> <-]; inversion HF as [|? ? H1 H2]; subst; unfold is_digit in H1; try lia. inversion H2 as [|? ? H3 _]; subst. unfold is_digit in H3. lia.
Qed.

(* INT of other values: integers that fit are unchanged, larger ones have no result; booleans are 1 and 0; floating-point
   numbers without fractional part that fit have this value, those with fractional part have no result; IRIs and
   language-tagged strings have no result. *)
Theorem C42_int : forall F (C : float_casts F) (v : dval F), valid v ->
  match v with
  | VLong _ => cast_integer C v = Value v
  | VULong z => (z <= i64_hi -> cast_integer C v = Value v) /\ (i64_hi < z -> cast_integer C v = Undefined)
  | VBool b => cast_integer C v = Value (VLong (if b then 1 else 0))
  | VFloat f => (forall z, f32_integer F C f = Some z -> i64_lo <= z <= i64_hi -> cast_integer C v = Value (VLong z)) /\ (f32_integer F C f = None -> cast_integer C v = Undefined)
  | VDouble f => (forall z, f64_integer F C f = Some z -> i64_lo <= z <= i64_hi -> cast_integer C v = Value (VLong z)) /\ (f64_integer F C f = None -> cast_integer C v = Undefined)
  | VIri _ | VLang _ _ => cast_integer C v = Undefined
  | VString _ | VOther _ _ => True
  end.
Proof.
  intros F C v Hv. destruct v; cbn [cast_integer]; try exact I; try reflexivity.
  - split; [intros n E HB; rewrite E; cbn; unfold as_i64; do 2 f_equal; lia|intros E; rewrite E; reflexivity].
  - split; [intros n E HB; rewrite E; cbn; unfold as_i64; do 2 f_equal; lia|intros E; rewrite E; reflexivity].
  - cbn in Hv. cbn [value_domain]. unfold ulong_domain. split; intros L.
    + rewrite (proj2 (Z.leb_le z i64_hi) L). destruct (z <=? i32_max); [reflexivity|]. destruct (z <=? u32_max); reflexivity.
    + unfold i32_max, u32_max. unfold i64_hi in *. rewrite !(proj2 (Z.leb_gt z _)) by lia. reflexivity.
  - cbn [value_domain]. unfold long_domain. destruct (0 <=? z); [destruct (z <=? i32_max); [|destruct (z <=? u32_max)]|destruct (i32_min <=? z)]; reflexivity.
Qed.
(* A floating-point number without fractional part that does not fit becomes the largest or smallest integer. *)
Theorem C42_int_saturates_refuted : forall F (C : float_casts F) f z, f64_integer F C f = Some z ->
  (i64_hi < z -> cast_integer C (VDouble f) = Value (VLong i64_hi)) /\ (z < i64_lo -> cast_integer C (VDouble f) = Value (VLong i64_lo)).
Proof. intros F C f z E. cbn [cast_integer]. rewrite E. cbn. unfold as_i64. split; intros H; do 2 f_equal; unfold i64_lo, i64_hi in *; lia. Qed.

(* INT recovers an integer from its text, and DOUBLE a double. *)
Theorem C42_int_str : forall F (C : float_casts F) (v : dval F) z, (v = VLong z \/ v = VULong z) -> i64_lo <= z <= i64_hi ->
  fbind (str_function v) (cast_integer C) = Value (VLong z).
Proof.
  intros F C v z Hv HB. assert (E : str_function v = Value (VString (int_to_string z))) by (destruct Hv as [-> | ->]; reflexivity). rewrite E. cbn [fbind].
  pose proof (int_to_string_literal z) as HL.
  assert (HC : ~ cut_inside (int_to_string z)).
  { intros (a & b & c & r & E' & H). rewrite E' in HL. destruct HL as (sg & sgn & ds & Es & HS & _ & HF & _). destruct HS; cbn in Es; [subst ds|injection Es as -> <-|injection Es as -> <-]; inversion HF as [|? ? H1 H2]; subst; unfold is_digit in H1; try lia. inversion H2 as [|? ? H3 _]; subst. unfold is_digit in H3. lia. }
  destruct (C42_int_text_partial F C (VString (int_to_string z)) _ (or_introl eq_refl) HC) as [(n & H1 & H2 & H3)|[H1 H2]].
  - rewrite H3. do 2 f_equal. destruct H1 as [H1|r E1 _|r E1 _|r E1 _]; [apply (int_literal_inj _ _ _ H1 HL)| | |]; exfalso; rewrite E1 in HL; eapply no_prefix_decimal; try exact HL; auto.
  - destruct (H1 z (decimal_text _ _ HL) HB).
Qed.
Theorem C42_double_str : forall F (C : float_casts F) f, good_floats F -> fbind (str_function (VDouble f)) (cast_double C) = Value (VDouble f).
Proof. intros F C f HF. cbn. rewrite (gf_print F HF). reflexivity. Qed.

(* DOUBLE never panics, and is defined for numbers and for text that can be read. *)
Theorem C42_double : forall F (C : float_casts F) (v : dval F), good_casts C -> valid v ->
  match v with
  | VDouble _ => cast_double C v = Value v
  | VFloat _ | VLong _ | VULong _ => exists f, cast_double C v = Value (VDouble f)
  | VString s | VOther s _ => cast_double C v = match f64_parse F s with Some f => Value (VDouble f) | None => Undefined end
  | VIri _ | VLang _ _ | VBool _ => cast_double C v = Undefined
  end.
Proof.
  intros F C v HC Hv. destruct v; cbn [cast_double lexical_value]; try reflexivity.
  - destruct (f64_parse F s); reflexivity.
  - destruct (gc_widen C HC f) as (y & ->). eexists. reflexivity.
  - cbn in Hv. destruct (gc_double C HC z ltac:(lia)) as (y & ->). eexists. reflexivity.
  - cbn in Hv. destruct (gc_double C HC z ltac:(lia)) as (y & ->). eexists. reflexivity.
  - destruct (f64_parse F lex); reflexivity.
Qed.
(* FLOAT likewise, but for doubles that are too large for a float: then it panics. *)
Theorem C42_float_partial : forall F (C : float_casts F) (v : dval F), good_casts C -> valid v ->
  match v with
  | VFloat _ => cast_float C v = Value v
  | VDouble d => forall f, f64_to_f32 F C d = Some f -> cast_float C v = Value (VFloat f)
  | VLong _ | VULong _ => exists f, cast_float C v = Value (VFloat f)
  | VString s | VOther s _ => cast_float C v = match f32_parse F C s with Some f => Value (VFloat f) | None => Undefined end
  | VIri _ | VLang _ _ | VBool _ => cast_float C v = Undefined
  end.
Proof.
  intros F C v HC Hv. destruct v; cbn [cast_float lexical_value]; try reflexivity.
  - destruct (f32_parse F C s); reflexivity.
  - intros x ->. reflexivity.
  - cbn in Hv. destruct (gc_float C HC z ltac:(lia)) as (y & ->). eexists. reflexivity.
  - cbn in Hv. destruct (gc_float C HC z ltac:(lia)) as (y & ->). eexists. reflexivity.
  - destruct (f32_parse F C lex); reflexivity.
Qed.
Theorem C42_float_panic_refuted : forall F (C : float_casts F) d, f64_to_f32 F C d = None -> cast_float C (VDouble d) = Panic.
Proof. intros F C d E. cbn. rewrite E. reflexivity. Qed.
(* Integers of at most 53 (24) bits are recovered from doubles (floats). *)
Theorem C42_int_double : forall F (C : float_casts F) (v : dval F) z, good_casts C -> (v = VLong z \/ v = VULong z) ->
  (- 2 ^ 53 <= z <= 2 ^ 53 -> fbind (cast_double C v) (cast_integer C) = Value (VLong z)) /\
  (- 2 ^ 24 <= z <= 2 ^ 24 -> fbind (cast_float C v) (cast_integer C) = Value (VLong z)).
Proof.
  intros F C v z HC Hv. split; intros HB.
  - destruct (gc_exact64 C HC z HB) as (y & E1 & E2). assert (E : cast_double C v = Value (VDouble y)) by (destruct Hv as [-> | ->]; cbn; rewrite E1; reflexivity).
    rewrite E. cbn. rewrite E2. cbn. unfold as_i64. do 2 f_equal. unfold i64_lo, i64_hi. lia.
  - destruct (gc_exact32 C HC z HB) as (y & E1 & E2). assert (E : cast_float C v = Value (VFloat y)) by (destruct Hv as [-> | ->]; cbn; rewrite E1; reflexivity).
    rewrite E. cbn. rewrite E2. cbn. unfold as_i64. do 2 f_equal. unfold i64_lo, i64_hi. lia.
Qed.

(* IRI: strings and IRIs. *)
Theorem C42_iri : forall F (v : dval F), (forall s, v = VString s \/ v = VIri s -> cast_iri v = Value (VIri s)) /\ ((forall s, v <> VString s /\ v <> VIri s) -> cast_iri v = Undefined).
Proof.
  intros F v. split; [intros s [-> | ->]; reflexivity|]. intros H. destruct v; try reflexivity; [destruct (proj1 (H s) eq_refl)|destruct (proj2 (H s) eq_refl)].
Qed.

(* The type checks. *)
Theorem C42_checks : forall F (v : dval F),
  (check_integer v = true <-> (exists z, v = VLong z) \/ exists z, v = VULong z /\ z <= i64_hi) /\
  (check_float v = true <-> exists f, v = VFloat f) /\ (check_double v = true <-> exists f, v = VDouble f) /\
  (check_iri v = true <-> exists s, v = VIri s) /\ (check_string v = true <-> exists s, v = VString s) /\
  (check_numeric v = true <-> check_integer v = true \/ check_float v = true \/ check_double v = true).
Proof.
  intros F v. split; [|split; [|split; [|split; [|split]]]].
  - destruct v; cbn; split; try discriminate; try (intros [(x & H)|(x & H & _)]; discriminate); try reflexivity.
    + intros H. apply Z.leb_le in H. right. eauto.
    + intros [(x & H)|(x & H & L)]; [discriminate|]. injection H as <-. apply Z.leb_le, L.
    + intros _. left. eauto.
  - destruct v; cbn; split; try discriminate; try (intros (x & H); discriminate); eauto.
  - destruct v; cbn; split; try discriminate; try (intros (x & H); discriminate); eauto.
  - destruct v; cbn; split; try discriminate; try (intros (x & H); discriminate); eauto.
  - destruct v; cbn; split; try discriminate; try (intros (x & H); discriminate); eauto.
  - unfold check_numeric. rewrite !orb_true_iff. tauto.
Qed.
(* Integers above the 64-bit range are neither integers nor numeric for these checks. *)
Theorem C42_numeric_refuted : forall F z, i64_hi < z -> check_integer (@VULong F z) = false /\ check_numeric (@VULong F z) = false.
Proof. intros F z L. unfold check_numeric, check_integer, fits_i64. rewrite (proj2 (Z.leb_gt z i64_hi) L). auto. Qed.

(* AND, OR and NOT: undefined if some argument is not a boolean (even if the other arguments decide the result). *)
Theorem C42_boolean : forall F (vs : list (dval F)),
  ((exists bs, vs = map VBool bs) /\ (exists b1 b2, conjunction vs = Value (VBool b1) /\ disjunction vs = Value (VBool b2) /\
     (b1 = true <-> forall v, In v vs -> v = VBool true) /\ (b2 = true <-> In (VBool true) vs))) \/
  ((exists v, In v vs /\ forall b, v <> VBool b) /\ conjunction vs = Undefined /\ disjunction vs = Undefined).
Proof.
  intros F vs. unfold conjunction, disjunction. destruct (bool_list vs) as [l|] eqn:E.
  - left. assert (Hl : vs = map VBool l).
    { revert l E. induction vs as [|v vs IH]; intros l E; cbn in E; [injection E as <-; reflexivity|]. destruct (to_boolean v) as [b|] eqn:Ev; [|discriminate]. destruct (bool_list vs) as [l'|]; [|discriminate]. injection E as <-.
      cbn [map]. f_equal; [destruct v; try discriminate; cbn in Ev; congruence|apply IH; reflexivity]. }
    split; [eauto|]. exists (forallb (fun b => b) l), (existsb (fun b => b) l). do 2 (split; [reflexivity|]). subst vs. rewrite forallb_forall, existsb_exists. split; split.
    + intros H v Hv. apply in_map_iff in Hv. destruct Hv as (b & <- & Hb). rewrite (H b Hb). reflexivity.
    + intros H b Hb. specialize (H _ (in_map _ _ _ Hb)). congruence.
    + intros (b & Hb & ->). apply (in_map VBool), Hb.
    + intros H. apply in_map_iff in H. destruct H as (b & K & Hb). injection K as ->. eauto.
  - right. split; [|auto]. induction vs as [|v vs IH]; cbn in E; [discriminate|]. destruct (to_boolean v) as [b|] eqn:Ev.
    + destruct (bool_list vs); [discriminate|]. destruct (IH eq_refl) as (w & H1 & H2). exists w. split; [right; exact H1|exact H2].
    + exists v. split; [left; reflexivity|]. intros b ->. discriminate.
Qed.
Theorem C42_not : forall F (v : dval F), (forall b, v = VBool b -> negation v = Value (VBool (negb b))) /\ ((forall b, v <> VBool b) -> negation v = Undefined).
Proof. intros F v. split; [intros b ->; reflexivity|]. intros H. destruct v; try reflexivity. destruct (H b eq_refl). Qed.
(* equality and inequality are opposites *)
Theorem C42_equals : forall F (v w : dval F), exists b, equals v w = Value (VBool b) /\ unequals v w = Value (VBool (negb b)) /\ b = dval_eqb v w.
Proof. intros F v w. exists (dval_eqb v w). unfold equals, unequals. destruct (dval_eqb v w); auto. Qed.
(* STR: the text, without a language tag *)
Theorem C42_str : forall F s t z, str_function (@VString F s) = Value (VString s) /\ str_function (@VLang F s t) = Value (VString s) /\ str_function (@VIri F s) = Value (VString s) /\ str_function (@VLong F z) = Value (VString (int_to_string z)).
Proof. auto. Qed.

(* An environment with rounding: floating-point numbers without fractional part, with 53 and 24 bits. *)
Definition round_bits (p z : Z) : Z :=
  let n := Z.abs z in
  let e := Z.max 0 (Z.log2 n + 1 - p) in
  let q := n / 2 ^ e in
  let r := n mod 2 ^ e in
  let up := if 2 * r <? 2 ^ e then false else if 2 ^ e <? 2 * r then true else Z.odd q in
  Z.sgn z * ((if up then q + 1 else q) * 2 ^ e).
Definition whole : float_ops := {|
  f64 := Z; f64_parse := fun s => match parse_i64 s with inl z => Some (round_bits 53 z) | inr _ => None end; f64_print := int_to_string;
  f64_eqb := Z.eqb; f64_cmp := Z.compare; f64_bits := fun z => z;
  f32 := Z; f32_print := int_to_string; f32_eqb := Z.eqb; f32_cmp := Z.compare; f32_bits := fun z => z |}.
Definition whole_casts : float_casts whole := Build_float_casts whole (fun z => Some z) (fun z => Some z)
  (fun z => let r := round_bits 24 z in if Z.abs r <? 2 ^ 128 then Some r else None) (fun z => Some z)
  (fun z => Some (round_bits 53 z)) (fun z => Some (round_bits 24 z))
  (fun s => match parse_i64 s with inl z => Some (round_bits 24 z) | inr _ => None end).
Lemma round_small : forall p z, 1 <= p -> - 2 ^ p <= z <= 2 ^ p -> round_bits p z = z.
Proof.
  intros p z Hp Hz. unfold round_bits. destruct (Z.eq_dec (Z.abs z) (2 ^ p)) as [E|N].
  - rewrite E, Z.log2_pow2 by lia. replace (Z.max 0 (p + 1 - p)) with 1 by lia. change (2 ^ 1) with 2.
    assert (E2 : 2 ^ p = 2 ^ (p - 1) * 2) by (replace p with (p - 1 + 1) at 1 by lia; rewrite Z.pow_add_r by lia; reflexivity).
    rewrite E2, Z.div_mul, Z_mod_mult by lia. change (2 * 0 <? 2) with true. cbv iota. rewrite <- E2, <- E, Z.mul_comm. apply Z.abs_sgn.
  - assert (L : Z.log2 (Z.abs z) < p) by (destruct (Z.eq_dec (Z.abs z) 0) as [->|]; [cbn; lia|apply Z.log2_lt_pow2; lia]).
    replace (Z.max 0 (Z.log2 (Z.abs z) + 1 - p)) with 0 by lia. change (2 ^ 0) with 1. rewrite Z.div_1_r, Z.mod_1_r. cbn [Z.mul Z.ltb Z.compare]. rewrite Z.mul_1_r, Z.mul_comm. apply Z.abs_sgn.
Qed.
Example whole_good : good_casts whole_casts.
Proof. constructor; cbn; eauto; intros z H; eexists; (split; [reflexivity|]); rewrite round_small by lia; reflexivity. Qed.
Example C42_example :
  cast_integer whole_casts (VString (lit "0xFf")) = Value (VLong 255) /\ cast_integer whole_casts (VString (lit "0b-101")) = Value (VLong (-5)) /\
  cast_integer whole_casts (VString (lit "0b2")) = Undefined /\ cast_integer whole_casts (VString (lit "-42")) = Value (VLong (-42)) /\
  cast_integer whole_casts (VString (lit "9223372036854775808")) = Undefined /\ cast_integer whole_casts (VString [26085; 26412; 35486]) = Panic /\
  cast_integer whole_casts (VString [26085; 26412]) = Undefined /\ cast_integer whole_casts (VString [49; 50; 233]) = Undefined /\
  fbind (cast_double whole_casts (VLong (2 ^ 53 + 1))) (cast_integer whole_casts) = Value (VLong (2 ^ 53)) /\
  fbind (cast_double whole_casts (VULong (2 ^ 64 - 1))) (cast_integer whole_casts) = Value (VLong (2 ^ 63 - 1)) /\
  cast_float whole_casts (@VDouble whole (2 ^ 200)) = Panic /\ cast_float whole_casts (@VDouble whole (2 ^ 100 + 1)) = Value (@VFloat whole (2 ^ 100)) /\
  conjunction [@VBool whole true; VBool false] = Value (VBool false) /\ conjunction [@VBool whole false; VLong 1] = Undefined.
Proof. repeat split. Qed.
Example C42_text_example : string_like (@VOther whole (lit "0x1F") (lit "dt")) (lit "0x1F") /\ ~ cut_inside (lit "0x1F") /\ integer_text (lit "0x1F") 31 /\ cut_inside [26085; 26412; 35486].
Proof.
  split; [right; eauto|]. split; [intros (a & b & c & r & E & H); injection E as <- <- _ _; lia|]. split.
  - eapply hexadecimal_text with (r := [49; 70]); [reflexivity|]. exists [], 1, [49; 70], [1; 15]. split; [reflexivity|]. split; [constructor|]. split; [discriminate|]. split; [|reflexivity].
    constructor; [split; [apply (numeral 49); lia|lia]|]. constructor; [split; [apply (capital_letter 70); lia|lia]|]. constructor.
  - exists 26085, 26412, 35486, []. split; [reflexivity|lia].
Qed.

Print Assumptions C42_int_text_partial. Print Assumptions C42_int_panic_refuted. Print Assumptions C42_int. Print Assumptions C42_int_saturates_refuted.
Print Assumptions C42_int_str. Print Assumptions C42_double_str. Print Assumptions C42_double. Print Assumptions C42_float_partial. Print Assumptions C42_float_panic_refuted.
Print Assumptions C42_int_double. Print Assumptions C42_iri. Print Assumptions C42_checks. Print Assumptions C42_numeric_refuted. Print Assumptions C42_boolean.
Print Assumptions C42_not. Print Assumptions C42_equals. Print Assumptions C42_str.
