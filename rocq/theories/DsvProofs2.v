(** Cells that are written are read back. *)
From Coq Require Import List ZArith Lia Bool String.
From Verif Require Import LexModel LexSpec LexProofs1 LexProofs2 LexProofs3 LexProofs4 LexProofs5 DsvModel DsvSpec.
Import ListNotations.
Open Scope Z_scope.
Open Scope list_scope.

Lemma replace_id c r s : ~ In c s -> replace c r s = s.
Proof.
  induction s as [|x s IH]; intros H; [reflexivity|]. cbn [replace flat_map]. fold (replace c r s).
  destruct (Z.eqb_spec x c) as [->|N]; [exfalso; apply H; now left|]. cbn [app]. rewrite IH; auto. intros I. apply H. now right.
Qed.
Lemma quote_clean s : clean s -> quote_string s = [34] ++ s ++ [34].
Proof. intros (A & B & C & D). unfold quote_string, quote, cr, lf. rewrite (replace_id 92), (replace_id 34), (replace_id 13), (replace_id 10) by auto. reflexivity. Qed.

Lemma trim_start_id s : is_white (hd 0 s) = false -> trim_start s = s.
Proof. destruct s as [|c s]; auto. cbn [hd trim_start]. intros ->. reflexivity. Qed.
Lemma trim_id s : is_white (hd 0 s) = false -> is_white (last s 0) = false -> trim s = s.
Proof.
  intros A B. unfold trim. rewrite (trim_start_id s A). rewrite trim_start_id; [apply rev_involutive|].
  destruct s as [|c s] using rev_ind; [reflexivity|]. rewrite rev_app_distr. cbn. rewrite last_last in B. exact B.
Qed.
Lemma last_app_cons {A} (a b : list A) x : b <> [] -> last (a ++ b) x = last b x.
Proof.
  intros N. destruct (exists_last N) as (b' & y & ->). now rewrite app_assoc, !last_last.
Qed.
Lemma last_in {A} (s : list A) x : s <> [] -> In (last s x) s.
Proof. intros N. destruct (exists_last N) as (b' & y & ->). rewrite last_last. apply in_or_app. right. now left. Qed.

Lemma rsplit_none s : ~ In 34 s -> rsplit_quote s = None.
Proof.
  induction s as [|c s IH]; intros H; auto. cbn [rsplit_quote]. rewrite IH by (intros I; apply H; now right).
  unfold quote. destruct (Z.eqb_spec c 34) as [->|]; auto. exfalso. apply H. now left.
Qed.
Lemma rsplit_some m a : ~ In 34 a -> rsplit_quote (m ++ 34 :: a) = Some (m, a).
Proof.
  intros H. induction m as [|c m IH]; cbn [app rsplit_quote].
  - rewrite rsplit_none by auto. reflexivity.
  - now rewrite IH.
Qed.

Lemma byte_len_nonneg s : 0 <= byte_len s.
Proof.
  induction s as [|c s IH]; cbn [byte_len]; [lia|]. unfold utf8_len. destruct (c <? 128), (c <? 2048), (c <? 65536); lia.
Qed.
Lemma byte_len_app a b : byte_len (a ++ b) = byte_len a + byte_len b.
Proof. induction a as [|c a IH]; cbn [byte_len app]; lia. Qed.

Section P.
Context {F : float_ops}.
Notation dval := (dval F).

Lemma parse_any_quoted m : is_white (last (34 :: m) 0) = false -> parse_any (34 :: m) = parse_quoted (34 :: m) :> parsed F.
Proof. intros H. unfold parse_any. rewrite trim_id by auto. reflexivity. Qed.

Lemma parse_string s : parse_any ([34] ++ s ++ [34]) = POk (VString s) :> parsed F.
Proof.
  change ([34] ++ s ++ [34]) with (34 :: s ++ [34]). rewrite parse_any_quoted.
  - unfold parse_quoted. change (34 :: s ++ [34]) with ((34 :: s) ++ 34 :: []). rewrite rsplit_some by auto. reflexivity.
  - change (34 :: s ++ [34]) with ((34 :: s) ++ [34]). rewrite last_last. reflexivity.
Qed.

Lemma parse_lang s tag : ~ In 34 tag -> is_white (last tag 0) = false ->
  parse_any (([34] ++ s ++ [34]) ++ [64] ++ tag) = POk (VLang s (map ascii_lower tag)) :> parsed F.
Proof.
  intros T W. replace (([34] ++ s ++ [34]) ++ [64] ++ tag) with (34 :: s ++ 34 :: 64 :: tag) by (cbn; now rewrite <- app_assoc).
  rewrite parse_any_quoted.
  - unfold parse_quoted. change (34 :: s ++ 34 :: 64 :: tag) with ((34 :: s) ++ 34 :: 64 :: tag). rewrite rsplit_some.
    + reflexivity.
    + intros [E|I]; [discriminate|auto].
  - change (34 :: s ++ 34 :: 64 :: tag) with ((34 :: s) ++ 34 :: 64 :: tag). rewrite last_app_cons by discriminate.
    destruct tag; [reflexivity|exact W].
Qed.

Lemma parse_typed lex dt (v : dval) : ~ In 34 dt -> new_from_typed_literal lex dt = POk v -> parse_any (typed lex dt) = POk v.
Proof.
  intros T E. unfold typed, quote.
  assert (34 :: lex ++ 34 :: 94 :: 94 :: 60 :: dt ++ [62] = [34] ++ lex ++ [34] ++ lit "^^<" ++ dt ++ lit ">") as <- by reflexivity.
  assert (34 :: lex ++ 34 :: 94 :: 94 :: 60 :: dt ++ [62] = (34 :: lex ++ 34 :: 94 :: 94 :: 60 :: dt) ++ [62]) as L.
  { cbn [app]. rewrite <- app_assoc. reflexivity. }
  set (w := lex ++ 34 :: 94 :: 94 :: 60 :: dt ++ [62]) in *.
  assert (last (34 :: w) 0 = 62) as L1 by (rewrite L; apply last_last).
  assert (rsplit_quote (34 :: w) = Some (34 :: lex, 94 :: 94 :: 60 :: dt ++ [62])) as R.
  { change (34 :: w) with ((34 :: lex) ++ 34 :: 94 :: 94 :: 60 :: dt ++ [62]). apply rsplit_some.
    intros [E'|[E'|[E'|I]]]; try discriminate. apply in_app_or in I as [I|[E'|[]]]; [auto|discriminate]. }
  rewrite parse_any_quoted by (rewrite L1; reflexivity).
  unfold parse_quoted. rewrite R, L1. change (94 =? 64) with false. cbn iota.
  assert (4 <? 1 + byte_len (94 :: 94 :: 60 :: dt ++ [62]) = true) as ->.
  { apply Z.ltb_lt. change (94 :: 94 :: 60 :: dt ++ [62]) with ([94; 94; 60] ++ dt ++ [62]). rewrite !byte_len_app.
    change (byte_len [94; 94; 60]) with 3. change (byte_len [62]) with 1. pose proof (byte_len_nonneg dt). lia. }
  change ((62 =? 62) && true) with true. cbn iota.
  assert (take_bytes 4 (quote :: 94 :: 94 :: 60 :: dt ++ [62]) = Some (quote :: lit "^^<")) as ->.
  { destruct (dt ++ [62]); reflexivity. }
  rewrite str_eqb_refl. cbn [tail_slice skipn]. rewrite removelast_last, E. reflexivity.
Qed.

Lemma digit_not_white c : is_digit c \/ c = 45 -> is_white c = false.
Proof.
  intros H. assert (45 <= c <= 57) as B by (unfold is_digit in H; lia). unfold is_white.
  repeat (apply orb_false_iff; split); try (apply Z.eqb_neq; lia); apply andb_false_iff;
    first [right; apply Z.leb_gt; lia | left; apply Z.leb_gt; lia].
Qed.

Lemma int_to_string_chars z : Forall (fun c => is_digit c \/ c = 45) (int_to_string z) /\ int_to_string z <> [].
Proof.
  destruct (int_to_string_spec z) as (ds & (Fd & N & _) & V & ->). split.
  - apply Forall_app. split; [destruct (z <? 0); auto|]. eapply Forall_impl; [|exact Fd]. auto.
  - destruct (z <? 0), ds; cbn; congruence.
Qed.

Lemma parse_any_int z (v : dval) : new_from_decimal_type_literal (int_to_string z) TDecimal = POk v ->
  parse_any (int_to_string z) = POk v.
Proof.
  intros E. destruct (int_to_string_chars z) as [C N]. unfold parse_any. rewrite trim_id.
  - destruct (int_to_string z) as [|c s] eqn:Es; [congruence|]. inversion C; subst.
    assert ((c =? 60) = false) as -> by (apply Z.eqb_neq; unfold is_digit in *; lia). cbn [andb].
    assert ((48 <=? c) && (c <=? 57) || (c =? 43) || (c =? 45) = true) as ->.
    { destruct H1 as [D| ->]; [|apply orb_true_r]. unfold is_digit in D. rewrite !orb_true_iff, andb_true_iff, !Z.leb_le. lia. }
    rewrite E. reflexivity.
  - destruct (int_to_string z) as [|c s]; [congruence|]. cbn. inversion C; subst. now apply digit_not_white.
  - rewrite Forall_forall in C. apply digit_not_white, C. now apply last_in.
Qed.

Lemma decimal_int z : exists v : dval, new_from_decimal_type_literal (int_to_string z) TDecimal = POk v /\
  new_from_decimal_type_literal (int_to_string z) TInteger = POk v /\
  (i64 z /\ v = VLong z \/ ~ i64 z /\ v = VOther (int_to_string z) (xsd "integer")).
Proof.
  destruct (big_integer_ok (F := F) (int_to_string z) TDecimal z (int_to_string_literal z) I) as (v & A & _ & _ & B).
  destruct (big_integer_ok (F := F) (int_to_string z) TInteger z (int_to_string_literal z) I) as (w & A' & _ & _ & B').
  exists v. split; auto. split; auto. destruct B as [[C ->]|[C ->]], B' as [[C' ->]|[C' ->]]; tauto.
Qed.

Lemma literal_integer lex : literal_value (F := F) lex (xsd "integer") -> exists z, lex = int_to_string z /\ ~ i64 z.
Proof.
  unfold literal_value. rewrite typed_integer. intros E. apply big_integer_canon in E. cbn [num_canon] in E.
  destruct E as [(_ & H)|(E & _)]; [exact H|discriminate].
Qed.

Lemma parse_iri s : plain_iri s -> parse_any s = POk (VIri s) :> parsed F.
Proof.
  intros (N & T & A & B & C & Q & D). unfold parse_any. unfold no_outer_space in T. rewrite T.
  assert (parse_plain s = POk (VIri s) :> parsed F) as P.
  { unfold parse_plain. destruct (name_token s); auto. assert (iri_token s = true) as ->; auto.
    unfold iri_token. destruct s as [|c s]; [congruence|]. cbn [nonempty andb]. apply forallb_forall. intros x I.
    apply negb_true_iff. destruct (Z.eqb_spec x 62); [subst; tauto|]. destruct (Z.eqb_spec x 32); [subst; tauto|].
    destruct (Z.eqb_spec x 10); [subst; tauto|]. reflexivity. }
  destruct s as [|c t]; [congruence|].
  assert ((last (c :: t) 0 =? 62) = false) as L.
  { apply Z.eqb_neq. intros E. apply A. rewrite <- E. apply last_in. discriminate. }
  rewrite L, andb_false_r. cbn [hd_error] in Q.
  destruct ((48 <=? c) && (c <=? 57) || (c =? 43) || (c =? 45)).
  - rewrite decimal_err by auto. exact P.
  - assert ((c =? quote) = false) as -> by (apply Z.eqb_neq; unfold quote; congruence). exact P.
Qed.

Lemma bool_datatype b : datatype_iri (VBool b : dval) = xsd "boolean". Proof. destruct b; reflexivity. Qed.
Lemma no_quote_lit (s : str) : existsb (Z.eqb 34) s = false -> ~ In 34 s.
Proof. intros H I. assert (existsb (Z.eqb 34) s = true) by (apply existsb_exists; exists 34; auto). congruence. Qed.

Theorem cell_roundtrip f (v : dval) : good_floats F -> exportable f v ->
  exists s, serialize f v = Some s /\ parse_cell f s = POk v.
Proof.
  intros G. destruct f; cbn [exportable serialize parse_cell].
  - destruct v as [s|s tag|s|x|x|z|z|b|lex dt]; intros E; try contradiction.
    + exists (quote_string s). split; [reflexivity|]. rewrite quote_clean by auto. apply parse_string.
    + destruct E as (C & Q & L & W). exists (quote_string s ++ [64] ++ tag). split; [reflexivity|].
      rewrite quote_clean by auto. rewrite parse_lang by auto. now rewrite L.
    + exists s. split; [reflexivity|]. now apply parse_iri.
    + eexists. split; [reflexivity|]. apply parse_typed; [apply no_quote_lit; reflexivity|].
      cbn [lexical_value]. change (datatype_iri (VDouble x : dval)) with (xsd "double").
      change (new_from_typed_literal (f64_print F x) (xsd "double")) with
        (match f64_parse F (f64_print F x) with Some f => POk (VDouble f) | None => PErr end : parsed F).
      now rewrite (gf_print F G).
    + exists (int_to_string z). split; [reflexivity|]. destruct (decimal_int z) as (v & A & _ & [[_ ->]|[B _]]).
      * now apply parse_any_int.
      * exfalso. apply B. unfold i64, i64_lo, i64_hi. lia.
    + eexists. split; [reflexivity|]. apply parse_typed; [apply no_quote_lit; destruct b; reflexivity|]. destruct b; reflexivity.
    + destruct E as (L & E). unfold serialize_any, serialize_integer. destruct (str_eqb dt (xsd "integer")) eqn:Ed.
      * apply str_eqb_eq in Ed. subst. exists lex. split; [reflexivity|]. destruct (literal_integer lex L) as (z & -> & B).
        destruct (decimal_int z) as (v & A & _ & [[C _]|[_ ->]]); [contradiction|]. now apply parse_any_int.
      * destruct E as [->|(C & Q)]; [rewrite str_eqb_refl in Ed; discriminate|]. eexists. split; [reflexivity|].
        cbn [canonical_string]. rewrite quote_clean by auto. unfold quote_iri.
        replace (([34] ++ lex ++ [34]) ++ lit "^^" ++ [60] ++ dt ++ [62]) with (typed lex dt).
        -- now apply parse_typed.
        -- unfold typed, quote. cbn. now rewrite <- app_assoc.
  - intros (s & ->). exists s. split; reflexivity.
  - intros [(z & -> & B)|(lex & -> & L)].
    + exists (int_to_string z). split; [reflexivity|]. destruct (decimal_int z) as (v & _ & A & [[_ ->]|[C _]]); auto.
      exfalso. apply C. unfold i64, i64_lo, i64_hi. lia.
    + exists lex. split; [reflexivity|]. destruct (literal_integer lex L) as (z & -> & B).
      destruct (decimal_int z) as (v & _ & A & [[C _]|[_ ->]]); [contradiction|auto].
  - intros (x & ->). eexists. split; [reflexivity|]. cbn [lexical_value]. now rewrite (gf_print F G).
  - intros [].
Qed.

Lemma row_roundtrip fs (row : list dval) : good_floats F -> exportable_row fs row ->
  exists r, write_row fs row = ROk r /\ read_cells fs r = ROk row /\ List.length r = List.length fs.
Proof.
  intros G H. induction H as [|f v fs row E _ IH].
  - exists []. repeat split.
  - destruct IH as (r & A & B & C). destruct (cell_roundtrip f v G E) as (s & S & P).
    exists (s :: r). assert (is_skip f = false) as K by (destruct f; auto; contradiction).
    cbn [write_row read_cells List.length]. rewrite K, S, A, P, B, C. auto.
Qed.
End P.
