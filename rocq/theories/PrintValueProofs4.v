(** Proofs for C57: strings with quotation marks, literals that were read, and nulls. *)
From Coq Require Import ZArith Bool String Lia List.
From Verif Require Import LexModel LexSpec LexProps PrintValueModel PrintValueSpec PrintValueProofs1 PrintValueProofs2 PrintValueProofs3.
Import ListNotations.
Open Scope Z_scope.
Open Scope list_scope.

(** ** A text that ends with a quotation mark is not read to its end after a quoted part. *)
Definition ends_without (i r : str) : Prop := exists u c, i = u ++ c :: r /\ c <> 34.
Lemma name_ends i n r : name i = Some (n, r) -> ends_without i r.
Proof.
  intros H. apply name_inv in H. destruct H as (-> & c & s & -> & L & A). destruct (exists_last (l := c :: s) ltac:(discriminate)) as (u & x & E).
  exists u, x. split; [rewrite E, <- app_assoc; reflexivity|]. intros ->.
  assert (I : In 34 (c :: s)) by (rewrite E; apply in_or_app; right; now left). destruct I as [->|I]; [unfold letter in L; lia|].
  rewrite Forall_forall in A. apply A in I. unfold letter, digit_char in I. lia.
Qed.
Lemma ends_more i j r u : ends_without j r -> i = u ++ j -> ends_without i r.
Proof. intros (v & c & -> & N) ->. exists (u ++ v), c. split; [now rewrite app_assoc|exact N]. Qed.
Lemma tag_ends i t r : structure_tag i = Some (t, r) -> ends_without i r.
Proof.
  unfold structure_tag, alt at 1. intros H. destruct (bind (alt name _ i) _) as [(x, r1)|] eqn:E.
  - injection H as -> ->. unfold alt in E. destruct (name i) as [(p, r1)|] eqn:N; cbn [bind] in E.
    + destruct (chr 58 r1) as [([], r2)|] eqn:C; [|discriminate]. cbn [bind] in E. destruct (name r2) as [(n, r3)|] eqn:M; [|discriminate]. cbn [bind] in E. injection E as <- <-.
      apply name_inv in N. destruct N as (-> & _). apply chr_inv in C. subst r1. apply name_ends in M. eapply (ends_more _ _ _ (p ++ [58])); [exact M|]. now rewrite <- app_assoc.
    + destruct (chr 58 i) as [([], r2)|] eqn:C; [|discriminate]. cbn [bind] in E. destruct (name r2) as [(n, r3)|] eqn:M; [|discriminate]. cbn [bind] in E. injection E as <- <-.
      apply chr_inv in C. subst i. apply name_ends in M. now apply (ends_more _ _ _ [58] M).
  - clear E. unfold alt, pmap in H. destruct (name i) as [(n, r1)|] eqn:N; cbn [bind] in H.
    + injection H as _ <-. now apply name_ends in N.
    + destruct i as [|c i]; [discriminate|]. destruct (Z.eq_dec c 60) as [->|Nc].
      * change (structure_tag (60 :: i) = Some (t, r)) in H. apply iri_inv in H. destruct H as (s & _ & -> & _). exists (60 :: s), 62. split; [reflexivity|discriminate].
      * exfalso. unfold parse_iri, chr, tag in H. cbn [strip_prefix] in H. destruct (Z.eqb_spec 60 c); [congruence|discriminate].
Qed.
Lemma not_quote_end u : ~ ends_without (u ++ [34]) [].
Proof. intros (v & c & E & N). apply app_inj_tail in E. destruct E as (_ & E). congruence. Qed.
Lemma after_quoted_end p q b : after_quoted p (q ++ [34]) <> Some (b, []).
Proof.
  unfold after_quoted. intros H.
  destruct (match p with [] => None | _ => _ end) as [(t, r)|] eqn:E.
  - injection H as _ ->. destruct p as [|c p]; [discriminate|]. destruct (tag datatype_indicator (q ++ [34])) as [(u, k)|] eqn:T; [|discriminate]. cbn [bind] in E.
    unfold tag in T. destruct (strip_prefix datatype_indicator (q ++ [34])) as [k'|] eqn:S; [|discriminate]. injection T as _ <-. apply strip_prefix_some in S.
    apply tag_ends in E. apply (not_quote_end q). rewrite S. now apply (ends_more _ _ _ datatype_indicator E).
  - unfold opt in H. destruct (language_tag (q ++ [34])) as [(n, r)|] eqn:L; cbn [bind] in H.
    + injection H as _ ->. unfold language_tag in L. destruct (chr 64 (q ++ [34])) as [([], r2)|] eqn:C; [|discriminate]. apply chr_inv in C. cbn [bind] in L. apply name_ends in L.
      apply (not_quote_end q). rewrite C. now apply (ends_more _ _ _ [64] L).
    + injection H as _ H. destruct q; discriminate.
Qed.

Section P.
Context {F : float_ops} (d : declared).

Lemma read_no_quote s r : ~ In 34 s -> delimited r -> exists e, escaped s e /\ read_value d (quote_string s ++ r) = Some (VString e : dval F, r).
Proof.
  intros N D. exists (escape s). split; [apply escape_ok|]. unfold quote_string. cbn [app]. rewrite <- app_assoc. cbn [app]. unfold read_value.
  rewrite parse_quoted; [|eapply escaped_no_quote; eauto using escape_ok|intros _; now apply delimited_quote].
  unfold after_quoted, opt. rewrite delimited_tag, delimited_lang by assumption. destruct (escape s); reflexivity.
Qed.
Lemma read_with_quote s (v : dval F) : In 34 s -> read_value d (quote_string s) <> Some (v, []).
Proof.
  intros I. destruct (escaped_quote _ _ (escape_ok s) I) as (p & q & E & N & Ne). unfold quote_string, read_value. rewrite E, <- app_assoc. cbn [app].
  rewrite parse_quoted; [|exact N|congruence]. intros H. destruct (after_quoted p (q ++ [34])) as [(b, r)|] eqn:A; [|discriminate]. cbn [bind] in H.
  destruct (translate d b) as [w|]; [|discriminate]. cbn [option_map] in H. injection H as _ ->. now apply after_quoted_end in A.
Qed.

Lemma number_text_iri dt : dt = xsd "integer" \/ dt = xsd "decimal" -> iri_text dt.
Proof.
  intros [-> | ->]; (split; [discriminate|]); apply Forall_forall; intros c H.
  - assert (A : forallb is_iri_char (xsd "integer") = true) by reflexivity. rewrite forallb_forall in A. now apply is_iri_char_ok, A.
  - assert (A : forallb is_iri_char (xsd "decimal") = true) by reflexivity. rewrite forallb_forall in A. now apply is_iri_char_ok, A.
Qed.
Lemma written_readable b s dt lex dt' : good_floats F -> plain s -> s <> [] -> iri_text dt ->
  new_from_typed_literal s dt = POk (VOther lex dt' : dval F) -> readable b (VOther lex dt' : dval F).
Proof.
  intros G P N I H. pose proof (typed_from _ _ _ _ H) as T. cbn [from_literal] in T. pose proof (C30_roundtrip F s dt _ G H) as R. cbn [lexical_value datatype_iri] in R.
  destruct T as [(-> & ->)|(T & D)].
  - now apply r_other.
  - apply r_other; auto using number_plain, number_text_iri. intros ->. destruct D as [-> | ->]; discriminate.
Qed.

(** ** Nulls *)
Lemma dec_digits_chars fuel : forall z acc, 0 <= z -> Forall (fun c => is_digit_char c = true) acc -> Forall (fun c => is_digit_char c = true) (dec_digits fuel z acc).
Proof.
  induction fuel as [|n IH]; intros z acc Hz Ha; cbn [dec_digits]; [exact Ha|]. destruct (Z.ltb_spec z 10).
  - constructor; [apply is_digit_ok; unfold digit_char; lia|exact Ha].
  - apply IH; [apply Z.div_pos; lia|]. constructor; [|exact Ha]. apply is_digit_ok. unfold digit_char. pose proof (Z.mod_pos_bound z 10 ltac:(lia)). lia.
Qed.
Lemma dec_digits_nonempty fuel : forall z acc, acc <> [] -> dec_digits fuel z acc <> [].
Proof. induction fuel as [|n IH]; intros z acc H; cbn [dec_digits]; [exact H|]. destruct (z <? 10); [discriminate|]. apply IH. discriminate. Qed.
Lemma read_null id r : 0 <= id -> delimited r -> read_value d (print_null id ++ r) = Some (VIri (int_to_string id) : dval F, r).
Proof.
  intros H D. unfold print_null. rewrite <- !app_comm_cons. unfold int_to_string. destruct (Z.ltb_spec id 0); [lia|].
  set (t := dec_digits (S (Z.to_nat (Z.log2 id))) id []). assert (A : Forall (fun c => is_digit_char c = true) t) by (apply dec_digits_chars; [exact H|constructor]).
  assert (N : t <> []) by (unfold t; cbn [dec_digits]; destruct (id <? 10); [discriminate|apply dec_digits_nonempty; discriminate]).
  clearbody t. destruct t as [|c t]; [congruence|]. unfold read_value, parse_basic. unfold alt at 1, parse_blank.
  replace (tag [95; 58] (95 :: 58 :: (c :: t) ++ r)) with (Some (tt, (c :: t) ++ r)) by reflexivity. cbn [bind]. unfold pmap, alt.
  assert (Na : name ((c :: t) ++ r) = None).
  { cbn [app name]. inversion A as [|? ? Ac _]; subst. apply is_digit_ok in Ac. destruct (is_alpha c) eqn:L; [|reflexivity]. apply is_alpha_ok in L. unfold letter, digit_char in *. lia. }
  rewrite Na. unfold digits, take_while1. rewrite (span_app _ (c :: t) r A); [reflexivity|].
  destruct r as [|x r]; [exact I|]. cbn in D. cbn. repeat (destruct D as [<-|D]; [reflexivity|]). destruct D.
Qed.
End P.
