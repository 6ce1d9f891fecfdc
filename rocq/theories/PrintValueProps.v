(** C57: printed constants can be read back. *)
From Coq Require Import ZArith Bool String Lia List.
From Verif Require Import LexModel LexSpec PrintValueModel PrintValueSpec PrintValueProofs1 PrintValueProofs2 PrintValueProofs3 PrintValueProofs4.
Import ListNotations.
Open Scope Z_scope.
Open Scope list_scope.

(** A printed constant, followed by the end of the text or by one of the characters that can follow a constant, is read as
    the same constant, up to that character, exactly if it is readable. *)
Theorem C57_round_trip : forall (F : float_ops) (d : declared) (v : dval F) t r, not_number v -> print_value v = Some t -> delimited r ->
  (read_value d (t ++ r) = Some (v, r) <-> readable (match base d with Some b => b | None => [] end) v).
Proof. intros F d v t r. apply read_printed. Qed.
Print Assumptions C57_round_trip.

(** So different readable constants have different texts. *)
Theorem C57_different_texts : forall (F : float_ops) (v w : dval F), not_number v -> not_number w ->
  readable [] v -> readable [] w -> print_value v = print_value w -> v = w.
Proof.
  intros F v w Nv Nw Rv Rw E. set (d := mkDecl None []).
  assert (P : exists t, print_value v = Some t) by (destruct v; cbn in Nv; try contradiction; cbn [print_value]; eauto). destruct P as (t & P).
  pose proof (proj2 (C57_round_trip F d v t [] Nv P I) Rv) as A. rewrite P in E.
  pose proof (proj2 (C57_round_trip F d w t [] Nw (eq_sym E) I) Rw) as B. congruence.
Qed.
Print Assumptions C57_different_texts.

(** What is read from a printed string in general: a string without quotation marks is read as the string with the escapes in
    it, so as itself exactly if nothing is escaped; the text of a string with a quotation mark is not a constant. *)
Theorem C57_strings : forall (F : float_ops) (d : declared) s,
  (~ In 34 s -> forall r, delimited r -> exists e, escaped s e /\ (e = s <-> plain s) /\
     read_value d (quote_string s ++ r) = Some (VString e : dval F, r)) /\
  (In 34 s -> forall v : dval F, read_value d (quote_string s) <> Some (v, [])).
Proof.
  intros F d s. split.
  - intros N r D. destruct (read_no_quote (F := F) d s r N D) as (e & X & R). exists e. split; [exact X|]. split; [now apply escaped_plain|exact R].
  - intros I v. now apply read_with_quote.
Qed.
Print Assumptions C57_strings.

(** The text of a string is the string with the four characters escaped, between quotation marks; this is injective. *)
Theorem C57_escaping : forall s, (exists e, escaped s e /\ quote_string s = 34 :: e ++ [34]) /\
  (forall e, escaped s e -> e = escape s) /\ forall t, quote_string s = quote_string t -> s = t.
Proof.
  assert (U : forall s e, escaped s e -> e = escape s).
  { assert (G : forall s e e', escaped s e -> escaped s e' -> e = e').
    { intros s e e' H. revert e'. induction H as [|c s t P H IH|s t H IH|s t H IH|s t H IH|s t H IH]; intros e' H'; inversion H'; subst;
        try (match goal with Q : plain_char _ |- _ => destruct Q as (? & ? & ? & ?); congruence end); try reflexivity; f_equal; auto; f_equal; auto. }
    intros s e H. eapply G; [exact H|apply escape_ok]. }
  assert (V : forall s t e, escaped s e -> escaped t e -> s = t).
  { intros s t e H. revert t. induction H as [|c s u P H IH|s u H IH|s u H IH|s u H IH|s u H IH]; intros t' H'; inversion H'; subst;
      try (match goal with Q : plain_char _ |- _ => destruct Q as (? & ? & ? & ?); congruence end); try reflexivity; f_equal; auto. }
  intros s. split; [exists (escape s); split; [apply escape_ok|reflexivity]|]. split; [apply U|].
  intros t E. unfold quote_string in E. injection E as E. apply app_inv_tail in E. eapply V; [apply escape_ok|rewrite E; apply escape_ok].
Qed.
Print Assumptions C57_escaping.

(** Literals of other datatypes that were read (from a program or a file) without characters to escape: the constant that they
    stand for is printed as a literal that is read as this constant. *)
Theorem C57_literals : forall (F : float_ops) (d : declared) s dt lex dt' r, good_floats F ->
  plain s -> s <> [] -> iri_text dt -> dt' <> xsd "integer" -> delimited r ->
  new_from_typed_literal s dt = POk (VOther lex dt' : dval F) ->
  read_value d ((quote_string lex ++ datatype_indicator ++ quote_iri dt') ++ r) = Some (VOther lex dt' : dval F, r).
Proof.
  intros F d s dt lex dt' r G P N I Ni D H. apply (C57_round_trip F d (VOther lex dt')); auto.
  - cbn [print_value]. destruct (str_eqb dt' (xsd "integer")) eqn:E; [apply str_eqb_ok in E; contradiction|reflexivity].
  - eapply written_readable; eauto.
Qed.
Print Assumptions C57_literals.

(** ** What is not read back *)
Section Refuted.
Context (F : float_ops).
Definition plain_program : declared := mkDecl None [].
Definition read (t : str) : option (dval F * str) := read_value plain_program t.

(** The string a\b is read with two backslashes, a new line as a backslash and the letter n; what follows a quotation mark is
    left over. *)
Theorem C57_escapes_refuted : exists t u w : str,
  print_value (VString [97; 92; 98] : dval F) = Some t /\ read t = Some (VString [97; 92; 92; 98], []) /\
  print_value (VString [10] : dval F) = Some u /\ read u = Some (VString (92 :: lit "n"), []) /\
  print_value (VString [97; 34; 98] : dval F) = Some w /\ read w = Some (VString [97; 92], [98; 34]).
Proof. do 3 eexists. repeat split. Qed.
(** The language tag en-us is read up to the minus sign. *)
Theorem C57_language_refuted : exists t, print_value (new_lang_string (lit "a") (lit "en-US") : dval F) = Some t /\
  read t = Some (new_lang_string (lit "a") (lit "en"), lit "-us").
Proof. eexists. split; reflexivity. Qed.
(** Literals with the empty lexical form are read as the empty string, and their datatype is left over. *)
Theorem C57_empty_literal_refuted : exists t rest (v : dval F), new_from_typed_literal [] (lit "http://e.org/t") = POk v /\ print_value v = Some t /\
  read t = Some (VString [], rest) /\ rest = lit "^^<http://e.org/t>".
Proof. do 3 eexists. split; [reflexivity|]. split; [reflexivity|]. split; reflexivity. Qed.
(** With a base, the constant a is printed as a name, which is read with the base before it. *)
Theorem C57_base_refuted : forall b n, simple_name n -> ~ begins (lit "true") n -> ~ begins (lit "false") n -> b <> [] ->
  print_value (VIri n : dval F) = Some n /\ read_value (mkDecl (Some b) []) n = Some (VIri (b ++ n) : dval F, []) /\ b ++ n <> n.
Proof.
  intros b n S T1 T2 N. pose proof (name_read n [] (simple_tag n S) I) as R. rewrite app_nil_r in R. destruct S as (c & s & -> & L & A).
  split; [|split].
  - cbn [print_value]. assert (P : is_name (c :: s) = true); [|now rewrite P]. apply is_name_ok. right. exists c, s. repeat split; auto. eapply Forall_impl; [|exact A]. cbn. tauto.
  - unfold read_value. rewrite (parse_letter c s L). rewrite (proj2 (boolean_none (c :: s)) (conj T1 T2)).
    rewrite R. reflexivity.
  - intros E. apply (f_equal (@List.length Z)) in E. rewrite app_length in E. destruct b; [congruence|cbn in E; lia].
Qed.
(** Nulls are printed as blank nodes, and blank nodes are read as constants: every null as the constant with its number, which
    can also be written without the prefix. *)
Theorem C57_null_refuted : forall id d r, 0 <= id -> delimited r ->
  read_value d (print_null id ++ r) = Some (VIri (int_to_string id) : dval F, r) /\ read (lit "_:5") = read (lit "<5>").
Proof. intros id d r H D. split; [now apply read_null|reflexivity]. Qed.
Theorem C57_blank_refuted : read (lit "_:a") = Some (VIri (lit "a"), []) /\ read (lit "a") = Some (VIri (lit "a"), []).
Proof. split; reflexivity. Qed.
End Refuted.
Print Assumptions C57_escapes_refuted.
Print Assumptions C57_language_refuted.
Print Assumptions C57_empty_literal_refuted.
Print Assumptions C57_base_refuted.
Print Assumptions C57_null_refuted.
Print Assumptions C57_blank_refuted.

(** ** The hypotheses are met *)
Lemma plain_b s : forallb (fun c => negb ((c =? 34) || (c =? 92) || (c =? 13) || (c =? 10))) s = true -> plain s.
Proof.
  intros H. apply Forall_forall. intros c I. rewrite forallb_forall in H. apply H in I. rewrite negb_true_iff, !orb_false_iff, !Z.eqb_neq in I. unfold plain_char. tauto.
Qed.
Lemma iri_b t : t <> [] -> forallb is_iri_char t = true -> iri_text t.
Proof. intros N H. split; [exact N|]. apply Forall_forall. intros c I. rewrite forallb_forall in H. now apply is_iri_char_ok, H. Qed.
Lemma simple_b c s : is_alpha c = true -> forallb (fun x => is_alpha x || is_digit_char x || (x =? 95)) s = true -> simple_name (c :: s).
Proof.
  intros L H. exists c, s. split; [reflexivity|]. split; [now apply is_alpha_ok|]. apply Forall_forall. intros x I. rewrite forallb_forall in H. apply H in I.
  rewrite !orb_true_iff, is_alpha_ok, is_digit_ok, Z.eqb_eq in I. tauto.
Qed.
Example value_case (F : float_ops) :
  (* "été 12", with two letters that are not ASCII *)
  readable [] (VString [233; 116; 233; 32; 49; 50] : dval F) /\ readable [] (new_lang_string (lit "a b") (lit "EN") : dval F) /\
  readable [] (VIri (lit "a_1") : dval F) /\ readable [] (VIri (lit "http://e.org/a-b") : dval F) /\
  readable [] (VOther (lit "0FB7") (xsd "hexBinary") : dval F) /\ readable [] (VOther (lit "1.5") (xsd "decimal") : dval F) /\
  ~ readable [] (VIri (lit "a-b") : dval F) /\ ~ readable [] (VIri (lit "true") : dval F).
Proof.
  split; [|split; [|split; [|split; [|split; [|split; [|split]]]]]].
  - apply r_string. now apply plain_b.
  - apply r_lang; [now apply plain_b|apply simple_tag; now apply simple_b|]. now apply lower_same.
  - apply r_name; [reflexivity|now apply simple_b| |]; intros (r & E); discriminate.
  - apply r_iri; [rewrite <- is_name_ok; discriminate|]. apply iri_b; [discriminate|reflexivity].
  - apply r_other; [now apply plain_b|discriminate|apply iri_b; [discriminate|reflexivity]|reflexivity].
  - apply r_other; [now apply plain_b|discriminate|apply iri_b; [discriminate|reflexivity]|reflexivity].
  - intros H. inversion H; subst.
    + match goal with S : simple_name _ |- _ => destruct S as (c & s & E & _ & A) end. injection E as <- <-. rewrite Forall_forall in A. specialize (A 45 ltac:(cbn; tauto)). unfold letter, digit_char in A. lia.
    + match goal with N : ~ printed_name _ |- _ => apply N end. apply is_name_ok. reflexivity.
  - intros H. inversion H; subst.
    + match goal with T : ~ begins (lit "true") _ |- _ => apply T end. exists []. reflexivity.
    + match goal with N : ~ printed_name _ |- _ => apply N end. apply is_name_ok. reflexivity.
Qed.
Example read_case (F : float_ops) : exists t, print_value (VOther (lit "1.50") (lit "http://e.org/t") : dval F) = Some t /\
  t = 34 :: lit "1.50" ++ 34 :: lit "^^<http://e.org/t>" /\ read_value (mkDecl (Some (lit "b")) []) (t ++ lit ", ?x)") = Some (VOther (lit "1.50") (lit "http://e.org/t") : dval F, lit ", ?x)").
Proof. eexists. split; [reflexivity|]. split; reflexivity. Qed.
(** A prefixed datatype, and a literal that is stored in another form *)
Example prefix_case (F : float_ops) : read_value (mkDecl None [(lit "xsd", xsd_prefix)]) (34 :: lit "01.50" ++ 34 :: lit "^^xsd:decimal.") = Some (VOther (lit "1.5") (xsd "decimal") : dval F, lit ".").
Proof. reflexivity. Qed.
Example triple_case (F : float_ops) : read F ([34; 34; 34; 34; 10; 34; 34; 34] ++ lit "@en") = Some (VLang [34; 10] (lit "en"), []).
Proof. reflexivity. Qed.
