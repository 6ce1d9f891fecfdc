(** C48: expressions are read with the usual precedence, for every text. *)
From Coq Require Import String List Arith Bool Ascii Lia.
From Verif Require Import ParseModel ParseSpec ParseProofs1 ParseProofs2 ParseProofs3 ParseProofs4 ParseProofs5 ParseProofs6.
Import ListNotations.
Local Open Scope list_scope.
Local Open Scope char_scope.

(** The functions of the program have names as required below. *)
Theorem C48_functions : function_names known_functions.
Proof. apply function_names_ok; vm_compute; reflexivity. Qed.
Print Assumptions C48_functions.

(** The classes of characters, one by one. *)
Theorem C48_characters c :
  (is_space c = true <-> In c [" "; "009"; "010"; "013"]) /\
  (is_alpha c = true <-> In c (list_ascii_of_string "abcdefghijklmnopqrstuvwxyzABCDEFGHIJKLMNOPQRSTUVWXYZ")) /\
  (is_digit c = true <-> In c (list_ascii_of_string "0123456789")) /\
  (is_name_rest c = true <-> is_alpha c = true \/ is_digit c = true \/ c = "_" \/ c = "%") /\
  (is_iri c = true <-> c <> ">" /\ c <> " " /\ c <> "010").
Proof.
  assert (K : forall (f : ascii -> bool) l, f c = existsb (Ascii.eqb c) l -> (f c = true <-> In c l)).
  { intros f l ->. rewrite existsb_exists. split; [intros (x & Hx & E); apply Ascii.eqb_eq in E; now subst|intros H; exists c; split; auto; apply Ascii.eqb_refl]. }
  split; [apply K; destruct c as [[] [] [] [] [] [] [] []]; reflexivity|]. split; [apply K; destruct c as [[] [] [] [] [] [] [] []]; reflexivity|]. split; [apply K; destruct c as [[] [] [] [] [] [] [] []]; reflexivity|].
  split.
  - unfold is_name_rest. rewrite !orb_true_iff, !Ascii.eqb_eq. tauto.
  - unfold is_iri. rewrite negb_true_iff, !orb_false_iff, !Ascii.eqb_neq. tauto.
Qed.
Print Assumptions C48_characters.
Theorem C48_lower_case :
  map lower (list_ascii_of_string "ABCDEFGHIJKLMNOPQRSTUVWXYZ") = list_ascii_of_string "abcdefghijklmnopqrstuvwxyz" /\
  forall c, ~ In c (list_ascii_of_string "ABCDEFGHIJKLMNOPQRSTUVWXYZ") -> lower c = c.
Proof. split; [reflexivity|]. intros c H. destruct c as [[] [] [] [] [] [] [] []]; try reflexivity; exfalso; apply H; vm_compute; tauto. Qed.
Print Assumptions C48_lower_case.

(** Every text that writes an expression is read as this expression, up to its end: products bind stronger than sums, and
    operators of the same strength group to the left. In the strict reading; what is missing are the texts of the three
    theorems [_refuted] below. *)
Theorem C48_expressions_are_read_partial ops e t rest :
  function_names ops -> writes ops true Expression e t -> follows rest ->
  exists a, parse_expression ops (t ++ rest) = Ok a rest /\ term_of a = e.
Proof. intros. now apply parse_expression_ok. Qed.
Print Assumptions C48_expressions_are_read_partial.

(** So a text has one reading. *)
Theorem C48_one_reading ops e e' t :
  function_names ops -> writes ops true Expression e t -> writes ops true Expression e' t -> e = e'.
Proof.
  intros Ho H H'. assert (F : follows []) by (split; [exact I|exists [], []; repeat split; apply b_nil]).
  destruct (parse_expression_ok ops Ho e t [] H F) as (a & E & <-). destruct (parse_expression_ok ops Ho e' t [] H' F) as (b & E' & <-). congruence.
Qed.
Print Assumptions C48_one_reading.

(** What is read is written there: the text in front of the rest writes the expression. *)
Theorem C48_what_is_read ops i a rest :
  function_names ops -> parse_expression ops i = Ok a rest ->
  exists t, i = t ++ rest /\ t <> [] /\ writes ops false Expression (term_of a) t.
Proof.
  intros Ho H. apply (parse_expression_sound ops Ho) in H. destruct H as (t & -> & Ht). exists t. repeat split; auto. eapply loose_nonempty; eauto.
Qed.
Print Assumptions C48_what_is_read.

(** For every text there is an answer: the depth of the recursion is limited by the length of the text. *)
Theorem C48_always_answers ops i : parse_expression ops i <> Fuel.
Proof. apply parse_expression_fuel. Qed.
Print Assumptions C48_always_answers.

(** Comparisons. *)
Theorem C48_comparisons_are_read_partial ops k e e' t rest :
  function_names ops -> writes_infix ops true k e e' t -> follows rest ->
  exists a b, parse_infix ops (t ++ rest) = Ok (k, a, b) rest /\ term_of a = e /\ term_of b = e'.
Proof. intros. now apply parse_infix_ok. Qed.
Print Assumptions C48_comparisons_are_read_partial.
Theorem C48_comparisons_what_is_read ops i k a b rest :
  function_names ops -> parse_infix ops i = Ok (k, a, b) rest ->
  exists t, i = t ++ rest /\ writes_infix ops false k (term_of a) (term_of b) t.
Proof. intros. now apply parse_infix_sound. Qed.
Print Assumptions C48_comparisons_what_is_read.
Theorem C48_comparisons_always_answer ops i : parse_infix ops i <> Fuel.
Proof. apply parse_infix_fuel. Qed.
Print Assumptions C48_comparisons_always_answer.

(** ** What is not read *)
Definition T (s : string) : text := list_ascii_of_string s.
Lemma one_digit c : is_digit c = true -> number_text (mkNum None [c] None None None) [c].
Proof. intros H. apply (nt None [c] None [] None [] None []); auto. split; [discriminate|]. intros d [<-|[]]; auto. Qed.
Lemma leaf_digit ops strict c : is_digit c = true -> writes ops strict Atomic (TLeaf (LNum (mkNum None [c] None None None))) [c].
Proof. intros H. apply w_leaf, lt_num. now apply one_digit. Qed.
Lemma gap_space strict : gap strict [" "].
Proof. split; [apply b_space; [reflexivity|apply b_nil]|]. intros _ H. discriminate. Qed.
Lemma gap_nil strict : gap strict [].
Proof. split; [apply b_nil|]. intros _ []. Qed.
Lemma blank_space : blank [" "].
Proof. apply b_space; [reflexivity|apply b_nil]. Qed.
Lemma follows_end : follows [].
Proof. split; [exact I|exists [], []; repeat split; apply b_nil]. Qed.
Definition num (c : ascii) : term := TLeaf (LNum (mkNum None [c] None None None)).
Definition var (n : string) : term := TLeaf (LVar Universal (T n)).

(** Two pairs of parentheses around an operand without operator: 1 + ((2)) *)
Theorem C48_double_parentheses_refuted :
  exists e t, writes known_functions false Expression e t /\ ~ exists a, parse_expression known_functions t = Ok a [] /\ term_of a = e.
Proof.
  exists (TBin Add (num "1") (num "2")), (T "1 + ((2))"). split.
  - apply w_expression; [|exact I]. apply (w_add _ _ Add (num "1") (T "1") (num "2") (T "((2))") (T " ") (T " ")); auto; [|apply gap_space|apply blank_space|].
    + now apply w_sum, w_product, w_factor, leaf_digit.
    + apply w_product. apply (w_parens_any _ _ (num "2") (T "(2)") [] []); auto; [|apply b_nil|apply gap_nil]. apply (w_expression_parens _ _ (num "2") (T "2") [] []); [|apply b_nil|apply gap_nil]. now apply w_expression_atomic, leaf_digit.
  - intros (a & H & _). vm_compute in H. discriminate.
Qed.
Print Assumptions C48_double_parentheses_refuted.
(** A constant that starts with "true" or "false": trueish *)
Theorem C48_constant_true_refuted :
  exists e t, writes known_functions false Expression e t /\ ~ exists a, parse_expression known_functions t = Ok a [] /\ term_of a = e.
Proof.
  exists (TLeaf (LName (T "trueish"))), (T "trueish"). split.
  - apply w_expression_atomic, w_leaf, lt_tag; [|discriminate]. apply tt_name. exists "t", (T "rueish"). repeat split. intros c H. repeat (destruct H as [<-|H]; [reflexivity|]). destruct H.
  - intros (a & H & _). vm_compute in H. discriminate.
Qed.
Print Assumptions C48_constant_true_refuted.
(** A comment right after a name is read as part of the name: ?x% c (new line) + 1 *)
Theorem C48_comment_after_name_refuted :
  exists e t, writes known_functions false Expression e t /\ ~ exists a, parse_expression known_functions t = Ok a [] /\ term_of a = e.
Proof.
  exists (TBin Add (var "x") (num "1")), (T "?x% c" ++ "010" :: T "+1"). split.
  - apply w_expression; [|exact I]. apply (w_add _ _ Add (var "x") (T "?x") (num "1") (T "1") (T "% c" ++ ["010"]) []); auto; [| |apply b_nil|now apply w_product, w_factor, leaf_digit].
    + apply w_sum, w_product, w_factor, w_leaf. apply lt_var. exists "x", []. repeat split. intros c [].
    + split; [|discriminate]. apply (b_line (T " c") [] ["010"]); auto; [|apply b_nil]. repeat split; [cbn; intuition discriminate|cbn; intuition discriminate|]. intros (d & E & _). discriminate.
  - intros (a & H & _). vm_compute in H. discriminate.
Qed.
Print Assumptions C48_comment_after_name_refuted.

(** ** The hypotheses are met *)
(** 8 - 2 - 3 * Sum(?x, 4) is (8 - 2) - (3 * sum(?x, 4)) *)
Definition sample_term : term := TBin Sub (TBin Sub (num "8") (num "2")) (TBin Mul (num "3") (TCall true (LName (T "sum")) [var "x"; num "4"])).
Example sample_writes : writes known_functions true Expression sample_term (T "8 - 2 - 3 * Sum(?x, 4)").
Proof.
  apply w_expression; [|exact I].
  apply (w_add _ _ Sub (TBin Sub (num "8") (num "2")) (T "8 - 2") _ (T "3 * Sum(?x, 4)") (T " ") (T " ")); auto; [|apply gap_space|apply blank_space|].
  - apply (w_add _ _ Sub (num "8") (T "8") (num "2") (T "2") (T " ") (T " ")); auto; [now apply w_sum, w_product, w_factor, leaf_digit|apply gap_space|apply blank_space|now apply w_product, w_factor, leaf_digit].
  - apply (w_mul _ _ Mul (num "3") (T "3") _ (T "Sum(?x, 4)") (T " ") (T " ")); auto; [now apply w_product, w_factor, leaf_digit|apply gap_space|apply blank_space|]. apply w_factor.
    apply (w_known _ _ (T "sum") (T "Sum") [var "x"; num "4"] (T "?x, 4") []); auto; [vm_compute; tauto|apply b_nil|].
    apply (wk_list _ _ [var "x"; num "4"] (T "?x, 4") []); [|apply gap_nil]. apply (wl_cons _ _ (var "x") (T "?x") [num "4"] (T "4") [] (T " ")); [|apply gap_nil|apply blank_space|].
    + apply w_expression_atomic, w_leaf, lt_var. exists "x", []. repeat split. intros c [].
    + now apply wl_one, w_expression_atomic, leaf_digit.
Qed.
Example sample_follows : follows (T " .").
Proof. split; [cbn; repeat split; intuition discriminate|]. exists (T " "), (T "."). split; auto. split; [apply blank_space|]. cbn. intuition discriminate. Qed.
Example sample_read : exists a, parse_expression known_functions (T "8 - 2 - 3 * Sum(?x, 4) .") = Ok a (T " .") /\ term_of a = sample_term.
Proof. eexists. split; vm_compute; reflexivity. Qed.
Example sample_infix : writes_infix known_functions true IGe sample_term (num "7") (T "8 - 2 - 3 * Sum(?x, 4) >= 7").
Proof. exists (T "8 - 2 - 3 * Sum(?x, 4)"), (T " "), (T " "), (T "7"). split; [apply sample_writes|]. split; [apply gap_space|]. split; [apply blank_space|]. split; [now apply w_expression_atomic, leaf_digit|reflexivity]. Qed.
(** other texts *)
Example read_left : option_map term_of (match parse_expression known_functions (T "1-2-3") with Ok a _ => Some a | _ => None end) =
  Some (TBin Sub (TBin Sub (num "1") (num "2")) (num "3")).
Proof. vm_compute. reflexivity. Qed.
Example read_tuple : option_map term_of (match parse_expression known_functions (T "(1, f(a),)") with Ok a _ => Some a | _ => None end) =
  Some (TTuple [num "1"; TCall false (LName (T "f")) [TLeaf (LName (T "a"))]]).
Proof. vm_compute. reflexivity. Qed.
