(** C58: a format string stands for the concatenation of its characters and of the texts of its terms. *)
From Coq Require Import String List Arith Bool Ascii Lia ZArith.
From Verif Require Import LexModel TextModel CastModel ParseModel ParseSpec ParseProofs1 ParseProofs5 ParseProofs6 FstringModel FstringSpec FstringProofs ParseProps.
Import ListNotations.
Local Open Scope list_scope.
Local Open Scope nat_scope.
Local Open Scope char_scope.

(** Every text of a format string is read up to its end, with the content that is written. In the strict reading of C48;
    what is missing are the terms of the [_refuted] theorems of C48, and the empty short form in front of a quotation mark. *)
Theorem C58_format_strings_are_read_partial ops l t rest :
  function_names ops -> writes_fstring ops true l t -> ~ (t = ["f"; """"; """"] /\ starts (fun c => c = """") rest) ->
  exists els, parse_fstring ops (t ++ rest) = Ok els rest /\ content els = l.
Proof. intros. now apply parse_fstring_ok. Qed.
Print Assumptions C58_format_strings_are_read_partial.

(** So a text has one content. *)
Theorem C58_one_content ops l l' t :
  function_names ops -> writes_fstring ops true l t -> writes_fstring ops true l' t -> l = l'.
Proof.
  intros Ho H H'. assert (N : ~ (t = ["f"; """"; """"] /\ starts (fun c => c = """") [])) by (intros (_ & [])).
  destruct (parse_fstring_ok ops Ho l t [] H N) as (a & E & <-). destruct (parse_fstring_ok ops Ho l' t [] H' N) as (b & E' & <-). congruence.
Qed.
Print Assumptions C58_one_content.

(** What is read is written there. *)
Theorem C58_what_is_read ops i els rest :
  function_names ops -> parse_fstring ops i = Ok els rest -> exists t, i = t ++ rest /\ writes_fstring ops false (content els) t.
Proof. intros. now apply parse_fstring_sound. Qed.
Print Assumptions C58_what_is_read.

Theorem C58_always_answers ops i : parse_fstring ops i <> Fuel.
Proof. apply parse_fstring_fuel. Qed.
Print Assumptions C58_always_answers.

(** Its value is a plain string: its characters, and the texts of the values of the terms. It has no value if a term has
    none, and the evaluation does not fail in another way. *)
Theorem C58_value F (eval : expr -> fres (dval F)) (value_of : term -> option (dval F)) ops i els rest :
  function_names ops -> (forall e, eval e = match value_of (term_of e) with Some v => Value v | None => Undefined end) ->
  parse_fstring ops i = Ok els rest ->
  exists t l, i = t ++ rest /\ writes_fstring ops false l t /\
    fstring_value F eval els = match denotes value_of l with Some s => Value (VString s) | None => Undefined end.
Proof.
  intros Ho He H. destruct (parse_fstring_sound ops Ho _ _ _ H) as (t & -> & Hw). exists t, (content els). repeat split; auto. now apply fstring_value_ok.
Qed.
Print Assumptions C58_value.

(** Every string of ASCII without quotation marks is written with doubled braces. *)
Theorem C58_doubled_braces F (eval : expr -> fres (dval F)) ops s rest :
  function_names ops -> ~ In """" s -> ~ (s = [] /\ starts (fun c => c = """") rest) ->
  exists els, parse_fstring ops ("f" :: """" :: doubled s ++ """" :: rest) = Ok els rest /\
    fstring_value F eval els = Value (VString (map (fun c => Z.of_nat (nat_of_ascii c)) s)).
Proof.
  intros Ho Hs Hr. destruct (parse_fstring_ok ops Ho (map IChar s) ("f" :: """" :: doubled s ++ [""""]) rest) as (els & E & C).
  - constructor. now apply doubled_writes.
  - intros (E & H). apply Hr. split; auto. now apply doubled_nil.
  - exists els. split; [replace ("f" :: """" :: doubled s ++ """" :: rest) with (("f" :: """" :: doubled s ++ [""""]) ++ rest) by (cbn [app]; now rewrite <- app_assoc); exact E|]. now apply chars_value.
Qed.
Print Assumptions C58_doubled_braces.

(** ** What does not hold *)

(** White space is not allowed between the braces and the expression (it is everywhere else): f"{ ?x}". *)
Theorem C58_space_in_braces_refuted :
  exists w w' e s, blank w /\ blank w' /\ writes known_functions true Expression e s /\
    ~ exists els, parse_fstring known_functions ("f" :: """" :: "{" :: w ++ s ++ w' ++ ["}"; """"]) = Ok els [].
Proof.
  exists (T " "), [], (var "x"), (T "?x"). split; [apply blank_space|]. split; [apply b_nil|]. split.
  - apply w_expression_atomic, w_leaf, lt_var. exists "x", []. repeat split. intros c [].
  - intros (els & H). vm_compute in H. discriminate.
Qed.
Print Assumptions C58_space_in_braces_refuted.

(** Not every string is the content of a format string: none ends with a quotation mark, in neither form. *)
Theorem C58_every_content_refuted ops : function_names ops ->
  exists s, forall t els, parse_fstring ops t = Ok els [] -> content els <> map IChar s.
Proof.
  intros Ho. exists (T "say """). intros t els H C. apply (parse_fstring_sound ops Ho) in H. destruct H as (t' & _ & Hw). rewrite C in Hw. destruct (no_final_quote ops false _ _ Hw (map IChar (T "say ")) eq_refl).
Qed.
Print Assumptions C58_every_content_refuted.

(** A long format string without an end is read as an empty short one, and a rest that starts with a quotation mark. *)
Theorem C58_no_end_refuted :
  exists t rest, parse_fstring known_functions (T "f""""""abc") = Ok [] rest /\ T "f""""""abc" = t ++ rest /\ starts (fun c => c = """") rest.
Proof. exists (T "f"""""), (T """abc"). vm_compute. repeat split. Qed.
Print Assumptions C58_no_end_refuted.

(** ** The hypotheses are met *)
(** f"{{a}} = {?x}!" *)
Definition sample_items : list item := map IChar (T "{a} = ") ++ [ITerm (var "x"); IChar "!"].
Definition sample_text : list ascii := T "f""{{a}} = {?x}!""".
Example sample_var : writes known_functions true Expression (var "x") (T "?x").
Proof. apply w_expression_atomic, w_leaf, lt_var. exists "x", []. repeat split. intros c []. Qed.
Example sample_single : writes_fstring known_functions true sample_items sample_text.
Proof.
  apply (wf_single _ _ sample_items (T "{{a}} = {?x}!")). unfold sample_items, T. cbn.
  apply wi_open. apply wi_char; try discriminate; [intros (x & E); discriminate|]. apply wi_close.
  do 3 (apply wi_char; try discriminate; [intros (x & E); discriminate|]).
  apply (wi_term _ _ _ (var "x") (T "?x")); [exact sample_var|]. apply wi_char; try discriminate; [intros (x & E); discriminate|]. constructor.
Qed.
Example sample_read_fstring : exists els, parse_fstring known_functions (sample_text ++ T " .") = Ok els (T " .") /\ content els = sample_items.
Proof. apply C58_format_strings_are_read_partial; [exact C48_functions|exact sample_single|intros (E & _); vm_compute in E; discriminate]. Qed.
(** quotation marks in the long form *)
Example sample_multi : exists els, parse_fstring known_functions (T "f""""""a""b""""c{?x}""{?x}""""""") = Ok els [] /\
  content els = map IChar (T "a""b""""c") ++ [ITerm (var "x"); IChar """"; ITerm (var "x")].
Proof. eexists. split; vm_compute; reflexivity. Qed.
(** the value, for ?x = "1"@en *)
Example sample_value F : denotes (fun _ => Some (VLang (F := F) [49%Z] [101%Z; 110%Z])) sample_items = Some (map code (T "{a} = 1!")).
Proof. reflexivity. Qed.
Example sample_no_value F : denotes (F := F) (fun _ => None) sample_items = None.
Proof. reflexivity. Qed.
Example sample_doubled : doubled (T "{a}b") = T "{{a}}b".
Proof. reflexivity. Qed.
