(* Specification of the functions on strings. *)
From Coq Require Import List ZArith Bool.
From Verif Require Import LexModel TextModel.
Import ListNotations.
Open Scope Z_scope.
Open Scope list_scope.

(* The strings are cut into non-empty characters. *)
Definition segmentation (graphemes : str -> list str) : Prop :=
  (forall s, concat (graphemes s) = s) /\ forall s g, In g (graphemes s) -> g <> [].

Section Values.
Context {F : float_ops}.
(* the string s, with the language tag t or without one; values have tags in lower case *)
Definition is_text (v : dval F) (s : str) (t : option str) : Prop :=
  match t with None => v = VString s | Some l => v = VLang s l /\ map ascii_lower l = l end.
(* what new_language_tagged_string guarantees: tags are in lower case *)
Definition normal (v : dval F) : Prop := forall s l, v = VLang s l -> map ascii_lower l = l.
(* the result of a function is this string *)
Definition returns (r : fres (dval F)) (s : str) (t : option str) : Prop := exists v, r = Value v /\ is_text v s t.
(* SPARQL 1.1, 17.4.3.1.2: argument compatibility *)
Definition compatible (t u : option str) : Prop := u = None \/ u = t.
(* two strings with compatible tags *)
Definition compatible_texts (v w : dval F) : Prop := exists s t s' u, is_text v s t /\ is_text w s' u /\ compatible t u.
(* the integer z *)
Definition is_int (v : dval F) (z : Z) : Prop := i64_lo <= z <= i64_hi /\ (v = VLong z \/ v = VULong z).
End Values.

(* The characters at the positions (from p on) that satisfy P. *)
Fixpoint at_positions (P : Z -> bool) (p : Z) (l : list str) : list str :=
  match l with
  | [] => []
  | g :: l' => if P p then g :: at_positions P (p + 1) l' else at_positions P (p + 1) l'
  end.

(* Strings all of whose characters are single code points. *)
Definition simple (graphemes : str -> list str) (s : str) : Prop := graphemes s = map (fun c => [c]) s.

(* Unicode scalar values *)
Definition scalar (c : Z) : Prop := 0 <= c < 1114112 /\ ~ (55296 <= c < 57344).

(* The compiled expressions in the cache belong to their patterns, are all different, and are not too many. *)
Section Caches.
Context {R : Type}.
Variable compile : str -> option R.
Variable is_match : R -> str -> bool.
Context {F : float_ops}.
(* the answers to a sequence of calls, starting with an empty cache *)
Fixpoint answers (c : cache) (calls : list (dval F * dval F)) : list (fres (dval F)) :=
  match calls with
  | [] => []
  | (v, w) :: calls' => let (c, r) := string_regex compile is_match c v w in r :: answers c calls'
  end.
End Caches.

(* A segmentation: only a carriage return and a following line feed form one character (rule GB3 of Unicode Standard
   Annex 29; in ASCII strings there are no others). *)
Fixpoint crlf (s : str) : list str :=
  match s with
  | [] => []
  | c :: r =>
      match r with
      | d :: s' => if (c =? 13) && (d =? 10) then [13; 10] :: crlf s' else [c] :: crlf r
      | [] => [[c]]
      end
  end.
