(** C49: number literals denote their value. *)
From Coq Require Import String List Arith ZArith QArith Bool Ascii Lia.
From Verif Require Import ParseModel ParseSpec ParseProofs1 NumLitModel NumLitSpec NumLitProofs.
Import ListNotations.
Local Open Scope Z_scope.
Local Open Scope list_scope.

(** Integers of 64 bits have exactly their value, from the text on. *)
Theorem C49_integers n t rest z : number_text n t -> separated rest -> plain n -> numeral 10 (nu_int n) z -> fits_i64 (signed (negative n) z) ->
  parse_number (t ++ rest) = Ok n rest /\ literal n = Some (DInteger (signed (negative n) z)).
Proof. intros Ht Hr Hp Hz Hf. split; [now apply number_ok|]. apply literal_integer; auto. now apply number_text_wf in Ht. Qed.
Print Assumptions C49_integers.

(** All other decimals are floating point numbers: the nearest one to the value of the text, if there is one. The marker f
    selects the small type. [None]: the program stops with an error of its own (a panic). *)
Theorem C49_decimals n t q : number_text n t -> absolute_value n q ->
  (plain n -> forall z, numeral 10 (nu_int n) z -> ~ fits_i64 (signed (negative n) z)) ->
  exists q', (q' == q)%Q /\ literal n =
    match nu_mark n with
    | Some false => if Qle_bool (inject_Z (2 ^ 128 - 2 ^ 103)) q' then None else Some (DFloat (Nearest (negative n) q'))
    | _ => if Qle_bool (inject_Z (2 ^ 1024 - 2 ^ 970)) q' then None else Some (DDouble (Nearest (negative n) q'))
    end.
Proof.
  intros Ht Hq Hi. pose proof (number_text_wf n t Ht) as Hw. exists (decimal n). split; [now apply decimal_value|].
  assert (E : i64_from_str_radix 10 (number_string n) = None).
  { destruct (nu_frac n) eqn:Ef; [apply not_plain_i64; auto; intros (A & _); congruence|]. destruct (nu_exp n) eqn:Ee; [apply not_plain_i64; auto; intros (_ & A); congruence|].
    destruct (numeral_exists (nu_int n) (proj2 (proj1 Hw))) as (z & Hz). rewrite (plain_i64 n z) by (auto; split; auto). specialize (Hi (conj Ef Ee) z Hz). unfold checked. destruct (in_i64 _) eqn:E; auto. apply in_i64_iff in E. tauto. }
  rewrite (literal_floating n Hw E). unfold floating, overflow32, overflow64. destruct (nu_mark n) as [[]|]; reflexivity.
Qed.
Print Assumptions C49_decimals.
(** every literal has a value in this sense *)
Theorem C49_every_literal n t : number_text n t -> exists q, absolute_value n q.
Proof.
  intros Ht. apply number_text_wf in Ht. destruct Ht as ((_ & Hd) & Hf & He). destruct (numeral_exists _ Hd) as (i & Hi).
  assert (F : exists f, match nu_frac n with Some t => numeral 10 t f | None => f = 0 end) by (destruct (nu_frac n); [apply numeral_exists, Hf|eauto]). destruct F as (f & F).
  assert (G : exists e, match nu_exp n with Some (s, t) => exists x, numeral 10 t x /\ e = signed (match s with Some b => b | None => false end) x | None => e = 0 end).
  { destruct (nu_exp n) as [[s x]|]; [|eauto]. destruct (numeral_exists x (proj2 He)) as (y & Hy). eauto. }
  destruct G as (e & G). eexists. exists i, f, e. split; [exact Hi|]. split; [exact F|]. split; [exact G|]. reflexivity.
Qed.
Print Assumptions C49_every_literal.

(** Encoded numbers: the text has the value of its digits in the base, without limit. *)
Definition base_prefix (e : encoding) : text := match e with Binary => ["0"; "b"]%char | Octal => ["0"; "o"]%char | Hexadecimal => ["0"; "x"]%char end.
Theorem C49_encoded e d z rest : d <> [] -> numeral (match e with Binary => 2 | Octal => 8 | Hexadecimal => 16 end) d z -> separated rest ->
  parse_encoded (base_prefix e ++ d ++ rest) = Ok (e, d) rest /\
  (fits_i64 z -> encoded_literal e d = DInteger z) /\ (~ fits_i64 z -> encoded_literal e d = DBig z).
Proof.
  change (match e with Binary => 2 | Octal => 8 | Hexadecimal => 16 end) with (radix e). intros Hn Hz Hr.
  split; [|rewrite (encoded_ok e d z Hn Hz), <- in_i64_iff; destruct (in_i64 z); split; intros; congruence].
  assert (S : forall f, (forall c, f c = true -> is_name_rest c = true) -> ~ starts (fun c => f c = true) rest).
  { intros f Hf. apply separated_rest in Hr. destruct rest as [|c r]; auto. cbn in *. intros K. apply Hr. auto. }
  assert (D : forall c, In c d -> exists x, digit_of c x /\ x < radix e). { clear Hn. induction Hz as [|t z c x H IH Hd Hl]; intros y Hy; [destruct Hy|]. apply in_app_or in Hy. destruct Hy as [Hy|[<-|[]]]; eauto. }
  assert (C : forall c x, digit_of c x -> (x < 2 -> ((c =? "0") || (c =? "1"))%char = true) /\ (x < 8 -> between "0" "7" c = true) /\ (x < 16 -> between "0" "9" c || between "a" "f" c || between "A" "F" c = true)).
  { intros c x (H0 & H). assert (K : x < 16 \/ 16 <= x) by lia. destruct K as [K|K]; [|repeat split; lia].
    assert (L : x = 0 \/ x = 1 \/ x = 2 \/ x = 3 \/ x = 4 \/ x = 5 \/ x = 6 \/ x = 7 \/ x = 8 \/ x = 9 \/ x = 10 \/ x = 11 \/ x = 12 \/ x = 13 \/ x = 14 \/ x = 15) by lia.
    repeat (destruct L as [-> | L]; [destruct H as [H|H]; vm_compute in H; injection H as <-; repeat split; try reflexivity; lia|]). subst. destruct H as [H|H]; vm_compute in H; injection H as <-; repeat split; try reflexivity; lia. }
  destruct e; unfold parse_encoded, base_prefix.
  - unfold alt. rewrite tag_ok. cbn [bind]. rewrite take_ok; [reflexivity|auto| |].
    + intros c Hc. destruct (D c Hc) as (x & Hx & Hl). now apply (C c x Hx).
    + apply S. intros c H. destruct c as [[] [] [] [] [] [] [] []]; try discriminate H; reflexivity.
  - unfold alt at 1. cbn [app]. rewrite tag_err by (intros (s & E); discriminate). cbn [bind]. unfold alt. change ("0"%char :: "o"%char :: d ++ rest) with (["0"; "o"]%char ++ d ++ rest). rewrite tag_ok. cbn [bind]. rewrite take_ok; [reflexivity|auto| |].
    + intros c Hc. destruct (D c Hc) as (x & Hx & Hl). now apply (C c x Hx).
    + apply S. intros c H. destruct c as [[] [] [] [] [] [] [] []]; try discriminate H; reflexivity.
  - unfold alt at 1. cbn [app]. rewrite tag_err by (intros (s & E); discriminate). cbn [bind]. unfold alt. rewrite tag_err by (intros (s & E); discriminate). cbn [bind]. change ("0"%char :: "x"%char :: d ++ rest) with (["0"; "x"]%char ++ d ++ rest). rewrite tag_ok. cbn [bind]. rewrite take_ok; [reflexivity|auto| |].
    + intros c Hc. destruct (D c Hc) as (x & Hx & Hl). now apply (C c x Hx).
    + apply S. intros c H. destruct c as [[] [] [] [] [] [] [] []]; try discriminate H; reflexivity.
Qed.
Print Assumptions C49_encoded.

(** ** What goes wrong *)
Definition T (s : string) : text := list_ascii_of_string s.
Definition read_literal (s : string) : option data := match parse_number (T s) with Ok n [] => literal n | _ => None end.
(** A decimal beyond the range stops the program: 1e400 *)
Theorem C49_overflow_panics_refuted : exists n t, number_text n t /\ literal n = None.
Proof.
  exists (mkNum None (T "1") None (Some (None, T "400")) None), (T "1e400"). split; [|vm_compute; reflexivity].
  assert (D : forall s, forallb is_digit (T s) = true -> T s <> [] -> digits_text (T s)). { intros s H K. split; auto. intros c Hc. rewrite forallb_forall in H. now apply H. }
  apply (nt None (T "1") None [] (Some (None, T "400")) (T "e400") None []); auto; [apply D; [reflexivity|discriminate]|]. split; [apply D; [reflexivity|discriminate]|]. exists "e"%char. auto.
Qed.
Print Assumptions C49_overflow_panics_refuted.
(** The type marker of an integer text is ignored: 2d is an integer, 2.0d is not. *)
Theorem C49_marker_refuted : read_literal "2d" = Some (DInteger 2) /\ exists f, read_literal "2.0d" = Some (DDouble f).
Proof. split; [vm_compute; reflexivity|eexists; vm_compute; reflexivity]. Qed.
Print Assumptions C49_marker_refuted.
(** Integer literals larger than 64 bits are no integers, but encoded ones are: the same number has two values. *)
Theorem C49_large_integers_refuted : exists z f,
  numeral 10 (T "9223372036854775808") z /\ numeral 16 (T "8000000000000000") z /\
  read_literal "9223372036854775808" = Some (DDouble f) /\ encoded_literal Hexadecimal (T "8000000000000000") = DBig z.
Proof.
  exists (2 ^ 63). eexists. split; [|split; [|split; vm_compute; reflexivity]].
  - assert (B : forall s z, forallb is_digit (T s) = true -> digits_value (T s) = z -> numeral 10 (T s) z).
    { intros s z H <-. destruct (numeral_exists (T s)) as (y & Hy); [intros c Hc; rewrite forallb_forall in H; now apply H|]. now rewrite (numeral_digits _ _ Hy). }
    apply B; vm_compute; reflexivity.
  - assert (Z0 : forall t z, numeral 16 t z -> numeral 16 (t ++ ["0"%char]) (z * 16 + 0)) by (intros; apply n_digit; auto; [split; [lia|left; reflexivity]|lia]).
    assert (E8 : numeral 16 ([] ++ ["8"%char]) (0 * 16 + 8)) by (apply n_digit; [apply n_nil|split; [lia|left; reflexivity]|lia]).
    do 15 apply Z0 in E8. exact E8.
Qed.
Print Assumptions C49_large_integers_refuted.

(** ** Examples *)
Example C49_ex1 : read_literal "-42" = Some (DInteger (-42)). Proof. vm_compute. reflexivity. Qed.
Example C49_ex2 : read_literal "-9223372036854775808" = Some (DInteger (- 2 ^ 63)). Proof. vm_compute. reflexivity. Qed.
Example C49_ex3 : match read_literal "12.5e-1f" with Some (DFloat (Nearest false q)) => (q == 125 # 100)%Q | _ => False end. Proof. vm_compute. reflexivity. Qed.
Example C49_ex4 : encoded_literal Hexadecimal (T "1F") = DInteger 31. Proof. vm_compute. reflexivity. Qed.
Example C49_ex5 : number_text (mkNum None (T "7") None None None) (T "7") /\ plain (mkNum None (T "7") None None None) /\ numeral 10 (T "7") 7 /\ fits_i64 7.
Proof.
  split; [apply (nt None (T "7") None [] None [] None []); auto; split; [discriminate|intros c [<-|[]]; reflexivity]|]. split; [split; reflexivity|]. split; [|unfold fits_i64; lia].
  change 7 with (0 * 10 + 7). apply (n_digit 10 [] 0 "7"%char 7); [apply n_nil|split; [lia|left; reflexivity]|lia].
Qed.
