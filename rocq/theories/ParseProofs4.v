(** The parser never runs out of fuel, and reads only texts that write the term. *)
From Coq Require Import List Arith Bool Ascii Lia.
From Verif Require Import ParseModel ParseSpec ParseProofs1 ParseProofs2.
Import ListNotations.
Local Open Scope char_scope.

(** ** Fuel *)
Definition fine {A} (N : nat) (p : parser A) : Prop :=
  forall i, length i <= N -> match p i with Ok _ r => length r <= length i | Fuel => False | _ => True end.
(** the fine result of a bound parser *)
Definition goodr {A} (N : nat) (r : res A) : Prop := match r with Ok _ x => length x <= N | Fuel => False | _ => True end.
Lemma fine_good {A} N (p : parser A) i : fine N p -> length i <= N -> goodr (length i) (p i).
Proof. intros H Hi. specialize (H i Hi). unfold goodr. destruct (p i); auto. Qed.
Lemma good_mono {A} n m (r : res A) : n <= m -> goodr n r -> goodr m r.
Proof. unfold goodr. destruct r; auto. lia. Qed.
Lemma bind_good {A B} n (r : res A) (k : A -> text -> res B) :
  goodr n r -> (forall x y, length y <= n -> goodr n (k x y)) -> goodr n (bind r k).
Proof. unfold goodr at 1. destruct r; cbn; auto. Qed.
Lemma fine_bind {A B} N (p : parser A) (k : A -> text -> res B) :
  fine N p -> (forall x n y, length y <= n -> n <= N -> goodr n (k x y)) -> fine N (fun i => bind (p i) (k)).
Proof. intros Hp Hk i Hi. change (goodr (length i) (bind (p i) k)). apply bind_good; [now apply (fine_good N)|]. intros x y Hy. now apply Hk. Qed.
Lemma fine_call {A} N n (p : parser A) y : fine N p -> length y <= n -> n <= N -> goodr n (p y).
Proof. intros H Hy Hn. apply (good_mono (length y)); auto. apply (fine_good N); auto. lia. Qed.
Lemma fine_ok {A} n (x : A) y : length y <= n -> goodr n (Ok x y).
Proof. auto. Qed.
Lemma fine_alt {A} N (p q : parser A) : fine N p -> fine N q -> fine N (alt p q).
Proof. intros Hp Hq i Hi. unfold alt. specialize (Hp i Hi). specialize (Hq i Hi). destruct (p i); auto. Qed.
Lemma fine_pmap {A B} N (f : A -> B) (p : parser A) : fine N p -> fine N (pmap f p).
Proof. intros Hp i Hi. unfold pmap. specialize (Hp i Hi). destruct (p i); auto. Qed.
Lemma fine_opt {A} N (p : parser A) : fine N p -> fine N (opt p).
Proof. intros Hp i Hi. unfold opt. specialize (Hp i Hi). destruct (p i); auto. Qed.
Lemma fine_cut {A} N (p : parser A) : fine N p -> fine N (cut p).
Proof. intros Hp i Hi. unfold cut. specialize (Hp i Hi). destruct (p i); auto. Qed.
Lemma fine_many {A} N (p : parser A) : fine N p -> fine N (many0 p).
Proof.
  intros Hp i Hi. unfold many0. assert (H : forall fuel j, length j < fuel -> length j <= N -> match many0_ fuel p j with Ok _ r => length r <= length j | Fuel => False | _ => True end); [|apply H; auto; lia].
  induction fuel as [|fuel IH]; intros j Hf Hj; [lia|]. cbn [many0_]. specialize (Hp j Hj). destruct (p j) as [x r| | |]; auto. destruct (Nat.eqb_spec (length r) (length j)); auto.
  specialize (IH r ltac:(lia) ltac:(lia)). destruct (many0_ fuel p r); cbn; auto. lia.
Qed.
Lemma fine_sep {A B} N (s : parser B) (p : parser A) : fine N s -> fine N p -> fine N (sep_list1 s p).
Proof.
  intros Hs Hp. assert (H : forall fuel j, length j < fuel -> length j <= N -> match sep_rest fuel s p j with Ok _ r => length r <= length j | Fuel => False | _ => True end).
  { induction fuel as [|fuel IH]; intros j Hf Hj; [lia|]. cbn [sep_rest]. specialize (Hs j Hj). destruct (s j) as [x r| | |]; auto. destruct (Nat.eqb_spec (length r) (length j)); auto.
    specialize (Hp r ltac:(lia)). destruct (p r) as [y r'| | |]; auto. specialize (IH r' ltac:(lia) ltac:(lia)). destruct (sep_rest fuel s p r'); cbn; auto. lia. }
  unfold sep_list1. intros i Hi. specialize (Hp i Hi). destruct (p i) as [x r| | |]; cbn [bind]; auto. specialize (H (S (length r)) r ltac:(lia) ltac:(lia)). destruct (sep_rest (S (length r)) s p r); cbn [bind]; auto. lia.
Qed.
Lemma tag_length s : forall i, match tag s i with Ok _ r => length r + length s = length i | Fuel => False | _ => True end.
Proof. induction s as [|c s IH]; intros [|d i]; cbn; auto; try lia. destruct (c =? d); auto. specialize (IH i). destruct (tag s i); auto. lia. Qed.
Lemma fine_tag N s : fine N (tag s).
Proof. intros i _. pose proof (tag_length s i). destruct (tag s i); auto. lia. Qed.
Lemma span_length f : forall i, length (snd (span f i)) <= length i.
Proof. induction i as [|c i IH]; cbn; auto. destruct (f c); cbn; auto. destruct (span f i); cbn in *. lia. Qed.
Lemma fine_span N f : fine N (take_while1 f).
Proof. intros i _. unfold take_while1. pose proof (span_length f i). destruct (span f i) as [[|c a] b]; auto. Qed.
Lemma fine_name N : fine N name.
Proof. intros [|c i] _; cbn; auto. destruct (is_alpha c); auto. pose proof (span_length is_name_rest i). destruct (span is_name_rest i); cbn in *. lia. Qed.
Lemma fine_comment_token N : fine N comment_token.
Proof.
  assert (B : forall f (x : text) n, length x <= n -> match (let (_, b) := span f x in Ok tt b) with Ok _ r => length r <= n | Fuel => False | _ => True end).
  { intros f x n Hn. pose proof (span_length f x) as K. destruct (span f x). cbn in *. lia. }
  intros i _. unfold comment_token. repeat (match goal with |- context [match ?x with _ => _ end] => is_var x; destruct x; auto end); try (apply B); cbn [length]; lia.
Qed.
Lemma fine_not_line_ending N : fine N not_line_ending.
Proof.
  intros i _. unfold not_line_ending. pose proof (span_length (fun c => negb ((c =? "010") || (c =? "013"))) i) as K. destruct (span _ i) as [a b]. cbn [snd] in K.
  repeat (match goal with |- context [match ?x with _ => _ end] => is_var x; destruct x; auto end).

Qed.
Lemma fine_line_ending N : fine N line_ending_or_eof.
Proof. intros i _. unfold line_ending_or_eof. repeat (match goal with |- context [match ?x with _ => _ end] => is_var x; destruct x; auto end); cbn [length]; lia. Qed.
Lemma comment_end_length : forall i, match comment_end i with Ok _ r => length r <= length i | Fuel => False | _ => True end.
Proof.
  induction i as [|c i IH]; [exact I|]. assert (H : match comment_end i with Ok _ r => length r <= length (c :: i) | Fuel => False | _ => True end) by (destruct (comment_end i); auto; cbn; lia).
  cbn [comment_end]. destruct c as [[] [] [] [] [] [] [] []]; try exact H. destruct i as [|d i]; [exact H|]. destruct d as [[] [] [] [] [] [] [] []]; try exact H. cbn. lia.
Qed.
Lemma fine_wsoc N : fine N wsoc.
Proof.
  unfold wsoc. apply fine_pmap, fine_many. apply fine_alt; [apply fine_pmap, fine_span|]. apply fine_alt.
  - unfold line_comment. apply fine_bind; [apply fine_comment_token|]. intros _ n y Hy _. apply bind_good; [apply (fine_call n); auto; apply fine_not_line_ending|]. intros _ z Hz. apply (fine_call n); auto. apply fine_line_ending.
  - unfold closed_comment. apply fine_bind; [apply fine_tag|]. intros _ n y Hy _. pose proof (comment_end_length y). unfold goodr. destruct (comment_end y); auto. lia.
Qed.
(** chains of calls *)
Ltac chain := match goal with
  | |- fine _ (fun i => bind _ _) => apply fine_bind; [|intros ? ? ? ? ?]
  | |- goodr _ (bind _ _) => apply bind_good; [|intros ? ? ?]
  | |- goodr _ (Ok _ _) => apply fine_ok; assumption
  | |- goodr _ (wsoc _) => eapply (fine_call _ _ wsoc); [apply fine_wsoc|assumption|apply le_n]
  | |- goodr _ (chr ?c _) => eapply (fine_call _ _ (chr c)); [apply fine_tag|assumption|apply le_n]
  | |- goodr _ (name _) => eapply (fine_call _ _ name); [apply fine_name|assumption|apply le_n]
  | |- goodr _ (cut name _) => eapply (fine_call _ _ (cut name)); [apply fine_cut, fine_name|assumption|apply le_n]
  | |- goodr _ (digits _) => eapply (fine_call _ _ digits); [apply fine_span|assumption|apply le_n]
  | |- goodr _ (take_while1 ?f _) => eapply (fine_call _ _ (take_while1 f)); [apply fine_span|assumption|apply le_n]
  | |- goodr _ (opt ?p _) => eapply (fine_call _ _ (opt p)); [apply fine_opt|eassumption|first [eassumption|apply le_n]]
  | |- fine _ (alt _ _) => apply fine_alt
  | |- fine _ (pmap _ _) => apply fine_pmap
  | |- fine _ (opt _) => apply fine_opt
  | |- fine _ (tag _) => apply fine_tag
  | |- fine _ (chr _) => apply fine_tag
  | |- fine _ wsoc => apply fine_wsoc
  | |- fine _ name => apply fine_name
  | |- fine _ digits => apply fine_span
  | |- fine _ (take_while1 _) => apply fine_span
  end.
Lemma fine_sign N : fine N sign. Proof. unfold sign. repeat chain. Qed.
Lemma fine_fractional N : fine N fractional. Proof. unfold fractional. repeat chain. Qed.
Lemma fine_exponent N : fine N exponent. Proof. unfold exponent. repeat chain. apply fine_sign. Qed.
Lemma fine_marker N : fine N type_marker. Proof. unfold type_marker. repeat chain. Qed.
Lemma fine_number N : fine N parse_number.
Proof. unfold parse_number. repeat chain; first [apply fine_sign|apply fine_fractional|apply fine_exponent|apply fine_marker]. Qed.
Lemma fine_variable N : fine N parse_variable.
Proof.
  assert (H : forall i k, match bind (cut name i) (fun n r => Ok (LVar k n) r) with Ok _ r => length r <= S (length i) | Fuel => False | _ => True end).
  { intros i k. pose proof (fine_cut (length i) name (fine_name _) i (le_n _)) as K. destruct (cut name i); cbn [bind]; auto. }
  intros [|c i] Hi; unfold parse_variable; auto. repeat match goal with |- context [if ?x then _ else _] => destruct x end; cbn [length]; auto; apply H.
Qed.
Lemma fine_structure N : fine N structure_tag.
Proof. unfold structure_tag, parse_iri. repeat chain. intros i _. auto. Qed.
Lemma fine_basic N : fine N parse_basic.
Proof. unfold parse_basic, parse_boolean. repeat chain; [apply fine_structure|apply fine_number|apply fine_variable]. Qed.
Lemma fine_additive N : fine N additive. Proof. unfold additive. repeat chain. Qed.
Lemma fine_mult N : fine N multiplicative. Proof. unfold multiplicative. repeat chain. Qed.
Lemma fine_operand N o p : fine N o -> fine N p -> fine N (operand o p).
Proof.
  intros Ho Hp. unfold operand. repeat chain; [eapply (fine_call N); eauto|eapply (fine_call N); eauto].
Qed.
Lemma fine_comma N : fine N comma. Proof. unfold comma. repeat chain. Qed.
Lemma fine_sequence N p : fine N p -> fine N (sequence p).
Proof. intros Hp. unfold sequence. repeat chain; [now apply fine_sep; [apply fine_comma|]|apply fine_comma]. Qed.
Lemma fine_first N p : fine N p -> fine N (first_trailing p).
Proof. intros Hp. unfold first_trailing. repeat chain; auto. eapply (fine_call N); eauto. now apply fine_sequence. Qed.
Lemma fine_enclosed {A} N (p : parser A) : fine (pred N) p -> fine N (enclosed p).
Proof.
  intros Hp i Hi. unfold enclosed. destruct i as [|c i]; [exact I|]. unfold chr at 1. cbn [tag]. destruct ("(" =? c); [|exact I]. cbn [bind]. cbn [length] in *.
  assert (H : goodr (length i) (bind (wsoc i) (fun _ r => bind (p r) (fun x r0 => bind (wsoc r0) (fun _ r1 => bind (chr ")" r1) (fun _ r2 => Ok x r2)))))).
  { chain; [apply (fine_call (length i)); auto; apply fine_wsoc|]. chain; [apply (fine_call (pred N)); auto; lia|]. repeat chain. }
  unfold goodr in H. destruct (bind (wsoc i) _); auto.
Qed.
Lemma tag_no_case_length s : forall i, match tag_no_case s i with Ok _ r => length r <= length i | Fuel => False | _ => True end.
Proof. induction s as [|c s IH]; intros [|d i]; cbn; auto. destruct (c =? lower d); auto. specialize (IH i). destruct (tag_no_case s i); auto. Qed.
Lemma fine_operation_tag N l : fine N (operation_tag l).
Proof. intros i Hi. induction l as [|s l IH]; cbn; auto. pose proof (tag_no_case_length s i). destruct (tag_no_case s i); auto. Qed.
Section Fuel.
Variable ops : list text.
Definition finep (N : nat) (p : parsers) : Prop := fine (pred N) (p_expr p) /\ fine (pred N) (p_basic p) /\ fine (pred N) (p_arith p).
Lemma fine_complex N p : finep N p -> fine N (parse_complex ops p).
Proof.
  intros (He & Hb & Ha). unfold parse_complex, parse_operation, parse_atom, parse_tuple. repeat chain.
  - apply fine_operation_tag.
  - eapply (fine_call N); eauto. now apply fine_enclosed, fine_sequence.
  - apply fine_structure.
  - eapply (fine_call N); eauto. apply fine_enclosed, fine_sep; auto. apply fine_comma.
  - now apply fine_enclosed, fine_first.
Qed.
Lemma fine_non N p : finep N p -> fine N (non_arithmetic ops p).
Proof. intros H. unfold non_arithmetic. chain; [now apply fine_complex|apply fine_basic]. Qed.
Lemma fine_factor N p : finep N p -> fine N (factor ops p).
Proof.
  intros H. unfold factor. chain; [|chain; [now apply fine_non|]].
  - unfold parenthesized_non_arithmetic. chain. apply fine_enclosed. apply H.
  - unfold parenthesized_expression. apply fine_enclosed. apply H.
Qed.
Lemma fine_chain N o q : fine N o -> fine N q ->
  fine N (fun i => bind (q i) (fun e r => bind (many0 (operand o q) r) (fun l r => Ok (fold_chain e l) r))).
Proof. intros Ho Hq. repeat chain; auto. eapply (fine_call N); eauto. now apply fine_many, fine_operand. Qed.
Lemma fine_product N p : finep N p -> fine N (product ops p).
Proof. intros H. unfold product. apply fine_chain; [apply fine_mult|now apply fine_factor]. Qed.
Lemma fine_sum N p : finep N p -> fine N (sum ops p).
Proof. intros H. unfold sum. apply fine_chain; [apply fine_additive|now apply fine_product]. Qed.
Lemma fine_arithmetic N p : finep N p -> fine N (arithmetic ops p).
Proof. intros H i Hi. unfold arithmetic. pose proof (fine_sum N p H i Hi) as K. destruct (sum ops p i) as [[]| | |]; auto. Qed.
Lemma fine_expression N p : finep N p -> fine N (expression ops p).
Proof.
  intros H. unfold expression. chain; [now apply fine_arithmetic|]. chain; [|chain; [now apply fine_complex|apply fine_basic]]. unfold parenthesized. chain. apply fine_enclosed. apply H.
Qed.
Lemma fine_zero_call {A} (q : parser A) : fine 0 (enclosed q).
Proof. intros i Hi. destruct i; [exact I|cbn in Hi; lia]. Qed.
Lemma fine_depth n : fine n (expression ops (at_depth ops n)) /\ fine n (non_arithmetic ops (at_depth ops n)) /\ fine n (arithmetic ops (at_depth ops n)).
Proof.
  induction n as [|n (H1 & H2 & H3)].
  - assert (H : forall i : text, length i <= 0 -> i = []) by (intros [|]; cbn; auto; lia). 
    assert (Z : forall A (q : parser A), q [] = Err -> fine 0 q) by (intros A q E i Hi; rewrite (H i Hi), E; exact I).
    assert (Eo : forall l, operation_tag l [] = Err \/ exists k, operation_tag l [] = Ok k []). { induction l as [|[|c s] l IH]; cbn; eauto. }
    assert (Ec : parse_complex ops (at_depth ops 0) [] = Err). { unfold parse_complex, alt, parse_operation. destruct (Eo ops) as [-> | (k & ->)]; reflexivity. }
    assert (En : non_arithmetic ops (at_depth ops 0) [] = Err) by (unfold non_arithmetic, alt; rewrite Ec; reflexivity).
    assert (Ea : arithmetic ops (at_depth ops 0) [] = Err). { unfold arithmetic, sum, product, factor, alt. rewrite En. reflexivity. }
    repeat split; apply Z; auto. unfold expression, alt. rewrite Ea, Ec. reflexivity.
  - assert (F : finep (S n) (at_depth ops (S n))) by (split; [exact H1|split; [exact H2|exact H3]]). repeat split; [now apply fine_expression|now apply fine_non|now apply fine_arithmetic].
Qed.
Theorem parse_expression_fuel i : parse_expression ops i <> Fuel.
Proof. unfold parse_expression. destruct (fine_depth (length i)) as (H & _). specialize (H i (le_n _)). intros E. rewrite E in H. exact H. Qed.
Lemma parse_expression_shorter i a r : parse_expression ops i = Ok a r -> length r <= length i.
Proof. unfold parse_expression. destruct (fine_depth (length i)) as (H & _). specialize (H i (le_n _)). intros E. rewrite E in H. exact H. Qed.
End Fuel.
