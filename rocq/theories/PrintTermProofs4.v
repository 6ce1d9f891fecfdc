(** Reading printed terms. *)
From Coq Require Import String List Arith ZArith Bool Ascii Lia.
From Verif Require Import ParseModel ParseSpec ParseProofs3 ParseProofs5 ParseProofs6 NumLitModel NumLitSpec PrintTermModel PrintTermSpec PrintTermProofs1 PrintTermProofs2 PrintTermProofs3.
Import ListNotations.
Local Open Scope list_scope.

Lemma all_small l : fold_right (fun x P => small x /\ P) True l <-> Forall small l.
Proof. induction l as [|a l IH]; cbn; [split; auto|]. rewrite IH. split; [intros []; auto|intros H; inversion H; auto]. Qed.
Lemma small_pattach k a : small a -> forall b, small b -> small (pattach k a b).
Proof.
  intros Ha. fix IH 1. intros b. destruct b as [| | | | | |k2 [|x [|y [|z l]]]]; intros Hb; try (cbn in *; tauto).
  assert (E : small x -> small (pattach k a x)) by apply IH. clear IH. cbn [pattach]. destruct (same_group k k2); cbn -[pattach] in *; tauto.
Qed.
Lemma small_regroup p : readable p -> small (regroup p).
Proof.
  assert (L : forall args, Forall (fun p => readable p -> small (regroup p)) args -> (forall x, In x args -> readable x) -> Forall small (map regroup args)).
  { intros args H Ha. rewrite Forall_forall in *. intros x Hx. apply in_map_iff in Hx. destruct Hx as (y & <- & Hy). auto. }
  induction p as [k n| |z|t|t args IH|args IH|k args IH] using pterm_induction; intros Hr; try exact I.
  - inversion Hr; subst. assumption.
  - change (small (regroup (PFun t args))) with (fold_right (fun x P => small x /\ P) True (map regroup args)). apply all_small. apply L; auto. inversion Hr; subst; auto.
  - change (small (regroup (PTuple args))) with (fold_right (fun x P => small x /\ P) True (map regroup args)). apply all_small. apply L; auto. inversion Hr; subst; auto.
  - assert (E : Forall small (map regroup args)) by (apply L; auto; inversion Hr; subst; auto).
    assert (D : small (POp k (map regroup args))) by (apply all_small; exact E).
    cbn [regroup]. unfold build. destruct (gkind k); [|now destruct (map regroup args)]. destruct (map regroup args) as [|a [|b [|c l]]]; try exact D.
    apply small_pattach; [now inversion E|]. inversion E as [|? ? ? E']; now inversion E'.
Qed.
Lemma no_more : follows [].
Proof. split; [exact I|exists [], []; split; auto; split; [apply b_nil|exact I]]. Qed.
Lemma whole_expression e t : writes known_functions true Expression e t -> exists a, parse_expression known_functions t = Ok a [] /\ term_of a = e.
Proof. intros H. destruct (parse_expression_ok known_functions functions_ok e t [] H no_more) as (a & E & Ha). rewrite app_nil_r in E. eauto. Qed.
Theorem read_printed p : readable p -> read_term (print p) = Some (regroup p).
Proof.
  intros H. destruct (printed p H) as (A & _). destruct (whole_expression _ _ (proj1 (operand_expression p [] A))) as (a & E & Ha).
  unfold read_term. rewrite E. apply translate_ok; auto. now apply small_regroup.
Qed.

Definition infix_of (k : infix) : text := infix_text k.
Lemma infix_kind_text k : infix_representation (infix_kind k) = Some (infix_text k).
Proof. destruct k; reflexivity. Qed.
Lemma comparison_infix k : In k comparison_kinds <-> exists i, k = infix_kind i.
Proof.
  split.
  - unfold comparison_kinds. cbn [In map]. intros H. repeat (destruct H as [<-|H]; [first [now exists IEq|now exists IUneq|now exists IGt|now exists IGe|now exists ILt|now exists ILe]|]). destruct H.
  - intros (i & ->). destruct i; cbn; tauto.
Qed.
Lemma not_comparison_braces k a : readable a -> operand_text (infix_kind k) a = print a \/ operand_text (infix_kind k) a = "("%char :: print a ++ [")"%char].
Proof. intros _. unfold operand_text, braces. destruct a; auto. destruct (_ <? _); auto. Qed.
Theorem read_printed_comparison k a b : readable a -> readable b -> read_comparison (print (POp (infix_kind k) [a; b])) = Some (POp (infix_kind k) [regroup a; regroup b]).
Proof.
  intros Ha Hb. destruct (printed a Ha) as (Aa & _). destruct (printed b Hb) as (Ab & _).
  assert (E : print (POp (infix_kind k) [a; b]) = operand_text (infix_kind k) a ++ " "%char :: infix_text k ++ " "%char :: operand_text (infix_kind k) b).
  { cbn [print map]. now rewrite infix_kind_text. }
  assert (H : writes_infix known_functions true k (tree (regroup a)) (tree (regroup b)) (print (POp (infix_kind k) [a; b]))).
  { exists (operand_text (infix_kind k) a), [" "%char], [" "%char], (operand_text (infix_kind k) b).
    split; [now apply operand_expression|]. split; [apply gap_space|]. split; [apply blank_space|]. split; [now apply operand_expression|]. exact E. }
  destruct (parse_infix_ok known_functions functions_ok k _ _ _ [] H no_more) as (x & y & E' & Hx & Hy). rewrite app_nil_r in E'.
  unfold read_comparison. rewrite E'. now rewrite (translate_ok x (regroup a)), (translate_ok y (regroup b)) by auto using small_regroup.
Qed.
