(** Comparisons, and the names of the known functions. *)
From Coq Require Import List Arith Bool Ascii Lia.
From Verif Require Import ParseModel ParseSpec ParseProofs1 ParseProofs2 ParseProofs3 ParseProofs4 ParseProofs5.
Import ListNotations.
Local Open Scope char_scope.

Definition names_ok (ops : list text) : bool :=
  forallb (fun k => negb (match k with [] => true | _ => false end) && forallb (fun c => (is_alpha c || is_digit c || (c =? "_")) && (lower c =? c)) k) ops.
Fixpoint prefix (a b : text) : bool := match a, b with [], _ => true | c :: a, d :: b => (c =? d) && prefix a b | _, _ => false end.
Fixpoint order_ok (ops : list text) : bool := match ops with [] => true | k :: l => forallb (fun k' => negb (prefix k k')) l && order_ok l end.
Lemma prefix_begins a : forall b, begins a b -> prefix a b = true.
Proof. intros b (r & ->). induction a as [|c a IH]; cbn; auto. now rewrite Ascii.eqb_refl. Qed.
Lemma function_names_ok ops : names_ok ops = true -> order_ok ops = true -> function_names ops.
Proof.
  intros H1 H2. split.
  - intros k Hk. unfold names_ok in H1. rewrite forallb_forall in H1. specialize (H1 k Hk). apply andb_prop in H1. destruct H1 as (A & B). split; [destruct k; [discriminate|discriminate]|]. intros c Hc. rewrite forallb_forall in B. now apply B.
  - intros l. revert H2. clear H1. revert ops. induction l as [|x l IH]; intros ops H2 k l' k' l'' ->; cbn [app order_ok] in H2; apply andb_prop in H2; destruct H2 as (A & B); [|eapply IH; eauto].
    rewrite forallb_forall in A. specialize (A k' ltac:(apply in_or_app; right; now left)). intros Hb. apply prefix_begins in Hb. rewrite Hb in A. discriminate.
Qed.

Section Infix.
Variable ops : list text.
Hypothesis Hops : function_names ops.
Lemma head_not_eq lv e t r : writes ops true lv e t -> ~ starts (fun c => c = "=") (t ++ r).
Proof.
  intros H. apply (writes_head ops Hops) in H. destruct t as [|c t]; [destruct H|]. cbn in *. intros ->. destruct H as (_ & H). apply H. cbn. tauto.
Qed.
Lemma infix_kind_ok k r : ~ starts (fun c => c = "=") r -> infix_kind (infix_text k ++ r) = Ok k r.
Proof.
  intros H. assert (E : tag ["="] r = Err). { apply tag_err. intros (s & ->). apply H. reflexivity. }
  assert (E1 : forall x, tag [x; "="] (x :: r) = Err). { intros x. cbn [tag]. rewrite Ascii.eqb_refl. exact E. }
  destruct k; cbn [infix_text app]; unfold infix_kind, alt, pmap; try reflexivity; [|].
  - change (tag ["="] (">" :: r)) with (@Err unit). change (tag ["!"; "="] (">" :: r)) with (@Err unit). cbn [bind]. rewrite E1. reflexivity.
  - change (tag ["="] ("<" :: r)) with (@Err unit). change (tag ["!"; "="] ("<" :: r)) with (@Err unit). change (tag [">"; "="] ("<" :: r)) with (@Err unit). change (tag [">"] ("<" :: r)) with (@Err unit). cbn [bind]. rewrite E1. reflexivity.
Qed.
Lemma blank_not_eq w r : blank w -> ~ starts (fun c => c = "=") r -> ~ starts (fun c => c = "=") (w ++ r).
Proof. intros H Hr. apply blank_head in H. destruct H as [-> |H]; auto. destruct w as [|c w]; [destruct H|]. cbn in *. intros ->. destruct H as [H|[H|H]]; discriminate. Qed.
Lemma parse_infix_ok k a b t r : writes_infix ops true k a b t -> follows r ->
  exists x y, parse_infix ops (t ++ r) = Ok (k, x, y) r /\ term_of x = a /\ term_of y = b.
Proof.
  intros (s & w & w' & u & Ha & Hw & Hw' & Hb & ->) Hr.
  assert (Hf : follows (w ++ infix_text k ++ w' ++ u ++ r)). { apply follows_gap; auto; destruct k; cbn; intuition discriminate. }
  destruct (parse_expression_ok ops Hops a s _ Ha Hf) as (x & Ex & Tx). destruct (parse_expression_ok ops Hops b u r Hb Hr) as (y & Ey & Ty). exists x, y. split; auto.
  unfold parse_infix. flat. rewrite Ex. cbn [bind]. rewrite wsoc_ok; [|apply Hw|].
  - cbn [bind]. rewrite infix_kind_ok by (apply blank_not_eq; auto; eapply head_not_eq; eauto). cbn [bind]. rewrite (wsoc_ok w' (u ++ r) Hw' (writes_no_space ops Hops _ _ _ r Hb)). cbn [bind]. rewrite Ey. reflexivity.
  - apply ends_no_space. destruct k; cbn; intuition discriminate.
Qed.
Lemma infix_kind_inv i k r : infix_kind i = Ok k r -> i = infix_text k ++ r.
Proof.
  intros H. unfold infix_kind in H. repeat (apply alt_ok in H; destruct H as [H|(_ & H)]; [apply pmap_ok in H; destruct H as (? & H & ->); now apply tag_inv in H|]). apply pmap_ok in H. destruct H as (? & H & ->). now apply tag_inv in H.
Qed.
Lemma parse_infix_sound i k x y r : parse_infix ops i = Ok (k, x, y) r -> exists t, i = t ++ r /\ writes_infix ops false k (term_of x) (term_of y) t.
Proof.
  intros H. unfold parse_infix in H. invs H a i1 E1. invs H u i2 E2. invs H k' i3 E3. invs H u' i4 E4. invs H b i5 E5. injection H as <- <- <- <-.
  apply (parse_expression_sound ops Hops) in E1, E5. destruct E1 as (s & -> & Hs), E5 as (t & -> & Ht). apply infix_kind_inv in E3. subst. apply wsoc_inv in E2, E4. pose proof (loose_nonempty ops _ _ _ Ht) as Hn.
  destruct E4 as (w' & -> & [Hw'|Hw']); [|destruct t; [congruence|discriminate]]. destruct E2 as (w & -> & [Hw|Hw]); [|destruct k'; discriminate]. exists (s ++ w ++ infix_text k' ++ w' ++ t). split; [flat; reflexivity|].
  exists s, w, w', t. repeat split; auto. discriminate.
Qed.
Lemma parse_infix_fuel i : parse_infix ops i <> Fuel.
Proof.
  unfold parse_infix. intros H. assert (F : goodr (length i) (parse_infix ops i)); [|unfold parse_infix in F; rewrite H in F; exact F]. clear H. unfold parse_infix.
  assert (P : forall n j, length j <= n -> goodr n (parse_expression ops j)). { intros n j Hj. apply (good_mono (length j)); auto. destruct (fine_depth ops (length j)) as (K & _). exact (fine_good (length j) _ j K (le_n _)). }
  repeat chain; auto. apply (fine_call (length i)); auto. unfold infix_kind. repeat chain.
Qed.
End Infix.
