(** Printed terms are texts of the terms grouped to the left. *)
From Coq Require Import String List Arith ZArith Bool Ascii Lia.
From Verif Require Import ParseModel ParseSpec NumLitModel NumLitSpec NumLitProofs PrintTermModel PrintTermSpec PrintTermProofs1 PrintTermProofs2.
Import ListNotations.
Local Open Scope list_scope.
Notation W := (writes known_functions true).

Lemma gap_nil : gap true [].
Proof. split; [apply b_nil|]. intros _ []. Qed.
Lemma gap_space : gap true [" "%char].
Proof. split; [apply b_space; [reflexivity|apply b_nil]|]. intros _ H. discriminate. Qed.
Lemma blank_space : blank [" "%char].
Proof. apply b_space; [reflexivity|apply b_nil]. Qed.

(** ** Constants *)
Lemma is_name_rest_ok t : all_chars (fun x => is_alpha x || is_digit x || (x =? "_") || (x =? "-"))%char t <-> is_name_ false t = true.
Proof.
  induction t as [|c t IH]; cbn; [split; [auto|intros _ c []]|].
  assert (E : all_chars (fun x => is_alpha x || is_digit x || (x =? "_") || (x =? "-"))%char (c :: t) <->
    (is_alpha c || is_digit c || (c =? "_") || (c =? "-"))%char = true /\ is_name_ false t = true).
  { rewrite <- IH. split; [intros H; split; [apply H; now left|intros d Hd; apply H; now right]|intros (H & H') d [<-|Hd]; auto]. }
  rewrite E. destruct (is_alpha c), (is_digit c), (c =? "_")%char, (c =? "-")%char; cbn; intuition congruence.
Qed.
Lemma alpha_not c : is_alpha c = true -> (is_digit c || (c =? "_") || (c =? "-"))%char = false.
Proof. destruct c as [[] [] [] [] [] [] [] []]; vm_compute; auto. Qed.
Lemma is_name_cons c t : is_alpha c = true -> is_name (c :: t) = is_name_ false t.
Proof. intros H. unfold is_name. cbn [is_name_]. now rewrite alpha_not, H. Qed.
Lemma iri_ok t : plain_constant t \/ quoted_constant t -> W Atomic (TLeaf (if is_name t then LName t else LIri t)) (iri_text t).
Proof.
  intros [((c & r & -> & Hc & Hr) & Ht & Hf)|(Hn & Hi & Hq)].
  - assert (E : is_name (c :: r) = true).
    { rewrite is_name_cons by auto. apply is_name_rest_ok. intros d Hd. now rewrite (Hr d Hd). }
    unfold iri_text. rewrite E. apply w_leaf, lt_tag; [|auto]. apply tt_name. exists c, r. split; auto. split; auto. intros d Hd. specialize (Hr d Hd). unfold is_name_rest. now rewrite Hr.
  - assert (E : is_name t = false).
    { destruct t as [|c r]; [congruence|]. destruct (is_alpha c) eqn:A.
      - rewrite is_name_cons by auto. destruct (is_name_ false r) eqn:E; auto. exfalso. apply Hq. exists c, r. split; auto. split; auto. now apply is_name_rest_ok.
      - unfold is_name. cbn [is_name_]. rewrite A. now destruct (is_digit c || (c =? "_") || (c =? "-"))%char. }
    unfold iri_text. rewrite E. apply w_leaf, lt_tag; [now apply tt_iri|]. intros _. split; intros (x & H); discriminate.
Qed.
Lemma integer_ok z : W Atomic (TLeaf (LNum (integer_number z))) (integer_text z).
Proof.
  apply w_leaf, lt_num. destruct (decimal_text_ok (Z.abs z)) as (_ & Hd); [lia|].
  assert (E : integer_text z = sign_text (if (z <? 0)%Z then Some true else None) ++ decimal_text (Z.abs z) ++ [] ++ [] ++ []).
  { unfold integer_text. rewrite !app_nil_r. destruct (Z.ltb_spec z 0); [rewrite Z.abs_neq by lia|rewrite Z.abs_eq by lia]; reflexivity. }
  rewrite E. now apply (nt _ (decimal_text (Z.abs z)) None [] None [] None []).
Qed.

(** ** Names of operations *)
Lemma kind_name_ok k : In k known_functions -> map lower (kind_name k) = k.
Proof.
  intros H. assert (C : forallb (fun k => text_eqb (map lower (kind_name k)) k) known_functions = true) by (vm_compute; reflexivity).
  rewrite forallb_forall in C. apply text_eqb_eq. now apply C.
Qed.
Lemma infix_arith o : infix_representation (arith_kind o) = Some [op_text o].
Proof. destruct o; reflexivity. Qed.
Lemma infix_none k : In k known_functions -> op_of k = None -> ~ In k comparison_kinds -> infix_representation k = None.
Proof.
  intros H Ho Hc. unfold infix_representation. destruct (find _ _) as [[a b]|] eqn:E; auto. exfalso. apply find_some in E. destruct E as (E & E').
  apply text_eqb_eq in E'. cbn [fst] in E'. subst a. cbn [In] in E.
  repeat (destruct E as [E|E]; [injection E as <- <-; first [discriminate Ho|apply Hc; cbn; tauto]|]). destruct E.
Qed.
Lemma precedence_arith o : precedence (arith_kind o) = match group_of o with Additive => 2 | Multiplicative => 3 end.
Proof. destruct o; reflexivity. Qed.
Lemma precedence_max k : precedence k <= 3.
Proof. unfold precedence. repeat destruct (text_eqb _ _); lia. Qed.

(** ** Operands *)
Definition lv (g : group) : level := match g with Additive => Sum | Multiplicative => Product end.
Definition sub (g : group) : level := match g with Additive => Product | Multiplicative => Factor end.
Lemma sub_lv g e t : W (sub g) e t -> W (lv g) e t.
Proof. destruct g; [apply w_sum|apply w_product]. Qed.
Lemma factor_sub g e t : W Factor e t -> W (sub g) e t.
Proof. destruct g; [apply w_product|auto]. Qed.
Lemma step g o a s b t : g = group_of o -> W (lv g) a s -> W (sub g) b t -> W (lv g) (TBin o a b) (s ++ " "%char :: [op_text o] ++ " "%char :: t).
Proof.
  intros -> Ha Hb. change (s ++ " "%char :: [op_text o] ++ " "%char :: t) with (s ++ [" "%char] ++ op_text o :: [" "%char] ++ t).
  unfold group_of in *. destruct (additive_op o) eqn:E; [apply w_add|apply w_mul]; auto using gap_space, blank_space.
Qed.
Lemma lv_expression g e t : W (lv g) e t -> is_bin e -> W Expression e t.
Proof. intros H Hb. apply w_expression; auto. destruct g; auto. now apply w_sum. Qed.
Definition operand_text (k : text) (p : pterm) : text := braces k p (print p).
Lemma in_parens t : "("%char :: t ++ [")"%char] = "("%char :: [] ++ t ++ [] ++ [")"%char].
Proof. reflexivity. Qed.

Lemma pattach_assoc k g a k1 x : In (k, g) arithmetic_kinds -> In (k1, g) arithmetic_kinds -> forall y, pattach k a (pattach k1 x y) = pattach k1 (pattach k a x) y.
Proof.
  intros Hk H1. fix IH 1. intros y. destruct (in_group_dec g y) as [H|H].
  - destruct y as [| | | | | |k2 [|u [|v [|? ?]]]]; try (exfalso; destruct H as (? & ? & ? & E & _); discriminate).
    assert (H2 : In (k2, g) arithmetic_kinds) by (destruct H as (? & ? & ? & E & H2); now injection E as -> _ _).
    rewrite !(pattach_op k1 g), (pattach_op k g) by auto. now rewrite (IH u).
  - rewrite !(pattach_not k1 g) by auto. now apply pattach_op with g.
Qed.

Lemma regroup_group k a b : op_of k <> None -> regroup (POp k [a; b]) = pattach k (regroup a) (regroup b).
Proof. intros H. cbn. unfold build. destruct (op_of k) as [o|] eqn:E; [|congruence]. apply op_of_iff in E. subst k. now rewrite (proj2 (gkind_iff _ _) (arith_group o)). Qed.
Lemma regroup_other k l : (forall g, ~ in_group g (POp k l)) -> regroup (POp k l) = POp k (map regroup l).
Proof.
  intros H. cbn. unfold build. destruct (gkind k) as [g|] eqn:G; [|now destruct (map regroup l)].
  destruct l as [|a [|b [|c l]]]; try reflexivity. exfalso. apply gkind_iff in G. apply (H g). now exists k, a, b.
Qed.
Lemma tree_group g p : in_group g p -> is_bin (tree p).
Proof. intros (k & a & b & -> & H). apply group_arith in H. destruct H as (o & -> & _). cbn [tree]. rewrite (proj2 (op_of_iff _ o) eq_refl). exact I. Qed.

(** Written on its own, and as right operand after a text *)
Definition alone (p : pterm) : Prop :=
  (forall g, in_group g p -> W (lv g) (tree (regroup p)) (print p)) /\
  ((forall g, ~ in_group g p) -> W Atomic (tree (regroup p)) (print p)).
Definition after (p : pterm) : Prop := forall o a s, W (lv (group_of o)) (tree a) s ->
  W (lv (group_of o)) (tree (pattach (arith_kind o) a (regroup p))) (s ++ " "%char :: [op_text o] ++ " "%char :: operand_text (arith_kind o) p).

Lemma groups_dec p : {g | in_group g p} + {forall g, ~ in_group g p}.
Proof. destruct (in_group_dec Additive p) as [H|H]; [left; eauto|]. destruct (in_group_dec Multiplicative p) as [H'|H']; [left; eauto|]. right. intros []; auto. Qed.

(** An operand of the other group, or of no group *)
Lemma operand_sub p o : alone p -> ~ in_group (group_of o) p -> W (sub (group_of o)) (tree (regroup p)) (operand_text (arith_kind o) p).
Proof.
  intros (Hg & Hn) H. destruct (groups_dec p) as [(g & Hp)|Hp].
  - assert (Hb : is_bin (tree (regroup p))) by (apply (tree_group g); now apply regroup_in_group). specialize (Hg g Hp).
    destruct Hp as (k & a & b & -> & Hk). destruct (group_arith k g Hk) as (o' & -> & ->). unfold operand_text, braces. rewrite !precedence_arith.
    destruct (group_of o) eqn:E, (group_of o') eqn:E'; try (exfalso; apply H; exists (arith_kind o'), a, b; split; auto; now rewrite <- E'; apply arith_group).
    + exact Hg.
    + cbn [Nat.ltb Nat.leb]. rewrite in_parens. apply w_parens_bin; auto using b_nil, gap_nil.
  - apply factor_sub. specialize (Hn Hp). unfold operand_text, braces. destruct p as [| | | | | |k l]; try (now apply w_factor).
    destruct (_ <? _); [|now apply w_factor]. rewrite in_parens. apply w_parens; auto using b_nil, gap_nil.
Qed.
Lemma operand_lv p o : alone p -> W (lv (group_of o)) (tree (regroup p)) (operand_text (arith_kind o) p).
Proof.
  intros H. destruct (in_group_dec (group_of o) p) as [Hp|Hp]; [|now apply sub_lv, operand_sub].
  pose proof (proj1 H _ Hp) as Hw. destruct Hp as (k & a & b & -> & Hk). destruct (group_arith _ _ Hk) as (o' & -> & E). unfold operand_text, braces. rewrite !precedence_arith, E, Nat.ltb_irrefl. now rewrite E in Hw.
Qed.
Lemma operand_expression p k : alone p -> W Expression (tree (regroup p)) (print p) /\ W Expression (tree (regroup p)) (operand_text k p).
Proof.
  intros (Hg & Hn). assert (H : W Expression (tree (regroup p)) (print p)).
  { destruct (groups_dec p) as [(g & Hp)|Hp]; [|now apply w_expression_atomic, Hn]. apply (lv_expression g); [now apply Hg|]. apply (tree_group g). now apply regroup_in_group. }
  split; auto. unfold operand_text, braces. destruct p as [| | | | | |k' l]; auto. destruct (_ <? _); auto. rewrite in_parens. apply w_expression_parens; auto using b_nil, gap_nil.
Qed.
Lemma operand_same o o' p : group_of o = group_of o' -> operand_text (arith_kind o) p = operand_text (arith_kind o') p.
Proof. intros E. unfold operand_text, braces. destruct p; auto. now rewrite !precedence_arith, E. Qed.

(** Lists *)
Lemma list_ok (l : list (term * text)) : l <> [] -> Forall (fun x => W Expression (fst x) (snd x)) l -> writes_list known_functions true (map fst l) (delimited (map snd l)).
Proof.
  intros Hn H. induction l as [|[e t] l IH]; [congruence|]. apply Forall_inv_tail in H as Hl. apply Forall_inv in H. destruct l as [|[e' t'] l].
  - now apply wl_one.
  - change (delimited (map snd ((e, t) :: (e', t') :: l))) with (t ++ [] ++ ","%char :: [" "%char] ++ delimited (map snd ((e', t') :: l))). apply wl_cons; auto using gap_nil, blank_space. apply IH; [discriminate|auto].
Qed.
Lemma args_ok (f : pterm -> text) l : l <> [] -> Forall (fun p => W Expression (tree (regroup p)) (f p)) l ->
  writes_list known_functions true (map tree (map regroup l)) (delimited (map f l)).
Proof.
  intros Hn H. pose proof (list_ok (map (fun p => (tree (regroup p), f p)) l)) as L. rewrite !map_map in L. rewrite map_map. apply L; [now destruct l|].
  clear Hn L. induction H; cbn; constructor; auto.
Qed.

Theorem printed p : readable p -> alone p /\ after p.
Proof.
  induction p as [k n| |z|t|t args IH|args IH|k args IH] using pterm_induction; intros Hr.
  1-6: assert (N : forall p, match p with POp _ _ => False | _ => True end -> forall g, ~ in_group g p) by (intros q Hp g (? & ? & ? & -> & _); exact Hp).
  1-6: assert (K : forall p, match p with POp _ _ => False | _ => True end -> W Atomic (tree (regroup p)) (print p) -> alone p /\ after p);
    [intros q Hq Hw; assert (A : alone q) by (split; [intros g Hg; exfalso; eapply N; eauto|auto]); split; auto;
     intros o a s Ha; rewrite (pattach_not _ (group_of o)) by (auto using arith_group; rewrite regroup_in_group; now apply N);
     cbn [tree map]; rewrite (proj2 (op_of_iff _ o) eq_refl); apply step; auto; apply operand_sub; auto; now apply N|].
  - apply K; [exact I|]. inversion Hr; subst. now apply w_leaf, lt_var.
  - apply K; [exact I|]. apply w_leaf, lt_anon.
  - apply K; [exact I|]. apply integer_ok.
  - apply K; [exact I|]. inversion Hr; subst. now apply iri_ok.
  - apply K; [exact I|]. inversion Hr as [| | | |? a args' Hn Hk Ha| |]; subst. cbn [regroup tree print].
    assert (L : writes_list known_functions true (map tree (map regroup (a :: args'))) (delimited (map print (a :: args')))).
    { apply args_ok; [discriminate|]. rewrite Forall_forall in *. intros x Hx. destruct (IH x Hx (Ha x Hx)) as (A & _). now apply (operand_expression x []). }
    change (t ++ "("%char :: delimited (map print (a :: args')) ++ [")"%char]) with (t ++ "("%char :: [] ++ delimited (map print (a :: args')) ++ [] ++ [")"%char]).
    apply w_call; auto using b_nil, gap_nil. now apply tt_name.
  - apply K; [exact I|]. inversion Hr as [| | | | |a b args' Ha|]; subst. cbn [regroup tree print].
    assert (E : Forall (fun p => W Expression (tree (regroup p)) (print p)) (a :: b :: args')).
    { rewrite Forall_forall in *. intros x Hx. destruct (IH x Hx (Ha x Hx)) as (A & _). now apply (operand_expression x []). }
    pose proof (args_ok print (b :: args') ltac:(discriminate) (Forall_inv_tail E)) as L. apply Forall_inv in E.
    change (delimited (map print (a :: b :: args'))) with (print a ++ ","%char :: " "%char :: delimited (map print (b :: args'))).
    rewrite <- app_assoc. change ("("%char :: print a ++ (","%char :: " "%char :: delimited (map print (b :: args'))) ++ [")"%char]) with
      ("("%char :: [] ++ print a ++ [] ++ ","%char :: [" "%char] ++ delimited (map print (b :: args')) ++ [")"%char]).
    rewrite <- (app_nil_r (delimited (map print (b :: args')))). apply w_tuple; auto using b_nil, gap_nil, blank_space. apply wk_list; auto using gap_nil.
  - inversion Hr as [| | | | | |? ? Hk Hc Ha]; subst.
    assert (IHA : Forall (fun p => alone p /\ after p) args) by (rewrite Forall_forall in *; auto). clear IH.
    destruct (groups_dec (POp k args)) as [(g & Hg)|Hg].
    + destruct Hg as (k' & a & b & [= <- ->] & Hg). destruct (group_arith _ _ Hg) as (o & -> & ->).
      assert (IHa := Forall_inv IHA). assert (IHb := Forall_inv (Forall_inv_tail IHA)). destruct IHa as (Aa & Fa). destruct IHb as (Ab & Fb).
      assert (Ho : op_of (arith_kind o) <> None) by (rewrite (proj2 (op_of_iff _ o) eq_refl); discriminate).
      assert (Ep : print (POp (arith_kind o) [a; b]) = operand_text (arith_kind o) a ++ " "%char :: [op_text o] ++ " "%char :: operand_text (arith_kind o) b).
      { cbn [print map]. now rewrite infix_arith. }
      assert (A : alone (POp (arith_kind o) [a; b])).
      { split.
        - intros g (k & x & y & [= <- <- <-] & H). rewrite (gkind_fun _ _ _ H Hg). rewrite Ep, regroup_group by auto. apply Fb. now apply operand_lv.
        - intros H. exfalso. apply (H (group_of o)). now exists (arith_kind o), a, b. }
      split; auto. intros o' x s Hx. destruct (group_eqb (group_of o') (group_of o)) eqn:G.
      * apply group_eqb_eq in G. rewrite regroup_group by auto. rewrite (pattach_assoc _ (group_of o)) by (auto using arith_group; rewrite <- G; apply arith_group).
        replace (operand_text (arith_kind o') (POp (arith_kind o) [a; b])) with (print (POp (arith_kind o) [a; b])) by (unfold operand_text, braces; now rewrite !precedence_arith, G, Nat.ltb_irrefl).
        rewrite Ep, (operand_same o o' a) by auto.
        replace (s ++ " "%char :: [op_text o'] ++ " "%char :: operand_text (arith_kind o') a ++ " "%char :: [op_text o] ++ " "%char :: operand_text (arith_kind o) b)
          with ((s ++ " "%char :: [op_text o'] ++ " "%char :: operand_text (arith_kind o') a) ++ " "%char :: [op_text o] ++ " "%char :: operand_text (arith_kind o) b) by (rewrite <- app_assoc; reflexivity).
        rewrite G. apply Fb. rewrite <- G. apply Fa. exact Hx.
      * assert (N : ~ in_group (group_of o') (POp (arith_kind o) [a; b])).
        { intros (k & u & v & [= <- <- <-] & H). rewrite (gkind_fun _ _ _ H Hg) in G. assert (group_eqb (group_of o) (group_of o) = true) by now apply group_eqb_eq. congruence. }
        rewrite (pattach_not _ (group_of o')) by (auto using arith_group; now rewrite regroup_in_group). cbn [tree map]. rewrite (proj2 (op_of_iff _ o') eq_refl).
        apply step; auto. apply operand_sub; auto.
    + assert (N2 : op_of k <> None -> List.length args <> 2).
      { intros Ho H2. destruct (op_of k) as [o|] eqn:E; [|congruence]. apply op_of_iff in E. subst k. destruct args as [|a [|b [|c l]]]; try discriminate. apply (Hg (group_of o)). exists (arith_kind o), a, b. split; auto. apply arith_group. }
      assert (Et : tree (regroup (POp k args)) = TCall true (LName k) (map tree (map regroup args))).
      { rewrite regroup_other by auto. apply tree_op. rewrite map_length. auto. }
      assert (Ep : print (POp k args) = kind_name k ++ "("%char :: delimited (map (operand_text k) args) ++ [")"%char]).
      { cbn [print]. change (map (fun a => braces k a (print a)) args) with (map (operand_text k) args). destruct (infix_representation k) as [i|] eqn:Ei; auto.
        destruct args as [|a [|b [|c l]]]; auto. exfalso. destruct (op_of k) as [o|] eqn:E; [now apply N2|].
        assert (Hq : ~ In k comparison_kinds) by (intros H; apply Hc; auto). rewrite (infix_none k Hk E Hq) in Ei. discriminate. }
      assert (A : alone (POp k args)).
      { split; [intros g H; exfalso; now apply (Hg g)|]. intros _. rewrite Et, Ep.
        change (kind_name k ++ "("%char :: delimited (map (operand_text k) args) ++ [")"%char]) with (kind_name k ++ "("%char :: [] ++ delimited (map (operand_text k) args) ++ [")"%char]).
        apply w_known; auto using kind_name_ok, b_nil. destruct args as [|a l]; [apply wk_nil|].
        rewrite <- (app_nil_r (delimited _)). apply wk_list; auto using gap_nil. apply args_ok; [discriminate|]. rewrite Forall_forall in *. intros x Hx. apply operand_expression. now apply IHA. }
      split; auto. intros o a s Hs. rewrite (pattach_not _ (group_of o)) by (auto using arith_group; rewrite regroup_in_group; auto).
      change (tree (POp (arith_kind o) [a; regroup (POp k args)])) with (match op_of (arith_kind o) with Some o => TBin o (tree a) (tree (regroup (POp k args))) | None => TCall true (LName (arith_kind o)) [tree a; tree (regroup (POp k args))] end).
      rewrite (proj2 (op_of_iff _ o) eq_refl). apply step; auto. apply operand_sub; auto.
Qed.
