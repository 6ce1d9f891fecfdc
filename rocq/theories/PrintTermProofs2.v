(** The texts of terms, and their translation. *)
From Coq Require Import String List Arith ZArith Bool Ascii Lia.
From Verif Require Import ParseModel ParseSpec ParseProofs6 NumLitModel NumLitSpec NumLitProofs PrintTermModel PrintTermSpec PrintTermProofs1.
Import ListNotations.
Local Open Scope list_scope.

Lemma functions_ok : function_names known_functions.
Proof. apply function_names_ok; vm_compute; reflexivity. Qed.

(** ** Numbers *)
Lemma digit_char_ok d : (0 <= d < 10)%Z -> digit_of (digit_char d) d /\ is_digit (digit_char d) = true.
Proof.
  intros H. assert (C : In d [0; 1; 2; 3; 4; 5; 6; 7; 8; 9]%Z) by (cbn; lia).
  cbn in C. repeat (destruct C as [<-|C]; [split; [split; [lia|left; reflexivity]|reflexivity]|]). destruct C.
Qed.
Lemma decimal_ok : forall f z, (0 <= z < 10 ^ Z.of_nat f)%Z -> f <> O -> numeral 10 (decimal_ f z) z /\ digits_text (decimal_ f z).
Proof.
  induction f as [|f IH]; intros z Hz Hf; [congruence|]. cbn [decimal_]. destruct (Z.ltb_spec z 10) as [L|L].
  - destruct (digit_char_ok z) as (D & E); [lia|]. split.
    + change [digit_char z] with ([] ++ [digit_char z]). replace z with (0 * 10 + z)%Z at 2 by lia. apply n_digit; [constructor|auto|lia].
    + split; [discriminate|]. intros c [<-|[]]; auto.
  - destruct (digit_char_ok (z mod 10)) as (D & E); [apply Z.mod_pos_bound; lia|].
    assert (M : (z = z / 10 * 10 + z mod 10)%Z) by (rewrite Z.mul_comm; apply Z.div_mod; lia).
    assert (P : (10 ^ Z.of_nat (S f) = 10 * 10 ^ Z.of_nat f)%Z) by (rewrite Nat2Z.inj_succ, Z.pow_succ_r; lia).
    destruct (IH (z / 10)%Z) as (N & T').
    + split; [apply Z.div_pos; lia|]. apply Z.div_lt_upper_bound; lia.
    + destruct f; [|discriminate]. cbn in Hz. lia.
    + split.
      * replace (numeral 10 (decimal_ f (z / 10) ++ [digit_char (z mod 10)]) z) with (numeral 10 (decimal_ f (z / 10) ++ [digit_char (z mod 10)]) (z / 10 * 10 + z mod 10)%Z) by now rewrite <- M.
        apply n_digit; auto. apply Z.mod_pos_bound. lia.
      * destruct T' as (T1 & T2). split; [destruct (decimal_ f (z / 10)); discriminate|]. intros c Hc. apply in_app_iff in Hc. destruct Hc as [Hc|[<-|[]]]; auto.
Qed.
Lemma decimal_text_ok z : (0 <= z)%Z -> numeral 10 (decimal_text z) z /\ digits_text (decimal_text z).
Proof.
  intros H. apply decimal_ok; [|discriminate]. split; auto. rewrite Nat2Z.inj_succ, Z2Nat.id by apply Z.log2_nonneg.
  destruct (Z.eq_dec z 0) as [->|N]; [reflexivity|]. eapply Z.lt_le_trans; [apply Z.log2_spec; lia|]. apply Z.pow_le_mono_l. lia.
Qed.

(** ** The terms that are written *)
Definition op_of (k : text) : option arith_op :=
  option_map snd (find (fun x => text_eqb (fst x) k) [(T "sum", Add); (T "subtraction", Sub); (T "product", Mul); (T "division", Div)]).
Definition integer_number (z : Z) : number := mkNum (if (z <? 0)%Z then Some true else None) (decimal_text (Z.abs z)) None None None.
Fixpoint tree (p : pterm) : term :=
  match p with
  | PVar k n => TLeaf (LVar k n)
  | PAnon => TLeaf LAnon
  | PInt z => TLeaf (LNum (integer_number z))
  | PIri t => TLeaf (if is_name t then LName t else LIri t)
  | PFun t args => TCall false (LName t) (map tree args)
  | PTuple args => TTuple (map tree args)
  | POp k args => match op_of k, map tree args with Some o, [a; b] => TBin o a b | _, l => TCall true (LName k) l end
  end.
Lemma op_of_iff k o : op_of k = Some o <-> k = arith_kind o.
Proof.
  unfold op_of. split.
  - destruct (find _ _) as [[a b]|] eqn:E; [|discriminate]. cbn [option_map snd]. intros [= <-]. apply find_some in E. destruct E as (H & E). apply text_eqb_eq in E. cbn [fst] in E. subst.
    cbn [In] in H. destruct H as [H|[H|[H|[H|[]]]]]; injection H as <- <-; reflexivity.
  - intros ->. destruct o; reflexivity.
Qed.
Definition group_of (o : arith_op) : group := if additive_op o then Additive else Multiplicative.
Lemma arith_group o : In (arith_kind o, group_of o) arithmetic_kinds.
Proof. apply gkind_iff. destruct o; reflexivity. Qed.
Lemma group_arith k g : In (k, g) arithmetic_kinds -> exists o, k = arith_kind o /\ g = group_of o.
Proof. unfold arithmetic_kinds. cbn [In]. intros [H|[H|[H|[H|[]]]]]; injection H as <- <-; [exists Add|exists Sub|exists Mul|exists Div]; split; reflexivity. Qed.
Lemma tree_op k l : (op_of k <> None -> List.length l <> 2) -> tree (POp k l) = TCall true (LName k) (map tree l).
Proof. intros H. cbn [tree]. destruct (op_of k); auto. destruct l as [|x [|y [|z l]]]; auto. now destruct H. Qed.

(** ** Translation *)
Section ExprInd.
  Variable P : expr -> Prop.
  Hypotheses (Hl : forall l, P (ELeaf l)) (Ho : forall k args, Forall P args -> P (EOp k args)) (Ha : forall l args, Forall P args -> P (EAtom l args))
    (Ht : forall args, Forall P args -> P (ETuple args)) (Hp : forall e, P e -> P (EParen e)) (Hb : forall o a b, P a -> P b -> P (EArith o a b)).
  Fixpoint expr_induction (e : expr) : P e.
  Proof.
    assert (L : forall l : list expr, Forall P l) by (fix go 1; intros [|x l]; constructor; [apply expr_induction|apply go]).
    destruct e as [l|k args|l args|args|e|o a b]; [apply Hl|apply Ho, L|apply Ha, L|apply Ht, L|apply Hp, expr_induction|apply Hb; apply expr_induction].
  Defined.
End ExprInd.
Fixpoint small (p : pterm) : Prop :=
  match p with
  | PInt z => fits_i64 z
  | PFun _ l | PTuple l | POp _ l => fold_right (fun x P => small x /\ P) True l
  | _ => True
  end.
Lemma all_trees l : forall es, Forall (fun e => forall p, term_of e = tree p -> small p -> translate e = Some p) es ->
  map term_of es = map tree l -> fold_right (fun x P => small x /\ P) True l -> all (map translate es) = Some l.
Proof.
  induction l as [|p l IH]; intros [|e es] H E Hs; try discriminate; auto. cbn in *. injection E as E1 E2. destruct Hs. rewrite (Forall_inv H p) by auto.
  fold (all (map translate es)). now rewrite (IH es (Forall_inv_tail H)).
Qed.
Lemma translate_ok e : forall p, term_of e = tree p -> small p -> translate e = Some p.
Proof.
  induction e as [l|k args IH|l args IH|args IH|e IH|o a b IHa IHb] using expr_induction; intros p E Hs.
  - destruct p as [k n| |z|t|t pl|pl|k pl]; cbn [term_of tree] in E; try discriminate.
    + injection E as ->. reflexivity.
    + injection E as ->. reflexivity.
    + injection E as ->. cbn [translate translate_leaf].
      destruct (decimal_text_ok (Z.abs z)) as (Hn & Hd); [lia|].
      assert (S1 : signed (negative (integer_number z)) (Z.abs z) = z) by (unfold integer_number, negative, signed; cbn; destruct (Z.ltb_spec z 0); lia).
      cbn in Hs. rewrite (literal_integer (integer_number z) (Z.abs z)); [now rewrite S1|split; [exact Hd|split; exact I]|split; reflexivity|exact Hn|now rewrite S1].
    + destruct (is_name t); injection E as ->; reflexivity.
    + destruct (op_of k); [destruct (map tree pl) as [|? [|? [|? ?]]]|]; discriminate.
  - destruct p as [k' n| |z|t|t pl|pl|k' pl]; cbn [term_of tree] in E; try discriminate.
    assert (E' : k = k' /\ map term_of args = map tree pl) by (destruct (op_of k'); [destruct (map tree pl) as [|? [|? [|? ?]]]|]; first [discriminate|injection E as E1 E2; split; assumption]). destruct E' as (<- & E').
    cbn [translate]. rewrite (all_trees pl args); auto.
  - destruct p as [k' n| |z|t|t pl|pl|k' pl]; cbn [term_of tree] in E; try discriminate; [|destruct (op_of k'); [destruct (map tree pl) as [|? [|? [|? ?]]]|]; discriminate].
    injection E as -> E. cbn [translate resolve_tag]. rewrite (all_trees pl args); auto.
  - destruct p as [k' n| |z|t|t pl|pl|k' pl]; cbn [term_of tree] in E; try discriminate; [|destruct (op_of k'); [destruct (map tree pl) as [|? [|? [|? ?]]]|]; discriminate].
    injection E as E. cbn [translate]. rewrite (all_trees pl args); auto.
  - cbn in *. auto.
  - destruct p as [k' n| |z|t|t pl|pl|k' pl]; cbn [term_of tree] in E; try discriminate.
    destruct (op_of k') as [o'|] eqn:Eo; [|discriminate]. destruct pl as [|x [|y [|? ?]]]; cbn [map] in E; try discriminate. injection E as -> Ea Eb.
    apply op_of_iff in Eo. subst k'. cbn in Hs. destruct Hs as (Hx & Hy & _). cbn [translate]. now rewrite (IHa x), (IHb y).
Qed.
