(* Expressions over data values: evaluation of compiled programs (C26), announced storage types
   (C34), filters (C35), computed columns (C36).  Specifications: ExprSpec.v.  The theorems are
   about the functions of ExprFunModel.v, for arbitrary floating point operations [O] and an
   arbitrary assignment of dictionary ids ([small]). *)

From Coq Require Import List ZArith Bool Lia.
From Verif Require Import IntModel ExprModel ExprSpec ExprFunModel.
From Verif Require Import ExprProofs ExprProofs2 ExprProofs3 ExprProofs4 ExprFunProofs.
Import ListNotations.
Local Open Scope nat_scope.

(* ---------- C26 ---------- *)

(* Whatever the functions of the language are: a compiled expression run on enough values never
   panics; it returns a value iff the expression has that value. *)
Theorem C26_evaluation : forall (L : language) debug this thisv refmap refs (t : tree L) p,
  compile debug this refmap t = Ok p -> NoDup refmap -> length refmap <= length refs ->
  exists o, evaluate p refs thisv [] = Ok o /\
    forall v, o = Some v <-> denotes (binding this thisv refmap refs) t v.
Proof. exact compile_denotes. Qed.

(* Every expression whose references are available compiles.  Partial: with overflow checks, not
   if it applies an n-ary function to zero arguments. *)
Theorem C26_compiles_partial : forall (L : language) debug this refmap (t : tree L),
  (forall r, In r (references t) -> this = Some r \/ In r refmap) ->
  (debug = true -> no_empty_application t) ->
  exists p, compile debug this refmap t = Ok p.
Proof. exact compile_exists. Qed.

Theorem C26_empty_application_refuted : forall (L : language) this refmap (f : fnn L),
  compile true this refmap (Nar f []) = Panicked /\
  (exists p, compile false this refmap (Nar f []) = Ok p).
Proof. intros. split; [reflexivity|eexists; reflexivity]. Qed.

(* Renaming the references of a program amounts to moving the values. *)
Theorem C26_rename : forall (L : language) (map : nat -> option nat) (p : list (sop L)) refs refs' this,
  (forall i, nth_error refs' (match map i with Some j => j | None => i end) = nth_error refs i) ->
  evaluate (rename_references map p) refs' this [] = evaluate p refs this [].
Proof. intros. apply evaluate_rename. assumption. Qed.

(* The value of an expression is unique. *)
Theorem C26_functional : forall (L : language) (bound : nat -> val L -> Prop) (t : tree L),
  (forall r v w, bound r v -> bound r w -> v = w) ->
  (forall r, In r (references t) -> exists v, bound r v) ->
  forall v w, denotes bound t v -> denotes bound t w -> v = w.
Proof.
  intros L bound t Hf Hb.
  assert (exists env : nat -> option (val L), forall r, In r (references t) -> forall v, env r = Some v <-> bound r v) as [env Henv].
  { clear -Hf Hb. induction (references t) as [|r l IH]; [exists (fun _ => None); intros r []|].
    destruct IH as [env Henv]; [intros r' Hr'; apply Hb; right; exact Hr'|].
    destruct (Hb r (or_introl eq_refl)) as [v Hv].
    exists (fun x => if Nat.eq_dec x r then Some v else env x). intros x Hx w.
    destruct (Nat.eq_dec x r) as [->|Hne].
    - split; [intros E; injection E as <-; exact Hv|intros Hw; f_equal; eapply Hf; eassumption].
    - apply Henv. destruct Hx as [->|Hx]; [congruence|exact Hx]. }
  intros v w Hv Hw. apply (sem_denotes L bound env t Henv) in Hv. apply (sem_denotes L bound env t Henv) in Hw.
  congruence.
Qed.

(* ---------- C34 ---------- *)

(* the constants of an expression do not include integers of the domain UnsignedLong *)
Fixpoint no_unsigned_long {O small} (t : tree (@nemo O small)) : Prop :=
  match t with
  | Const (VBig _) => False
  | Const _ | Ref _ => True
  | Un _ t => no_unsigned_long t
  | Bin _ l r => no_unsigned_long l /\ no_unsigned_long r
  | Ter _ a b c => no_unsigned_long a /\ no_unsigned_long b /\ no_unsigned_long c
  | Nar _ ts => fold_right (fun t P => no_unsigned_long t /\ P) True ts
  end.

Lemma no_unsigned_long_typed : forall O small (t : tree (@nemo O small)), no_unsigned_long t -> constants_typed t.
Proof.
  intros O small t. induction t as [c|r|f t IH|f l r IHl IHr|f a b c IHa IHb IHc|f ts IH] using tree_induction;
    cbn [no_unsigned_long constants_typed]; try tauto.
  - destruct c; intros H; cbn; try reflexivity; try destruct H; destruct (small _); reflexivity.
  - induction IH as [|t ts Ht Hts IH]; cbn; [auto|]. intros [H1 H2]. split; auto.
Qed.

(* If the values supplied have the announced types then so has the value of the expression.
   Partial: unless the expression contains a constant of the domain UnsignedLong. *)
Theorem C34_types_partial : forall (O : float_ops) small debug refmap (types_of : list types) (t : tree (@nemo O small)) p,
  compile debug None refmap t = Ok p -> NoDup refmap -> length refmap <= length types_of ->
  no_unsigned_long t ->
  exists T, type_propagation p types_of None [] = Ok T /\
    forall refs v, conforms types_of refs -> denotes (binding None None refmap refs) t v ->
      types_contains T (storage_type small v) = true.
Proof.
  intros O small debug refmap ts t p Hp Hnd Hlen Hc.
  destruct (compile_type _ (nemo_typed O small) debug refmap ts t p Hlen (no_unsigned_long_typed _ _ _ Hc) Hp) as (T & HT & Hv).
  exists T. split; [exact HT|]. intros refs v Hconf Hd. apply (Hv refs Hconf).
  apply (sem_denotes _ (binding None None refmap refs)); [|exact Hd]. intros r _ w. apply env_of_binding, Hnd.
Qed.

(* A constant of that domain is announced as a 64-bit integer but stored as a dictionary id. *)
Theorem C34_unsigned_long_refuted : forall (O : float_ops) small z,
  exists p T, compile true None [] (@Const (@nemo O small) (VBig z)) = Ok p /\
    type_propagation p [] None [] = Ok T /\
    denotes (binding None None [] []) (@Const (@nemo O small) (VBig z)) (VBig z) /\
    types_contains T (storage_type small (VBig z)) = false.
Proof.
  intros O small z. eexists _, _. split; [reflexivity|]. split; [reflexivity|].
  split; [constructor|]. cbn. destruct (small (VBig z)); reflexivity.
Qed.

(* ---------- C35 ---------- *)

(* equality of floating point numbers is symmetric *)
Definition symmetric (O : float_ops) : Prop :=
  (forall a b, feqb O a b = feqb O b a) /\ (forall a b, deqb O a b = deqb O b a).

(* The filter operator keeps exactly the rows that pass all filters.  Partial: the table must have
   at least one column (and see C26_empty_application_refuted). *)
Theorem C35_filter_partial : forall (O : float_ops) small debug (table : list nat) (filters : list (tree (@nemo O small))),
  symmetric O -> table <> [] -> NoDup table ->
  (forall f, In f filters -> forall r, In r (references f) -> In r table) ->
  (debug = true -> forall f, In f filters -> no_empty_application f) ->
  exists cols, filter_new debug table filters = Ok cols /\
    forall row, length row = length table -> exists keep, filter_row cols row [] = Ok keep /\
      (keep = true <-> forall f, In f filters -> passes table row f).
Proof. intros O small debug table filters [Hf Hd]. apply filter_correct, nemo_lawful; assumption. Qed.

(* On a table without columns any filter makes the program panic: `a() :- b(), 1 < 2.` *)
Theorem C35_no_columns_refuted : forall (O : float_ops) small debug (f : tree (@nemo O small)) fs,
  filter_new debug [] (f :: fs) = Panicked.
Proof. reflexivity. Qed.

(* ---------- C36 ---------- *)

(* The function operator extends a row by the values of the computed columns, and drops it iff one
   of them has no value.  Partial: the three last hypotheses. *)
Theorem C36_function_partial :
  forall (O : float_ops) small debug (output : list nat) (functions : list (nat * tree (@nemo O small))),
  NoDup output -> NoDup (map fst functions) ->
  (forall m t, In (m, t) functions -> exists before after,
     output = before ++ m :: after /\ forall r, In r (references t) -> In r before) ->
  (debug = true -> forall m t, In (m, t) functions -> no_empty_application t) ->
  (* a column that is copied is also the input of a proper function *)
  (forall m r, In (m, Ref r) functions ->
     exists m' t', In (m', t') functions /\ (forall r', t' <> Ref r') /\ In r (references t')) ->
  (* no constants of the domain UnsignedLong *)
  (forall m t, In (m, t) functions -> no_unsigned_long t) ->
  exists op, function_new debug output functions = Ok op /\
    forall input row, conforms input row -> length row = length (input_columns output functions) ->
    exists o, function_apply op input row = Ok o /\
      forall row', o = Some row' <-> computes output functions row row'.
Proof.
  intros O small debug output functions Hnd Hndf Hord Hne Hcopy Hbig.
  apply function_correct; auto using nemo_typed. intros m t Hin. specialize (Hbig m t Hin).
  split; [apply no_unsigned_long_typed, Hbig|]. intros _ v Hv.
  assert (Hnb : forall z, v <> VBig z).
  { clear -Hv Hbig. intros z. destruct Hv; intros E.
    - subst v. exact Hbig.
    - assumption.
    - cbn in H. subst w. destruct f; cbn in H.
      + unfold num1_eval in H. destruct (from_any v) as [[x|x|x]|]; [| | |discriminate].
        * destruct n; try discriminate; try (destruct (run1_num _ _ _ _ H); discriminate).
        * destruct (f1 O n x); discriminate.
        * destruct (d1 O n x); discriminate.
      + destruct v; discriminate.
      + discriminate.
      + discriminate.
      + discriminate.
      + discriminate.
      + discriminate.
      + discriminate.
      + discriminate.
      + destruct v; discriminate.
    - cbn in H. subst w. destruct f as [| |o]; cbn in H; [discriminate|discriminate|].
      destruct (pair_cast v1 v2) as [[a b|a b|a b]|]; [| | |discriminate].
      + destruct (of_outcome_cases _ _ _ H) as [[x E]|[x E]]; discriminate.
      + destruct (is_shift o); [discriminate|]. destruct (is_comparison o); [discriminate|]. destruct (f2 O o a b); discriminate.
      + destruct (is_shift o); [discriminate|]. destruct (is_comparison o); [discriminate|]. destruct (d2 O o a b); discriminate.
    - destruct f.
    - cbn in H0. subst w. destruct f as [| |o|]; cbn in H0.
      + match type of H0 with option_map _ ?x = _ => destruct x end; discriminate.
      + match type of H0 with option_map _ ?x = _ => destruct x end; discriminate.
      + destruct (is_bitwise o).
        * destruct (list_same vs) as [[l|l|l]|]; try discriminate. destruct (of_outcome_cases _ _ _ H0) as [[x E]|[x E]]; discriminate.
        * destruct (list_cast vs) as [[l|l|l]|]; [| | |discriminate].
          -- destruct (of_outcome_cases _ _ _ H0) as [[x E]|[x E]]; discriminate.
          -- destruct (fn_ O (Some o) l); discriminate.
          -- destruct (dn_ O (Some o) l); discriminate.
      + destruct (list_cast vs) as [[l|l|l]|]; [discriminate| | |discriminate].
        * destruct (fn_ O None l); discriminate.
        * destruct (dn_ O None l); discriminate. }
  cbn. destruct v; cbn; try reflexivity; try (destruct (small _); reflexivity).
  exfalso. eapply Hnb. reflexivity.
Qed.

(* ---------- counterexamples and examples ---------- *)

(* an implementation of the floating point operations for the examples: integers *)
Definition zops : float_ops := {|
  F := Z; D := Z; feqb := Z.eqb; deqb := Z.eqb;
  f1 := fun _ x => Some x; d1 := fun _ x => Some x;
  f2 := fun _ x y => Some (x + y)%Z; d2 := fun _ x y => Some (x + y)%Z;
  fcmp := fun _ x y => (x <? y)%Z; dcmp := fun _ x y => (x <? y)%Z;
  fn_ := fun _ l => Some (fold_right Z.add 0%Z l); dn_ := fun _ l => Some (fold_right Z.add 0%Z l);
  d_of_z := fun z => z; d_of_f := fun z => z |}.
Definition all_small (_ : dvalue zops) : bool := true.
Notation LZ := (@nemo zops all_small).
Definition plus (a b : tree LZ) : tree LZ := @Bin LZ (FNum2 Add) a b.
Definition int (z : Z) : tree LZ := @Const LZ (VInt z).
Definition var (m : nat) : tree LZ := @Ref LZ m.
Definition run_function (output : list nat) (functions : list (nat * tree LZ)) (input : list types) (row : list (dvalue zops)) :=
  bind (function_new true output functions) (fun op => function_apply op input row).

(* `?z = ?x, ?w = ?y + 1` on columns x = 0, y = 1, z = 2, w = 3: the reference to y is numbered as
   the second referenced column, but only y is read *)
Theorem C36_copied_column_refuted :
  run_function [0; 1; 2; 3] [(2, var 0); (3, plus (var 1) (int 1))]
    [types_single Int64; types_single Int64] [VInt 10; VInt 20] = Panicked.
Proof. vm_compute. reflexivity. Qed.

(* a computed constant of the domain UnsignedLong: no row is produced *)
Theorem C36_unsigned_long_refuted :
  run_function [0; 1] [(1, @Const LZ (VBig (2 ^ 63)))] [types_single Int64] [VInt 10] = Ok None /\
  computes [0; 1] [(1, @Const LZ (VBig (2 ^ 63)))] [VInt 10] [VInt 10; VBig (2 ^ 63)].
Proof.
  split; [vm_compute; reflexivity|]. split; [reflexivity|]. split.
  - intros m v [<-|[]]. split; intros (i & Hi & Hv).
    + destruct i as [|i]; [|destruct i; discriminate]. exists 0. auto.
    + destruct i as [|[|i]]; [|discriminate|destruct i; discriminate]. exists 0. auto.
  - intros m t [E|[]]. injection E as <- <-. exists (VBig (2 ^ 63)). split; [exists 1; auto|constructor].
Qed.

(* C26: (x + 1) < y with y the distinguished column *)
Example C26_ex : exists p, compile true (Some 1) [0] (@Bin LZ (FNum2 Lt) (plus (var 0) (int 1)) (var 1)) = Ok p /\
  evaluate p [VInt 4] (Some (VInt 6)) [] = Ok (Some (VBool true)) /\
  evaluate p [VStr []] (Some (VInt 6)) [] = Ok None.
Proof. eexists. split; [reflexivity|]. vm_compute. repeat split. Qed.

(* C34: int + float is announced (and is) a double *)
Example C34_ex : exists p, compile true None [0; 1] (plus (var 0) (var 1)) = Ok p /\
  type_propagation p [types_single Int64; types_single SFloat] None [] = Ok (types_single SDouble) /\
  evaluate p [VInt 4; @VFloat zops 5%Z] None [] = Ok (Some (@VDouble zops 9%Z)) /\
  no_unsigned_long (plus (var 0) (var 1)).
Proof. eexists. split; [reflexivity|]. vm_compute. repeat split. Qed.

(* C35: filters x < y, x = 2, NOT isString(y) over columns x, y, z *)
Definition ex_filters : list (tree LZ) :=
  [@Bin LZ (FNum2 Lt) (var 0) (var 1); @Bin LZ FEquals (var 0) (int 2);
   @Un LZ FNot (@Un LZ FIsString (var 2)); @Bin LZ (FNum2 Le) (int 1) (int 2)].
Example C35_ex :
  symmetric zops /\
  (forall f, In f ex_filters -> no_empty_application f /\ forall r, In r (references f) -> In r [0; 1; 2]) /\
  exists cols, filter_new true [0; 1; 2] ex_filters = Ok cols /\
    filter_row cols [VInt 2; VInt 3; VInt 7] [] = Ok true /\
    filter_row cols [VInt 2; VInt 2; VInt 7] [] = Ok false /\
    filter_row cols [VInt 1; VInt 3; VInt 7] [] = Ok false /\
    filter_row cols [VInt 2; VInt 3; VStr []] [] = Ok false.
Proof.
  split; [split; intros; apply Z.eqb_sym|]. split.
  - intros f [<-|[<-|[<-|[<-|[]]]]]; (split; [cbn; tauto|]); intros r Hr; cbn in Hr |- *; tauto.
  - eexists. split; [reflexivity|]. vm_compute. repeat split.
Qed.

(* C36: z = x + y, w = z + 1, c = 5, d = x *)
Definition ex_functions : list (nat * tree LZ) :=
  [(3, plus (var 2) (int 1)); (2, plus (var 0) (var 1)); (4, int 5); (5, var 0)].
Example C36_ex :
  NoDup [0; 1; 2; 3; 4; 5] /\ NoDup (map fst ex_functions) /\
  (forall m t, In (m, t) ex_functions -> no_empty_application t /\ no_unsigned_long t) /\
  run_function [0; 1; 2; 3; 4; 5] ex_functions [types_single Int64; types_full] [VInt 10; VInt 20] =
    Ok (Some [VInt 10; VInt 20; VInt 30; VInt 31; VInt 5; VInt 10]) /\
  run_function [0; 1; 2; 3; 4; 5] ex_functions [types_single Int64; types_full] [VInt 10; VStr []] = Ok None.
Proof.
  split; [repeat constructor; cbn; intuition discriminate|].
  split; [repeat constructor; cbn; intuition discriminate|]. split.
  - intros m t [E|[E|[E|[E|[]]]]]; injection E as <- <-; cbn; tauto.
  - vm_compute. repeat split.
Qed.

Print Assumptions C26_evaluation.
Print Assumptions C26_compiles_partial.
Print Assumptions C26_empty_application_refuted.
Print Assumptions C26_rename.
Print Assumptions C26_functional.
Print Assumptions C34_types_partial.
Print Assumptions C34_unsigned_long_refuted.
Print Assumptions C35_filter_partial.
Print Assumptions C35_no_columns_refuted.
Print Assumptions C36_function_partial.
Print Assumptions C36_copied_column_refuted.
Print Assumptions C36_unsigned_long_refuted.
