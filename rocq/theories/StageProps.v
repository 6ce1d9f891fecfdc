(** C56: the body of rules with imports is the body of the rules in which imports are ordinary predicates. *)
From Coq Require Import List Arith ZArith Bool Lia Permutation Sorted.
From Verif Require Import TableModel TableSpec EngineModel EngineSpec EngineProofs8 StageModel StageSpec StageProofs1 StageProofs3 StageProofs4 StageProofs5 StageProofs7.
Import ListNotations.

(** C56. The positive atoms are partitioned into factors: two atoms are in a factor iff they are connected by shared variables. *)
Theorem C56_factors : forall atoms ops fs rest, (forall v e, In (OEq v e) ops -> e_vars e = [] -> In v (atom_vars atoms)) ->
  partition_atoms atoms ops = (fs, rest) ->
  rest = ops /\ (forall f, In f fs -> exists l, f = FAtoms l /\ l <> []) /\
  Permutation (flat_map (fun f => match f with FAtoms l => l | FOps _ => [] end) fs) atoms /\
  forall a b, linked atoms a b <-> exists l, In (FAtoms l) fs /\ In a l /\ In b l.
Proof. exact factors_spec. Qed.
Print Assumptions C56_factors.

(** C56. The tables of the program are such readers. *)
Theorem C56_tables : forall ops m, ordered ops -> run manager_new ops = Some m -> reads (manager_reader m) (fun p s t => stored ops p s (S s) t).
Proof. exact manager_rd. Qed.
Print Assumptions C56_tables.

(** C56. If the ordinary positive atoms are connected: the rows of the body are exactly the matches of the rule in which imports are ordinary
    predicates with all rows of the sources, although only the requested rows have been imported. *)
Theorem C56_one_factor_partial : forall rd D, reads rd D -> forall r, good_body r -> one_factor r -> forall S imported, serves r S imported ->
  forall cur last, last <= cur -> forall n vs ops, import_body rd imported r cur last = Some (n, vs, ops) ->
  nvars n = vs /\ NoDup vs /\ (forall v, In v vs <-> bound (plain r) v) /\ (forall t, In t (nrows n) -> length t = length vs) /\
  forall nu, fits nu n <-> import_matches r (before D cur) S nu /\ new_match r D last cur nu.
Proof.
  intros rd D Hrd r G O S imported Hs cur last Hle n vs ops H.
  destruct (one_factor_body rd D Hrd r G cur last Hle S imported Hs n vs ops O H) as (W & <- & Hv & Hf).
  split; auto. split; [apply W|]. split; auto. split; [apply W|]. exact Hf.
Qed.
Print Assumptions C56_one_factor_partial.

(** C56. Planning succeeds for such rules if the operations under the negation of an atom are over variables of the atom. *)
Theorem C56_plans : forall rd D, reads rd D -> forall r, good_body r -> one_factor r ->
  (forall p xs o, In (p, xs) (i_neg r) -> neg_op (plain r) xs o -> incl (op_vars o) xs) ->
  forall imported cur last, last <= cur -> exists x, import_body rd imported r cur last = Some x.
Proof. intros rd D Hrd r G O H imported cur last Hle. exact (one_factor_plans rd D Hrd r G cur last Hle imported O H). Qed.
Print Assumptions C56_plans.

(** C56. Rules with several factors, at the last of the steps at which they were applied: the same, if negated atoms do not combine variables of
    several factors and no operations are over the variables of a negated import.  The variables of the result are only right if the body has a
    negated atom, a filter or a function, or imports bind no further variables. *)
Theorem C56_several_factors_partial : forall rd D, reads rd D -> forall r, good_body r -> many_factors r ->
  forall steps, StronglySorted lt (0 :: steps) -> forall cur last, In (last, cur) (applications 0 steps) -> (forall c, In c steps -> c <= cur) ->
  (forall l c, In (l, c) (applications 0 steps) -> exists ns, factor_tables rd r c l = Some ns) ->
  forall S imp, requested rd r (applications 0 steps) S imp ->
  forall n vs ops, import_body rd (fun _ => imp) r cur last = Some (n, vs, ops) ->
  NoDup (nvars n) /\ (forall v, In v (nvars n) <-> bound (plain r) v) /\ (forall t, In t (nrows n) -> length t = length (nvars n)) /\
  (incl (atom_vars (i_pimp r)) (atom_vars (i_pos r)) \/ i_neg r <> [] \/ (exists o, body_op (plain r) o) -> nvars n = vs) /\
  forall nu, fits nu n <-> import_matches r (before D cur) S nu /\ new_match r D last cur nu.
Proof.
  intros rd D Hrd r G M steps Hso cur last Happ Hcur Hplan S imp Hreq n vs ops H.
  destruct (many_factors_body rd D Hrd r G M steps Hso cur last Happ Hcur Hplan S imp Hreq n vs ops H) as (W & Hv & Ho & Hf).
  split; [apply W|]. split; auto. split; [apply W|]. split; auto.
Qed.
Print Assumptions C56_several_factors_partial.

(** Rules in general: the rows of the body are the matches. *)
Definition exact (r : irule) (facts source : list (tag * row)) (imported : list node -> tag -> list row) : Prop :=
  exists n vs ops, import_body (facts_reader facts) imported r 1 0 = Some (n, vs, ops) /\ nvars n = vs /\
    forall nu, fits nu n <-> import_matches r (before (step0 facts) 1) (fun p t => In (p, t) source) nu.

(** The import of all rows. *)
Definition all_rows (source : list (tag * row)) : list node -> tag -> list row := fun _ => facts_of source.
Lemma all_serve r source : serves r (fun p t => In (p, t) source) (all_rows source).
Proof.
  assert (H : forall p t, In t (facts_of source p) <-> In (p, t) source).
  { intros p t. unfold facts_of. rewrite in_map_iff. split.
    - intros ([q u] & <- & Hx). apply filter_In in Hx. destruct Hx as [Hx E]. apply Nat.eqb_eq in E. cbn in E. now subst q.
    - intros Hx. exists (p, t). split; auto. apply filter_In. cbn. now rewrite Nat.eqb_refl. }
  intros ns. split.
  - intros p t. apply H.
  - intros nu p xs _ _ Hx. now apply H.
Qed.

Definition const (z : Z) : expr := mkExpr [] (fun _ => Some z).
Definition bool_val (b : bool) : option Z := Some (if b then 1 else 0)%Z.
Definition above (v : var) (z : Z) : oper := OFilter (mkExpr [v] (fun l => match l with [a] => bool_val (Z.ltb z a) | _ => None end)).
Definition greater (v w : var) : oper := OFilter (mkExpr [v; w] (fun l => match l with [a; b] => bool_val (Z.ltb b a) | _ => None end)).
Definition plus (v w : var) (z : Z) : oper := OEq v (mkExpr [w] (fun l => match l with [a] => Some (a + z)%Z | _ => None end)).
Definition val (l : list Z) (v : var) : Z := nth v l 0%Z.

(** Refutation of [exact] by a row of the body that is no match, or the other way round. *)
Ltac compute_body H n vs ops E V F := destruct H as (n & vs & ops & E & V & F); vm_compute in E; injection E as <- <- <-.

(** A variable with a constant, h(x,y) :- a(x), p(x,y), q = 3, y > q with import p: the filter y > q is not applied, *)
Theorem C56_constant_refuted : exists facts source,
  ~ exact (mkIRule [(0, [0])] [] [(1, [0; 1])] [] [OEq 2 (const 3); greater 1 2] [0; 1]) facts source (all_rows source).
Proof.
  exists [(0, [7]%Z)], [(1, [7; 1]%Z)]. intros H. compute_body H n vs ops E V F.
  destruct (proj1 (F (val [7; 1; 3]%Z))) as [_ _ Ho _ _]; [left; reflexivity|].
  assert (C : holds (val [7; 1; 3]%Z) (greater 1 2)); [|discriminate C]. apply Ho. split; [right; left; reflexivity|].
  intros w [<- | [<- | []]].
  - left. cbn. auto.
  - eright; [left; reflexivity|]. intros w [].
Qed.
Print Assumptions C56_constant_refuted.

(** and not even computed: q is no variable of the result. *)
Theorem C56_constant_lost_refuted : ~ (forall facts source r n vs ops, import_body (facts_reader facts) (all_rows source) r 1 0 = Some (n, vs, ops) ->
  (forall v, In v (atom_vars (i_pos r ++ i_pimp r)) -> In v (i_order r)) -> forall v, bound (plain r) v -> In v vs).
Proof.
  intros H. specialize (H [(0, [7]%Z)] [(1, [7; 1]%Z)] (mkIRule [(0, [0])] [] [(1, [0; 1])] [] [OEq 2 (const 3)] [0; 1]) _ _ _ eq_refl).
  assert (B : In 2 [0; 1]); [|destruct B as [B | [B | []]]; discriminate B]. apply H.
  - cbn. intuition.
  - eright; [left; reflexivity|]. intros w [].
Qed.
Print Assumptions C56_constant_lost_refuted.

(** A filter over the variables of a negated import is only applied to the negated import: a(x), p(x,y), ~q(y), y > 3 with imports p and q. *)
Theorem C56_negated_filter_refuted : exists facts source,
  ~ exact (mkIRule [(0, [0])] [] [(1, [0; 1])] [(2, [1])] [above 1 3] [0; 1]) facts source (all_rows source).
Proof.
  exists [(0, [7]%Z)], [(1, [7; 1]%Z)]. intros H. compute_body H n vs ops E V F.
  destruct (proj1 (F (val [7; 1]%Z))) as [_ _ Ho _ _]; [left; reflexivity|].
  assert (C : holds (val [7; 1]%Z) (above 1 3)); [|discriminate C]. apply Ho. split; [left; reflexivity|].
  intros w [<- | []]. left. cbn. auto.
Qed.
Print Assumptions C56_negated_filter_refuted.

(** With two factors this happens even if the variables are those of ordinary atoms: a(x), b(y), ~q(x), x > 3. *)
Theorem C56_negated_filter_general_refuted : exists facts source,
  ~ exact (mkIRule [(0, [0]); (3, [1])] [] [] [(2, [0])] [above 0 3] [0; 1]) facts source (all_rows source).
Proof.
  exists [(0, [1]%Z); (3, [5]%Z)], []. intros H. compute_body H n vs ops E V F.
  destruct (proj1 (F (val [1; 5]%Z))) as [_ _ Ho _ _]; [left; reflexivity|].
  assert (C : holds (val [1; 5]%Z) (above 0 3)); [|discriminate C]. apply Ho. split; [left; reflexivity|].
  intros w [<- | []]. left. cbn. auto.
Qed.
Print Assumptions C56_negated_filter_general_refuted.

(** With two factors and no filters the variables are those of the ordinary atoms, but the table has the columns of the imports as well:
    a(x), b(y), p(x,z). *)
Theorem C56_output_variables_refuted : ~ (forall facts source r n vs ops, import_body (facts_reader facts) (all_rows source) r 1 0 = Some (n, vs, ops) -> nvars n = vs).
Proof.
  intros H. specialize (H [(0, [1]%Z); (3, [5]%Z)] [(1, [1; 2]%Z)] (mkIRule [(0, [0]); (3, [1])] [] [(1, [0; 2])] [] [] [0; 1; 2]) _ _ _ eq_refl).
  vm_compute in H. discriminate H.
Qed.
Print Assumptions C56_output_variables_refuted.

(** A negated atom with variables of ordinary and of import atoms, a(x), p(x,y), ~n(x,y) with import p: all x that occur in n are removed. *)
Theorem C56_negation_refuted : exists facts source,
  ~ exact (mkIRule [(0, [0])] [(2, [0; 1])] [(1, [0; 1])] [] [] [0; 1]) facts source (all_rows source).
Proof.
  exists [(0, [7]%Z); (2, [7; 1]%Z)], [(1, [7; 2]%Z)]. intros H. compute_body H n vs ops E V F.
  assert (M : fits (val [7; 2]%Z) (mkNode [0; 1] [])); [|destruct M]. apply F. constructor.
  - intros p xs [E | []]. injection E as <- <-. exists 0. split; [lia|]. split; [reflexivity|]. cbn. auto.
  - intros p xs [E | []]. injection E as <- <-. cbn. auto.
  - intros o [[] _].
  - intros p xs [E | []]. injection E as <- <-. intros (nu' & H1 & (s & _ & _ & H2) & _).
    cbn in H2. rewrite (H1 1) in H2 by (left; cbn; auto). destruct H2 as [H2 | [H2 | []]]; discriminate H2.
  - intros p xs [].
Qed.
Print Assumptions C56_negation_refuted.

(** A variable that is computed for the head, a(x), p(x,y), w = x + 2 with import p: the program panics. *)
Theorem C56_computed_refuted : exists facts source,
  import_body (facts_reader facts) (all_rows source) (mkIRule [(0, [0])] [] [(1, [0; 1])] [] [plus 2 0 2] [0; 1]) 1 0 = None.
Proof. exists [(0, [7]%Z)], [(1, [7; 2]%Z)]. reflexivity. Qed.
Print Assumptions C56_computed_refuted.

(** With two factors a negated import over a computed variable is not evaluated with this variable: a(x), b(y), w = x + 2, ~q(w) with import q. *)
Theorem C56_negated_computed_refuted : exists facts source,
  ~ exact (mkIRule [(0, [0]); (3, [1])] [] [] [(2, [2])] [plus 2 0 2] [0; 1]) facts source (all_rows source).
Proof.
  exists [(0, [7]%Z); (3, [5]%Z)], [(2, [1]%Z)]. intros H. compute_body H n vs ops E V F.
  assert (M : fits (val [7; 5; 9]%Z) (mkNode [0; 1; 2] [])); [|destruct M]. apply F. constructor.
  - intros p xs [E | [E | []]]; injection E as <- <-; exists 0; (split; [lia|]; split; [reflexivity|]); cbn; auto.
  - intros p xs [].
  - intros o [[<- | []] _]. reflexivity.
  - intros p xs [].
  - intros p xs [E | []]. injection E as <- <-. intros (nu' & H1 & H2 & _).
    assert (B : bound (plain (mkIRule [(0, [0]); (3, [1])] [] [] [(2, [2])] [plus 2 0 2] [0; 1])) 2).
    { eright; [left; reflexivity|]. intros w [<- | []]. left. cbn. auto. }
    cbn in H2. rewrite (H1 2 B) in H2. destruct H2 as [H2 | []]; discriminate H2.
Qed.
Print Assumptions C56_negated_computed_refuted.

(** With two factors the requests can miss rows: a(x), b(y), p(x,y), ~n(x,y) with import p, where the rows of p with x and y are imported only if
    they are in the tables of the factors, from which all x and y that occur in n have been removed. *)
Theorem C56_requests_refuted : exists facts source imported,
  let r := mkIRule [(0, [0]); (3, [1])] [(2, [0; 1])] [(1, [0; 1])] [] [] [0; 1] in
  serves r (fun p t => In (p, t) source) imported /\ ~ exact r facts source imported.
Proof.
  exists [(0, [7]%Z); (3, [5]%Z); (2, [7; 1]%Z)], [(1, [7; 5]%Z)],
    (fun ns p => if forallb (fun n => negb (length (nrows n) =? 0)) ns then facts_of [(1, [7; 5]%Z)] p else []).
  cbv zeta. split.
  - intros ns. destruct (forallb (fun n => negb (length (nrows n) =? 0)) ns) eqn:E.
    + apply (all_serve (mkIRule [(0, [0]); (3, [1])] [(2, [0; 1])] [(1, [0; 1])] [] [] [0; 1]) [(1, [7; 5]%Z)] ns).
    + split; [intros p t []|]. intros nu p xs _ Hf _. exfalso. rewrite <- not_true_iff_false in E. apply E, forallb_forall.
      intros n Hn. specialize (Hf n Hn). unfold fits in Hf. destruct (nrows n); [destruct Hf | reflexivity].
  - intros H. compute_body H n vs ops E V F.
    assert (M : fits (val [7; 5]%Z) (mkNode [0; 1] [])); [|destruct M]. apply F. constructor.
    + intros p xs [E | [E | []]]; injection E as <- <-; exists 0; (split; [lia|]; split; [reflexivity|]); cbn; auto.
    + intros p xs [E | []]. injection E as <- <-. cbn. auto.
    + intros o [[] _].
    + intros p xs [E | []]. injection E as <- <-. intros (nu' & H1 & (s & _ & _ & H2) & _).
      cbn in H2. rewrite (H1 1) in H2 by (left; cbn; auto). destruct H2 as [H2 | [H2 | [H2 | []]]]; discriminate H2.
    + intros p xs [].
Qed.
Print Assumptions C56_requests_refuted.

(** a(x,y), b(y), p(y,z), ~q(z), ~n(x,t), z = x + 1, z > y, t > 4 with imports p and q: the hypotheses are met, and the body has the row with
    (x,y,z) = (2,1,3); (1,1,2) has an instance of n with t = 5, and there is no b(5). *)
Definition sample : irule := mkIRule [(0, [0; 1]); (1, [1])] [(4, [0; 3])] [(2, [1; 2])] [(3, [2])] [plus 2 0 1; greater 2 1; above 3 4] [0; 1; 2].
Definition sample_facts : list (tag * row) := [(0, [1; 1]%Z); (0, [2; 1]%Z); (0, [3; 5]%Z); (1, [1]%Z); (4, [1; 5]%Z); (4, [2; 3]%Z)].
Definition sample_source : list (tag * row) := [(2, [1; 2]%Z); (2, [1; 3]%Z); (2, [5; 4]%Z); (2, [8; 9]%Z); (3, [4]%Z)].
Lemma sample_inner v : bound (inner sample) v <-> In v [1; 0; 2] \/ In v [0; 1; 2].
Proof. rewrite (bound_by (inner sample) _ _ _ eq_refl). cbn. intuition. Qed.
Lemma sample_plain v : bound (plain sample) v <-> In v [1; 0; 2] \/ In v [0; 1; 2].
Proof. rewrite (bound_by (plain sample) _ _ _ eq_refl). cbn. intuition. Qed.
Ltac cases := repeat match goal with H : In _ (_ :: _) |- _ => destruct H as [H | H] | H : In _ [] |- _ => destruct H
  | H : (_, _) = (_, _) |- _ => injection H; clear H; intros; subst | H : _ \/ _ |- _ => destruct H end; subst.

Example stage_case : reads (facts_reader sample_facts) (step0 sample_facts) /\ good_body sample /\ one_factor sample /\
  serves sample (fun p t => In (p, t) sample_source) (all_rows sample_source) /\
  (exists n vs ops, import_body (facts_reader sample_facts) (all_rows sample_source) sample 1 0 = Some (n, vs, ops) /\
    nvars n = [0; 1; 2] /\ nrows n = [[2; 1; 3]%Z]) /\
  import_matches sample (before (step0 sample_facts) 1) (fun p t => In (p, t) sample_source) (val [2; 1; 3]%Z) /\
  (forall p xs o, In (p, xs) (i_neg sample) -> neg_op (plain sample) xs o -> incl (op_vars o) xs).
Proof.
  assert (G : good_body sample).
  { constructor; cbn [sample i_pos i_neg i_pimp i_nimp i_ops i_order app].
    - intros p xs H. cases; repeat constructor; cbn; intuition discriminate.
    - split; [repeat constructor; cbn; intuition discriminate|]. intros v Hv. cbn in *. intuition.
    - intros v e H E. unfold plus, greater, above in H. cases; try discriminate H. injection H as <- <-. discriminate E.
    - intros p xs H. cases. exists 0. split; [cbn; auto|]. apply sample_plain. cbn. auto.
    - intros [|[|i]] [|[|j]] p xs q ys v Hi Hj Hne; try discriminate; contradiction.
    - intros p xs H. cases. intros v Hv. cbn in *. intuition. }
  assert (O : one_factor sample).
  { constructor; cbn [sample i_pos i_neg i_pimp i_nimp i_ops i_order app].
    - discriminate.
    - intros p xs H. cases; discriminate.
    - assert (L1 : forall a, In a [(0, [0; 1]); (1, [1])] -> linked [(0, [0; 1]); (1, [1])] a (1, [1])).
      { intros a Ha. destruct Ha as [<- | [<- | []]]; [apply linked_step with (b := (1, [1])) (v := 1)|]; try (left; cbn; auto; fail); cbn; auto. }
      intros a b Ha Hb. apply (linked_trans _ _ (1, [1])); auto. apply linked_sym. auto.
    - intros v Hv. apply sample_inner in Hv. cbn in *. intuition.
    - intros p xs _ _ v _ Hv. apply sample_inner. now apply sample_plain.
    - intros p xs o H _ (_ & _ & Hn) w Hw. destruct (Hn w Hw) as [Hb | Hx]; auto. left. apply sample_inner. now apply sample_plain.
    - intros p xs o H Ho Hi w Hw. apply sample_inner. cases; apply Hi in Hw; cases; cbn; auto. }
  split; [apply facts_reads|]. split; [exact G|]. split; [exact O|]. split; [apply all_serve|]. split.
  - do 3 eexists. split; [vm_compute; reflexivity|]. split; reflexivity.
  - split; [|intros p xs o H (Ho & Hn & Hv); cbn [sample i_neg plain r_ops i_ops] in *; cases].
    2, 3: exfalso; apply Hn; (split; [cbn; auto|]); intros w Hw; cbn in Hw; cases; apply sample_plain; cbn; auto.
    2: intros w Hw; cbn in *; cases; auto.
    destruct (import_body (facts_reader sample_facts) (all_rows sample_source) sample 1 0) as [[[n vs] ops]|] eqn:E; [|discriminate E].
    destruct (C56_one_factor_partial _ _ (facts_reads sample_facts) sample G O _ _ (all_serve sample sample_source) 1 0 (Nat.le_0_l 1) n vs ops E) as (_ & _ & _ & _ & F).
    apply (F (val [2; 1; 3]%Z)). vm_compute in E. injection E as <- _ _. left. reflexivity.
Qed.

(** a(x), b(y), p(x,y,z), ~q(z), ~n(x,t), z > y, t > 4 with imports p and q, where a(1) and b(5) are in different steps: the bindings of x have been
    requested when the rule was applied before, and only the row (1,5,9) of p has been imported. *)
Definition sample2 : irule := mkIRule [(0, [0]); (1, [1])] [(4, [0; 3])] [(2, [0; 1; 2])] [(3, [2])] [greater 2 1; above 3 4] [0; 1; 2].
Definition timed_facts : list (nat * (tag * row)) := [(0, (0, [1]%Z)); (0, (4, [1; 3]%Z)); (2, (1, [5]%Z))].
Definition sample2_source : list (tag * row) := [(2, [1; 5; 9]%Z); (2, [1; 6; 9]%Z); (2, [7; 5; 9]%Z); (3, [4]%Z)].
Lemma sample2_plain v : bound (plain sample2) v <-> In v [0; 1; 0; 1; 2].
Proof. rewrite (bound_by (plain sample2) _ _ _ eq_refl). cbn. intuition. Qed.
Lemma sample2_part l v : bound (part sample2 l) v -> In v (atom_vars l).
Proof. intros H. destruct H as [v H|v e H _]; [exact H|]. cbn in H. unfold greater, above in H. destruct H as [H | [H | []]]; discriminate H. Qed.
Lemma sample2_vars l v : factor_of sample2 l -> In v (atom_vars l) -> v = 0 \/ v = 1.
Proof.
  intros (a & Ha & Hl) Hv. unfold atom_vars in Hv. apply in_flat_map in Hv. destruct Hv as (b & Hb & Hv). apply Hl, linked_in in Hb.
  destruct Hb as [_ [<- | [<- | []]]]; cbn in Hv; intuition.
Qed.

Example several_case : reads (timed_reader timed_facts) (fun p s t => In (s, (p, t)) timed_facts) /\ good_body sample2 /\ many_factors sample2 /\
  StronglySorted lt [0; 1; 3] /\ In (1, 3) (applications 0 [1; 3]) /\
  (forall l c, In (l, c) (applications 0 [1; 3]) -> exists ns, factor_tables (timed_reader timed_facts) sample2 c l = Some ns) /\
  requested (timed_reader timed_facts) sample2 (applications 0 [1; 3]) (fun p t => In (p, t) sample2_source)
    (fun p => if p =? 2 then [[1; 5; 9]%Z] else if p =? 3 then [[4]%Z] else []) /\
  exists ops, import_body (timed_reader timed_facts) (fun _ p => if p =? 2 then [[1; 5; 9]%Z] else if p =? 3 then [[4]%Z] else []) sample2 3 1 =
    Some (mkNode [0; 1; 2] [[1; 5; 9]%Z], [0; 1; 2], ops).
Proof.
  split; [|split; [|split; [|split; [|split; [|split; [|split]]]]]].
  - intros p lo hi. eexists. split; [reflexivity|]. intros t. rewrite in_map_iff. split.
    + intros ([s [q u]] & <- & H). apply filter_In in H. destruct H as [H E]. cbn in *. apply andb_true_iff in E. destruct E as [E E3].
      apply andb_true_iff in E. destruct E as [E1 E2]. apply Nat.leb_le in E1. apply Nat.ltb_lt in E2. apply Nat.eqb_eq in E3. subst q. exists s. auto.
    + intros (s & Hs & H). exists (s, (p, t)). split; auto. apply filter_In. split; auto. cbn [fst snd].
      rewrite !andb_true_iff, Nat.leb_le, Nat.ltb_lt, Nat.eqb_eq. lia.
  - constructor; cbn [sample2 i_pos i_neg i_pimp i_nimp i_ops i_order app].
    + intros p xs H. cases; repeat constructor; cbn; intuition discriminate.
    + split; [repeat constructor; cbn; intuition discriminate|]. intros v Hv. cbn in *. intuition.
    + intros v e H E. unfold greater, above in H. destruct H as [H | [H | []]]; discriminate H.
    + intros p xs H. cases. exists 0. split; [cbn; auto|]. apply sample2_plain. cbn. auto.
    + intros [|[|i]] [|[|j]] p xs q ys v Hi Hj Hne; try discriminate; contradiction.
    + intros p xs H. cases. intros v Hv. cbn in *. intuition.
  - constructor; cbn [sample2 i_pos i_neg i_pimp i_nimp i_ops i_order app].
    + discriminate.
    + intros p xs H. cases; discriminate.
    + exists (0, [0]), (1, [1]). split; [cbn; auto|]. split; [cbn; auto|]. intros H.
      destruct (same_part _ _ _ H) as (p & Hp & Ha & Hb). cbn in Hp. destruct Hp as [<- | [<- | []]]; cbn in Ha, Hb; destruct Ha as [Ha | []], Hb as [Hb | []]; discriminate.
    + intros l p xs Hf H (w & Hw & Hb) v Hv Hbv. apply sample2_part in Hb. pose proof (sample2_vars l w Hf Hb) as Hw2. apply sample2_plain in Hbv.
      cases; try discriminate; auto; cbn in *; intuition discriminate.
    + intros l p xs o Hf H (w & Hw & Hb) (Ho & Hn & Hv) x Hx. apply sample2_part in Hb. pose proof (sample2_vars l w Hf Hb) as Hw2.
      destruct H as [H | []]. injection H as <- <-. destruct Ho as [<- | [<- | []]].
      * exfalso. apply Hn. split; [cbn; auto|]. intros y Hy. cbn in Hy. apply sample2_plain. cbn. intuition.
      * cbn in Hx. cbn. intuition.
    + intros p xs o H Ho Hi. destruct H as [H | []]. injection H as <- <-. destruct Ho as [<- | [<- | []]].
      * destruct (Hi 1) as [E | []]; [cbn; auto | discriminate E].
      * destruct (Hi 3) as [E | []]; [cbn; auto | discriminate E].
  - repeat constructor.
  - cbn. auto.
  - intros l c [E | [E | []]]; injection E as <- <-; eexists; vm_compute; reflexivity.
  - split.
    + intros p t H. destruct p as [|[|[|[|p]]]]; cbn in H; try (destruct H; fail); destruct H as [<- | []]; cbn; auto.
    + intros nu p xs Hi H Hs. cbn in Hi. destruct Hi as [E | [E | []]]; injection E as <- <-.
      * destruct (H 0 0 1 _ _ (or_introl eq_refl) eq_refl eq_refl) as (l & c & ns & n & Ha & Hns & Hn & Hf).
        destruct (H 1 0 1 _ _ (or_introl eq_refl) eq_refl eq_refl) as (l' & c' & ns' & n' & Ha' & Hns' & Hn' & Hf').
        assert (X : nu 0 = 1%Z).
        { destruct Ha as [E | [E | []]]; injection E as <- <-; vm_compute in Hns; injection Hns as <-; cbn in Hn; injection Hn as <-; cbn in Hf;
            destruct Hf as [Hf | []] || destruct Hf; congruence. }
        assert (Y : nu 1 = 5%Z).
        { destruct Ha' as [E | [E | []]]; injection E as <- <-; vm_compute in Hns'; injection Hns' as <-; cbn in Hn'; injection Hn' as <-; cbn in Hf';
            destruct Hf' as [Hf' | []] || destruct Hf'; congruence. }
        cbn in Hs. cbn. rewrite X, Y in *. destruct Hs as [Hs | [Hs | [Hs | [Hs | []]]]]; try discriminate Hs. injection Hs as <-. auto.
      * cbn in Hs. cbn. destruct Hs as [Hs | [Hs | [Hs | [Hs | []]]]]; try discriminate Hs. injection Hs as <-. auto.
  - eexists. vm_compute. reflexivity.
Qed.
