(** Property theorems about the table manager: C01, C02, C33. *)
From Coq Require Import List Arith ZArith Bool Sorted Lia.
From Verif Require Import TableModel TableSpec TableProofs TableProofs2.
Import ListNotations.

(** C01. After any history of calls, reading a step range terminates without panic and the rows of
    the returned tables are exactly the rows stored at steps in the range. *)
Theorem C01_range_reads : forall ops m, ordered ops -> run manager_new ops = Some m ->
  forall p lo hi, exists ids, tables_in_range m p lo hi = Some ids /\
    forall r, rows_of m ids r <-> stored ops p lo hi r.
Proof. exact range_reads. Qed.
Print Assumptions C01_range_reads.

(** C01, for the step-wise variant used by tracing: each returned table is the table of its step. *)
Theorem C01_step_tables : forall ops m, ordered ops -> run manager_new ops = Some m ->
  forall p lo hi,
    (forall r, rows_of m (map snd (tables_in_range_steps m p lo hi)) r <-> stored ops p lo hi r) /\
    (forall s id, In (s, id) (tables_in_range_steps m p lo hi) -> lo <= s < hi /\
        forall r, In r (contents m id) <-> stored ops p s (S s) r).
Proof. exact step_tables. Qed.
Print Assumptions C01_step_tables.

(** C02. Merging a range never fails, returns a table with exactly the rows of that range
    (no table iff there are no rows), *)
Theorem C02_merge_range : forall ops m p lo hi, ordered ops -> run manager_new ops = Some m ->
  exists m' res, combine_tables m p lo hi = Some (m', res) /\
    run manager_new (ops ++ [OpCombine p lo hi]) = Some m' /\
    (forall q, log (ops ++ [OpCombine p lo hi]) q = log ops q) /\
    ordered (ops ++ [OpCombine p lo hi]) /\
    match res with
    | Some id => forall r, In r (contents m' id) <-> stored ops p lo hi r
    | None => forall r, ~ stored ops p lo hi r
    end.
Proof. exact combine_ok. Qed.
Print Assumptions C02_merge_range.

Theorem C02_merge_predicate : forall ops m p, ordered ops -> run manager_new ops = Some m ->
  exists m' res, combine_predicate m p = Some (m', res) /\
    run manager_new (ops ++ [OpCombinePredicate p]) = Some m' /\
    (forall q, log (ops ++ [OpCombinePredicate p]) q = log ops q) /\
    ordered (ops ++ [OpCombinePredicate p]) /\
    match res with
    | Some id => forall r, In r (contents m' id) <-> exists s rows, In (s, rows) (log ops p) /\ In r rows
    | None => forall s rows r, In (s, rows) (log ops p) -> ~ In r rows
    end.
Proof. exact combine_predicate_ok. Qed.
Print Assumptions C02_merge_predicate.

(** and what any range of any predicate contains is unchanged by it. *)
Theorem C02_merge_invisible : forall ops m o m',
  ordered ops -> run manager_new ops = Some m ->
  (exists p lo hi, o = OpCombine p lo hi) \/ (exists p, o = OpCombinePredicate p) ->
  run1 m o = Some m' ->
  forall q lo hi ids ids', tables_in_range m q lo hi = Some ids -> tables_in_range m' q lo hi = Some ids' ->
    forall r, rows_of m ids r <-> rows_of m' ids' r.
Proof. exact merge_invisible. Qed.
Print Assumptions C02_merge_invisible.

(** The engine's periodic defragmentation, for any counters and any list of updated predicates. *)
Theorem C02_defrag_invisible : forall ops m f cs ps, ordered ops -> run manager_new ops = Some m ->
  exists m' f', defrag (m, f) cs ps = Some (m', f') /\
    forall q lo hi, exists ids, tables_in_range m' q lo hi = Some ids /\
      forall r, rows_of m' ids r <-> stored ops q lo hi r.
Proof. exact defrag_invisible. Qed.
Print Assumptions C02_defrag_invisible.

(** C33. Fact ids and facts correspond one to one if every fact is stored once (C09), the facts of
    the predicate have at least one column and the last values of the facts of one step have one
    storage type. (partial: the last two conditions are not part of the claim; without them it is
    false, see C33_fact_ids_refuted and C33_no_id_refuted below.) *)
Theorem C33_fact_ids_partial : forall cls ops m p r i,
  ordered ops -> (forall o, In o ops -> nodup_op o) -> once ops p -> one_type cls ops p -> run manager_new ops = Some m ->
  (row_by_id m p i = Some r <-> exists s, table_row_id cls m p r = Some (i, s)).
Proof. exact fact_ids_bijective. Qed.
Print Assumptions C33_fact_ids_partial.

Theorem C33_every_fact_has_id_partial : forall cls ops m p r, r <> [] -> ordered ops -> run manager_new ops = Some m ->
  (exists s, stored ops p s (S s) r) <-> exists i s, table_row_id cls m p r = Some (i, s).
Proof. exact fact_id_step. Qed.
Print Assumptions C33_every_fact_has_id_partial.

(** The step reported with an id is always the first step at which the fact was stored. *)
Theorem C33_id_step : forall cls ops m p r i s, ordered ops -> run manager_new ops = Some m ->
  table_row_id cls m p r = Some (i, s) -> stored ops p s (S s) r /\ forall s', s' < s -> ~ stored ops p s' (S s') r.
Proof. exact fact_id_right_step. Qed.
Print Assumptions C33_id_step.

(** Two facts of one predicate, p(1) and p("a") say, stored in one step: both get the id 0,
    although the id 0 leads to the first and the id 1 to the second. *)
Definition mixed_ops : list op := [OpRegister 0 1; OpStep 1 [(0, [[1%Z]; [2%Z]])]].
Definition parity (z : Z) : nat := if Z.even z then 0 else 1.
Theorem C33_fact_ids_refuted : exists m,
  ordered mixed_ops /\ (forall o, In o mixed_ops -> nodup_op o) /\ once mixed_ops 0 /\ run manager_new mixed_ops = Some m /\
  table_row_id parity m 0 [1%Z] = Some (0, 1) /\ table_row_id parity m 0 [2%Z] = Some (0, 1) /\
  row_by_id m 0 0 = Some [1%Z] /\ row_by_id m 0 1 = Some [2%Z].
Proof.
  destruct (run manager_new mixed_ops) as [m|] eqn:E; [|discriminate]. exists m.
  split; [apply orderedb_ok; vm_compute; reflexivity|]. split; [apply nodupb_ok; vm_compute; reflexivity|].
  split; [apply onceb_ok; vm_compute; reflexivity|]. split; [reflexivity|].
  vm_compute in E. injection E as <-. vm_compute. repeat split.
Qed.
Print Assumptions C33_fact_ids_refuted.

(** Facts without arguments have no id. *)
Theorem C33_no_id_refuted : forall cls, exists ops m, ordered ops /\ run manager_new ops = Some m /\
  stored ops 0 1 2 [] /\ table_row_id cls m 0 [] = None /\ row_by_id m 0 0 = Some [].
Proof.
  intros cls. exists [OpRegister 0 0; OpStep 1 [(0, [[]])]].
  destruct (run manager_new [OpRegister 0 0; OpStep 1 [(0, [[]])]]) as [m|] eqn:E; [|discriminate]. exists m.
  split; [apply orderedb_ok; vm_compute; reflexivity|]. split; [reflexivity|]. vm_compute in E. injection E as <-. split.
  - exists 1, [[]]. split; [vm_compute; now left|]. split; [split; auto|now left].
  - vm_compute. repeat split.
Qed.
Print Assumptions C33_no_id_refuted.

Theorem C33_first_step : forall ops m p r, ordered ops -> run manager_new ops = Some m ->
  match find_table_row m p r with
  | Some s => stored ops p s (S s) r /\ forall s', s' < s -> ~ stored ops p s' (S s') r
  | None => forall s, ~ stored ops p s (S s) r
  end.
Proof. exact find_table_row_ok. Qed.
Print Assumptions C33_first_step.

(** *** Non-vacuity: a history with two predicates, overlapping and nested merges. *)
Definition demo_ops : list op :=
  [OpRegister 0 1; OpRegister 1 2; OpEdb 0 [[[1%Z]]; [[2%Z]; [1%Z]]];
   OpStep 2 [(0, [[3%Z]])]; OpStep 4 [(0, [[4%Z]; [5%Z]]); (1, [[1%Z; 1%Z]])];
   OpCombine 0 0 5; OpStep 7 [(0, [[6%Z]]); (1, [])]; OpStep 10 [(0, [[7%Z]])];
   OpCombine 0 3 11; OpCombine 0 1 8; OpStep 11 [(0, [[8%Z]])]; OpCombinePredicate 0].

Example demo_ordered : ordered demo_ops.
Proof. apply orderedb_ok. vm_compute. reflexivity. Qed.

(** Reads really use merged tables: steps 1..7 are answered by one merged table, 0..19 by two. *)
Example demo_runs :
  match run manager_new demo_ops with
  | Some m => tables_in_range m 0 1 8 = Some [8] /\ tables_in_range m 0 3 11 = Some [7] /\
              tables_in_range m 0 0 20 = Some [10] /\
              table_row_id (fun _ => 0) m 0 [5%Z] = Some (4, 4) /\ row_by_id m 0 4 = Some [5%Z] /\
              find_table_row m 0 [8%Z] = Some 11
  | None => False
  end.
Proof. vm_compute. repeat split. Qed.

Example demo_once : once demo_ops 0 /\ forall o, In o demo_ops -> nodup_op o.
Proof. split; [apply onceb_ok; vm_compute; reflexivity|apply nodupb_ok; vm_compute; reflexivity]. Qed.
Example demo_one_type : one_type (fun _ => 0) demo_ops 0.
Proof.
  assert (Hne : forall s x, stored demo_ops 0 s (S s) x -> exists z, x = [z]).
  { intros s x (s' & rows & Hin & _ & Hx). assert (E : log demo_ops 0 = [(0, [[1%Z]; [2%Z]; [1%Z]]); (2, [[3%Z]]);
      (4, [[4%Z]; [5%Z]]); (7, [[6%Z]]); (10, [[7%Z]]); (11, [[8%Z]])]) by (vm_compute; reflexivity).
    rewrite E in Hin. simpl in Hin. intuition; match goal with H : (_, _) = _ |- _ => injection H as <- <- end; simpl in Hx; intuition; subst; eauto. }
  intros s x y Hx Hy. destruct (Hne _ _ Hx) as [a ->], (Hne _ _ Hy) as [b ->]. split; [discriminate|reflexivity].
Qed.
