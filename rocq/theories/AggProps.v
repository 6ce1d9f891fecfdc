(* C25: aggregates are computed per group, over the different combinations of the aggregated and the
   distinct columns. *)
From Coq Require Import List ZArith Bool Lia Arith Sorted.
From Verif Require Import ColumnModel ScanModel ScanSpec TrieModel TrieSpec TrieScanSpec OpModel OpSpec ProjModel ProjSpec ProjProofs2 AggModel AggSpec AggProofs3 AggProofs5 AggProofs6 OpProps.
From Verif Require IntModel.
Import ListNotations.
Local Open Scope nat_scope.

(* The aggregation of the rows of an operation: with g group-by columns, the aggregated column c and the
   distinct columns up to l; the last e columns of the result may be left out.  The result has one row for
   every group of rows. *)
Theorem C25_aggregate_partial : forall F content d o a g c l e, depth o <= d -> formed content o ->
  let n := length (markers o) in let P := fun r => length r = n /\ meaning content o r in
  g <= c -> c <= l -> l < n -> e <= g + 1 -> (exists r, P r) -> computable F a g c (l + 1) P ->
  exists enough tr, (forall fuel, enough <= fuel -> execute_aggregate F d fuel (mk_instructions a g c l) o e = Ok tr) /\
    holds (g + 1 - e) (fun p => exists q, length q = e /\ aggregation F a g c (l + 1) P (p ++ q)) tr.
Proof.
  intros F content d o a g c l e Hd Ho n P H1 H2 H3 He Hr Hc. rewrite !Nat.add_1_r in *.
  apply (execute_ok F (mk_instructions a g c l) content d o e Hd Ho H1 H2 H3 He Hr Hc).
Qed.
(* a stored table without rows has an empty aggregate *)
Theorem C25_aggregate_empty : forall F d i ms tr e, num_rows tr = 0 -> exists tr', (forall fuel, execute_aggregate F d fuel i (Leaf ms tr) e = Ok tr') /\ forall n, holds n (fun _ => False) tr'.
Proof.
  intros F d i ms tr e H. exists (trie_empty 0). split; [|intros n; apply empty_holds; intros r _ []]. intros fuel. unfold execute_aggregate.
  assert (E : evaluate d (Leaf ms tr) = Ok None); [|rewrite E; reflexivity]. assert (El : leaf tr = None) by (unfold leaf; rewrite H; reflexivity).
  induction d as [|d IH]; cbn [evaluate]; [f_equal; exact El|rewrite IH; reflexivity].
Qed.

(* The planner sorts the columns of the input: the group-by variables, the aggregated variable and the
   other distinct variables.  The instructions built for them are valid and use all columns. *)
Theorem C25_planned : forall F content input a column distinct group_by, NoDup input -> NoDup group_by -> incl group_by input -> incl distinct input -> ~ In column group_by ->
  let ms := order_input input column distinct group_by in let n := length ms in let g := length group_by in
  (forall x, In x ms <-> In x group_by \/ x = column \/ In x distinct) /\ (forall x, In x (firstn g ms) <-> In x group_by) /\ nth_error ms g = Some column /\
  exists i, aggregate_new ms a distinct group_by column = Ok i /\
    forall tr d, holds n (content tr) tr -> let P := fun r => length r = n /\ content tr r in (exists r, P r) -> computable F a g g n P ->
    exists enough tr', (forall fuel, enough <= fuel -> execute_aggregate F d fuel i (Leaf ms tr) 0 = Ok tr') /\
      holds (g + 1) (fun out => exists grp v C, out = grp ++ [v] /\ length grp = g /\ C <> [] /\
        table_of n (fun r => content tr r /\ firstn g r = grp) C /\ aggregated F a (map (fun r => nth g r (Id32, 0%Z)) C) v) tr'.
Proof.
  intros F content input a column distinct group_by Hi Hg Hgi Hdi Hc ms n g.
  destruct (planned input a column distinct group_by Hi Hg Hgi Hdi Hc) as [Ems Ei]. fold ms in Ems, Ei.
  set (gs := filter (fun x => existsb (Nat.eqb x) group_by) input) in *. set (ds := filter (fun x : nat => existsb (Nat.eqb x) distinct && negb (existsb (Nat.eqb x) (column :: group_by))) input) in Ems.
  assert (Hgs : forall x, In x gs <-> In x group_by).
  { intros x. unfold gs. rewrite filter_In, existsb_In. split; [tauto|]. intros H. split; [apply Hgi, H|exact H]. }
  assert (Elen : length gs = g).
  { unfold g. apply Nat.le_antisymm; apply NoDup_incl_length; [apply NoDup_filter, Hi| |exact Hg|]; intros x Hx; apply Hgs, Hx. }
  split; [|split; [|split]].
  - intros x. rewrite Ems, in_app_iff. cbn [In]. rewrite Hgs. unfold ds. rewrite filter_In, andb_true_iff, negb_true_iff, existsb_In, existsb_nIn. cbn [In]. split.
    + intros [H|[H|H]]; intuition congruence.
    + intros [H|[H|H]]; [auto|auto|]. destruct (Nat.eq_dec column x) as [E|N]; [auto|]. destruct (in_dec Nat.eq_dec x group_by) as [Hx|Hx]; [auto|].
      right. right. split; [apply Hdi, H|]. split; [exact H|]. intros [E|E]; auto.
  - intros x. rewrite Ems. rewrite firstn_app. replace (g - length gs) with 0 by lia. cbn [firstn]. rewrite app_nil_r, <- Elen, firstn_all. apply Hgs.
  - rewrite Ems, nth_error_app2 by lia. replace (g - length gs) with 0 by lia. reflexivity.
  - rewrite Elen in Ei. eexists. split; [exact Ei|]. intros tr d Hh P Hr Hco.
    assert (Hn : n = S (g + length ds)) by (unfold n; rewrite Ems, app_length, <- Elen; cbn [length]; apply Nat.add_succ_r). fold n.
    destruct (execute_ok F (mk_instructions a g g (n - 1)) content d (Leaf ms tr) 0) as (en & tr' & E & H); cbn [depth formed markers meaning in_groups in_column in_last in_op]; try lia.
    + exact Hh.
    + exact Hr.
    + replace (S (n - 1)) with n by lia. exact Hco.
    + exists en, tr'. split; [exact E|]. rewrite Nat.add_1_r. cbn [in_groups in_column in_last in_op markers meaning] in H. rewrite Nat.sub_0_r in H. replace (S (n - 1)) with n in H by lia. refine (holds_iff _ _ _ _ _ H).
      assert (Hcomb : forall grp C, length grp = g -> (combinations n P grp C <-> table_of n (fun r => content tr r /\ firstn g r = grp) C)).
      { intros grp C Lg. unfold combinations, table_of. rewrite Lg. assert (Hx : forall r, length r = n -> ((firstn g r = grp /\ exists r0, P r0 /\ firstn n r0 = r) <-> content tr r /\ firstn g r = grp)).
        { intros r Lr. split.
          - intros (Ef & r0 & [L0 H0] & E0). rewrite firstn_all2 in E0 by (unfold row in *; lia). subst r0. auto.
          - intros [H0 Ef]. split; [exact Ef|]. exists r. split; [split; assumption|apply firstn_all2; unfold row in *; lia]. }
        split; intros [S1 S2]; (split; [exact S1|]); intros r; rewrite S2; split; intros [L H0]; (split; [exact L|]); apply (Hx r L), H0. }
      intros out Lo. unfold P, n, ms in *. split.
      * intros (q & Lq & Ha). destruct q; [|discriminate]. rewrite app_nil_r in Ha. destruct Ha as (grp & v & C & E1 & L1 & HC & Hcmb & Hv). exists grp, v, C. split; [exact E1|]. split; [exact L1|]. split; [exact HC|]. split; [apply Hcomb; assumption|exact Hv].
      * intros (grp & v & C & E1 & L1 & HC & Hcmb & Hv). exists []. split; [reflexivity|]. rewrite app_nil_r. exists grp, v, C. split; [exact E1|]. split; [exact L1|]. split; [exact HC|]. split; [apply Hcomb; assumption|exact Hv].
Qed.

(* ---------- what does not hold ---------- *)

Definition f32 (v : Z) : value := (Float, v).
Definition one_column (rows : list row) (a : aggregate) (F : floats) (n : nat) (i : instructions) : res (list row) :=
  bind (write_rows n rows) (fun tr => bind (execute_aggregate F 0 60 i (Leaf (seq 0 n) tr) 0) (row_iterator 60)).
(* The sum of integers and single precision floats is the sum of the integers. *)
Theorem C25_sum_float_refuted : forall F f, one_column [[i64 1]; [i64 2]; [f32 f]] Sum F 1 (mk_instructions Sum 0 0 0) = Ok [[i64 3]].
Proof. intros F f. vm_compute. reflexivity. Qed.
(* The sum of a group without numbers panics. *)
Theorem C25_sum_none_refuted : forall F, one_column [[i64 1; i64 1]; [i64 2; id32 5]] Sum F 2 (mk_instructions Sum 1 1 1) = Panicked.
Proof. intros F. vm_compute. reflexivity. Qed.
(* The aggregation of a join whose possible types exclude each other in a column after the aggregated one
   panics instead of giving an empty table. *)
Theorem C25_empty_join_refuted : forall F,
  bind (write_rows 2 [[i64 1; i64 2]]) (fun r => bind (write_rows 2 [[i64 1; id32 2]]) (fun s =>
    bind (execute_aggregate F 1 60 (mk_instructions Count 0 0 1) (Join [10; 11] [Leaf [10; 11] r; Leaf [10; 11] s]) 0) (row_iterator 60))) = Panicked.
Proof. intros F. vm_compute. reflexivity. Qed.
(* If the aggregated variable is also a group-by variable, the instructions are invalid: it panics. *)
Theorem C25_group_column_refuted : forall F,
  bind (write_rows 1 [[i64 1]]) (fun tr => bind (aggregate_new (order_input [10; 11] 10 [] [10]) Count [] [10] 10) (fun i =>
    bind (execute_aggregate F 0 60 i (Leaf (order_input [10; 11] 10 [] [10]) tr) 0) (row_iterator 60))) = Panicked.
Proof. intros F. vm_compute. reflexivity. Qed.

(* ---------- examples ---------- *)

Definition table_a : list row :=
  [[id32 1; i64 5; id32 7]; [id32 1; i64 5; id32 8]; [id32 1; i64 4; id32 8]; [id32 2; id32 3; id32 8]; [i64 2; i64 3; id32 8]; [i64 2; i64 3; i64 8]].
Definition plain : floats := mk_floats (fun a b => Some (a + b)%Z) (fun a b => Some (a + b)%Z) (fun a => a) (fun a => a).
(* count of column 1 per column 0, with and without column 2 as a distinct variable; maximum; sum *)
Example C25_example_count : one_column table_a Count plain 3 (mk_instructions Count 1 1 1) = Ok [[id32 1; i64 2]; [id32 2; i64 1]; [i64 2; i64 1]].
Proof. vm_compute. reflexivity. Qed.
Example C25_example_count_distinct : one_column table_a Count plain 3 (mk_instructions Count 1 1 2) = Ok [[id32 1; i64 3]; [id32 2; i64 1]; [i64 2; i64 2]].
Proof. vm_compute. reflexivity. Qed.
Example C25_example_max : one_column table_a Max plain 3 (mk_instructions Max 1 1 1) = Ok [[id32 1; i64 5]; [id32 2; id32 3]; [i64 2; i64 3]].
Proof. vm_compute. reflexivity. Qed.
Example C25_example_sum : one_column table_a Sum plain 3 (mk_instructions Sum 0 1 2) = Ok [[i64 20]].
Proof. vm_compute. reflexivity. Qed.
(* the hypotheses are met: a stored table, and counts are always computable for it *)
Lemma sorted_length_le : forall C (L : list row), StronglySorted row_lt C -> incl C L -> length C <= length L.
Proof. intros C L HS HI. apply NoDup_incl_length; [|exact HI]. apply TrieProofs6.sorted_nodup, HS. Qed.
Example C25_example_hypotheses : exists tr, write_rows 3 table_a = Ok tr /\ let o := Leaf [0; 1; 2] tr in let P := fun r => length r = 3 /\ meaning (fun _ x => In x table_a) o r in
  formed (fun _ x => In x table_a) o /\ (exists r, P r) /\ computable plain Count 1 1 3 P.
Proof.
  destruct (C23_stored 3 table_a) as (tr & E & H); [lia|repeat constructor|]. exists tr. split; [exact E|]. cbn zeta. split; [exact H|]. split.
  - exists [id32 1; i64 5; id32 7]. split; [reflexivity|]. left. reflexivity.
  - intros grp C Lg HC [HS Hc]. eexists. cbn [aggregated]. split; [reflexivity|]. rewrite map_length.
    assert (Hle : length C <= length table_a).
    { apply sorted_length_le; [exact HS|]. intros c Hin. apply Hc in Hin. destruct Hin as (_ & _ & r & [Lr Hr] & <-). rewrite firstn_all2 by (unfold row in *; lia). exact Hr. }
    apply Z.le_trans with 6%Z; [|vm_compute; discriminate]. apply Nat2Z.inj_le in Hle. exact Hle.
Qed.

Print Assumptions C25_aggregate_partial.
Print Assumptions C25_aggregate_empty.
Print Assumptions C25_planned.
Print Assumptions C25_sum_float_refuted.
Print Assumptions C25_sum_none_refuted.
Print Assumptions C25_empty_join_refuted.
Print Assumptions C25_group_column_refuted.
