(* C22, C24 (removing trailing columns): tables store sorted sets of rows. *)
From Coq Require Import List ZArith Bool Lia Arith Permutation Sorted.
From Verif Require Import ColumnModel ColumnSpec ScanModel ScanSpec TrieModel TrieSpec TrieScanSpec TrieProofs1 TrieProofs2 TrieProofs3 TrieProofs4 TrieProofs5 TrieProofs6 TrieProofs7 TrieProofs8 TrieProofs9 TrieProofs10 TrieProofs11 TrieProofs12 TrieProofs13 TrieProofs14.
Import ListNotations.
Local Open Scope nat_scope.

(* ---------- C22 ---------- *)

(* rows with values of any types, in any order, with repetitions *)
Theorem C22_write_read_partial : forall n rows, 0 < n -> Forall (fun r => length r = n) rows ->
  exists tr, write_rows n rows = Ok tr /\ presents n (fun r => In r rows) tr.
Proof.
  intros n rows Hn Hr. destruct (write_rows_stores n rows Hn Hr) as (tr & L & E & HS & Hp). exists tr. split; [exact E|].
  apply (presents_iff n (fun r => In r L)); [|apply stores_presents; assumption]. intros r _. split; apply Permutation_in; [exact Hp|apply Permutation_sym, Hp].
Qed.

(* The rows a trie scan leads to are stored; trailing columns are cut off. *)
Theorem C22_materialize : forall n types tau sc strict s e, e < n -> explores n types tau sc strict s ->
  exists enough tr, (forall fuel, enough <= fuel -> from_partial_trie_scan sc fuel s e = Ok tr) /\
    presents (n - e) (fun p => exists q, length q = e /\ in_tree tau [] (p ++ q)) tr.
Proof.
  intros n types tau sc strict s e He Hx. destruct (materialize_stores n types tau sc strict s e He Hx) as (en & tr & L & E & HS & [T1 T2]).
  exists en, tr. split; [exact E|]. apply (presents_iff (n - e) (fun r => In r L)); [|apply stores_presents; [lia|exact HS]].
  intros r Hl. rewrite T2. tauto.
Qed.

(* A table read through its partial iterator explores its rows. *)
Theorem C22_scan : forall n rows tr, 0 < n -> Forall (fun r => length r = n) rows -> write_rows n rows = Ok tr ->
  exists types tau, explores n types tau generic true (partial_iterator tr) /\
    forall r, length r = n -> (in_tree tau [] r <-> In r rows).
Proof.
  intros n rows tr Hn Hr Ew. destruct (write_rows_stores n rows Hn Hr) as (tr' & L & E & HS & Hp). rewrite Ew in E. injection E as <-.
  exists (trie_types L), (trie_tree L). split; [apply generic_explores; assumption|]. intros r Hl.
  rewrite (in_tree_pre n L (st_well _ _ _ HS) (st_sorted _ _ _ HS) r []); [|exact Hl|intros ->; cbn in Hl; lia]. cbn [app].
  rewrite (pre_all n L r (st_well _ _ _ HS)). split; apply Permutation_in; [exact Hp|apply Permutation_sym, Hp].
Qed.

(* Without columns the answers do not agree: the table without columns and without rows claims to
   contain the empty row. *)
Theorem C22_zero_arity_refuted :
  num_rows (zero_arity false) = 0 /\ row_iterator 1 (zero_arity false) = Ok [] /\ contains_row (zero_arity false) [] = Ok true.
Proof. repeat split. Qed.
(* Cutting all columns claims that there was a row, whether or not there is one. *)
Theorem C24_cut_all_refuted : exists tr tr', write_rows 1 [] = Ok tr /\ row_iterator 2 tr = Ok [] /\
  from_partial_trie_scan generic 2 (partial_iterator tr) 1 = Ok tr' /\ num_rows tr' = 1.
Proof. exists (mk_trie [matrix_finalize matrix_new] false), (zero_arity true). repeat split. Qed.

Definition demo_table : trie := match write_rows 2 demo_rows with Ok tr => tr | _ => zero_arity false end.
Example C22_example :
  match write_rows 2 demo_rows with Ok _ => true | _ => false end = true /\
  row_iterator 30 demo_table = Ok [ [(Id32, 0%Z); (Id32, 20%Z)]; [(Id32, 0%Z); (Int64, (-2)%Z)];
    [(Int64, 5%Z); (Float, 1%Z)]; [(Int64, 6%Z); (Id32, 100%Z)]; [(Int64, 6%Z); (Id32, 102%Z)] ] /\
  num_rows demo_table = 5 /\
  contains_row demo_table [(Int64, 6%Z); (Id32, 102%Z)] = Ok true /\
  contains_row demo_table [(Int64, 6%Z); (Id32, 20%Z)] = Ok false /\
  row_position demo_table [(Int64, 6%Z); (Id32, 102%Z)] = Ok (Some 2) /\
  row_position demo_table [(Int64, 5%Z); (Float, 1%Z)] = Ok (Some 0).
Proof. vm_compute. repeat split. Qed.
Example C22_materialize_example :
  bind (from_partial_trie_scan generic 30 (partial_iterator demo_table) 1) (row_iterator 30) = Ok [ [(Id32, 0%Z)]; [(Int64, 5%Z)]; [(Int64, 6%Z)] ].
Proof. vm_compute. reflexivity. Qed.

Print Assumptions C22_write_read_partial.
Print Assumptions C22_materialize.
Print Assumptions C22_scan.
Print Assumptions C22_zero_arity_refuted.
Print Assumptions C24_cut_all_refuted.
