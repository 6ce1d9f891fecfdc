(** C54: Imports with bindings. *)
From Coq Require Import String List Arith Bool Lia.
From Verif Require Import QueryModel QuerySpec QueryProps PageModel PageSpec PageProofs1 PageProofs2 PageProofs3.
Import ListNotations.

(** If the import returns no error and the endpoint never failed (but perhaps found queries too large), then all rows of the query that
    are wanted have been written, and only rows of the query. *)
Theorem C54_complete : forall size limit E server max_page fuel q pb w,
  has_projection q -> NoDup (columns q) -> good_product E q pb -> truthful E q server -> never_fails E q server ->
  load size limit server max_page fuel q pb = Ends (w, false) ->
  (forall row, rows E q row -> wanted pb row -> In row w) /\ forall row, In row w -> rows E q row.
Proof.
  intros size limit E server max_page fuel q pb w H1 H2 H3 H4 H5 H. destruct (load_spec size limit E q H1 H2 server max_page H4 fuel pb _ H3 H) as (A & B). split; auto.
Qed.
Print Assumptions C54_complete.

(** If the endpoint answers all queries, exactly the wanted rows are written. *)
Theorem C54_exact : forall size limit E server max_page fuel q pb r,
  has_projection q -> NoDup (columns q) -> good_product E q pb -> truthful E q server -> always_answers E q server ->
  (forall f, In f pb -> snd (fst f) <> [] \/ snd (snd f) <> []) ->
  load size limit server max_page fuel q pb = Ends r ->
  snd r = false /\ forall row, In row (fst r) <-> rows E q row /\ wanted pb row.
Proof.
  intros size limit E server max_page fuel q pb r H1 H2 H3 H4 H5 H6 H. destruct (load_spec size limit E q H1 H2 server max_page H4 fuel pb _ H3 H) as (A & B).
  destruct (load_exact size limit E q H1 H2 server max_page H4 fuel pb r H5 H3) as (S & D); [|exact H|].
  - intros f Hf. unfold is_empty, count. destruct (H6 f Hf) as [N|N]; [destruct (snd (fst f)); [congruence|reflexivity]|].
    destruct (snd (snd f)); [congruence|]. apply andb_false_r.
  - split; [exact S|]. intros row. split; [split; auto|]. intros (Hr & Wr). apply A; auto. intros q' K F. destruct (H5 q' K) as (rs & Q). congruence.
Qed.
Print Assumptions C54_exact.

(** With one table of bindings the import ends if the query with one row of bindings is not too long: pages become smaller until all
    queries are short enough. *)
Theorem C54_one_table : forall size limit server max_page q old new,
  (forall q', server q' <> Too_large) -> (forall r, In r (snd new) -> size (with_bindings q [(fst new, [r])]) < limit) ->
  exists fuel r, load size limit server max_page fuel q [(old, new)] = Ends r.
Proof.
  intros size limit server max_page q old new Hs F. destruct (one_queries size limit q old new F max_page max_page (le_n _)) as (fuel & qs & H).
  exact (load_ends size limit q server Hs max_page _ _ _ H).
Qed.
Print Assumptions C54_one_table.

(** With several tables it ends if all bindings fit into one page. *)
Theorem C54_small : forall size limit server max_page q pb,
  (forall q', server q' <> Too_large) ->
  (forall c, In c (combinations pb) -> list_sum (map count c) < max_page /\ size (with_bindings q c) < limit) ->
  exists fuel r, load size limit server max_page fuel q pb = Ends r.
Proof.
  intros size limit server max_page q pb Hs F. destruct (small_queries size limit q pb max_page F) as (qs & H).
  exact (load_ends size limit q server Hs max_page _ _ _ H).
Qed.
Print Assumptions C54_small.

(** ** What fails *)
Definition two_columns : pattern := PProject (PBgp 0 ["x"; "y"]%string) ["x"; "y"]%string.
Definition for_column (k : nat) (cs : list nat) : bindings := ([k], map (fun c => [Some c]) cs).

Lemma two_columns_nodup : NoDup (columns two_columns).
Proof. repeat constructor; cbn; intuition discriminate. Qed.
Lemma two_columns_bound E k : k < 2 -> always_bound E two_columns k.
Proof. intros H. now apply bgp_bound. Qed.
Lemma for_column_good E k cs : k < 2 -> good_bindings E two_columns (for_column k cs).
Proof.
  intros H. split; [constructor; [intros []|constructor]|]. split; [intros j [<- |[]]; split; [exact H|now apply two_columns_bound]|].
  intros r Hr. apply in_map_iff in Hr. destruct Hr as (c & <- & _). reflexivity.
Qed.

(** An endpoint with a list of rows for the table, and its answers *)
Definition table_of (t : list (list nat)) : endpoint := fun k row => k = 0 /\ In row t.
Fixpoint meets (p : pattern) (x y : option nat) : bool :=
  match p with
  | PJoin l (PValues vs rs) => meets l x y && existsb (fun r => forallb (fun e => match snd e with None => true | Some c =>
      match (if String.eqb (fst e) "x" then x else y) with Some d => d =? c | None => false end end) (combine vs r)) rs
  | _ => true
  end.
Definition answer_of (t : list (list nat)) (q : pattern) : list (list (option nat)) :=
  match q with
  | PProject p _ => filter (fun row => meets p (nth 0 row None) (nth 1 row None)) (map (map Some) t)
  | _ => []
  end.

Lemma two_columns_rows t row : (forall r, In r t -> List.length r = 2) -> rows (table_of t) two_columns row <-> In row (map (map Some) t).
Proof.
  intros L. unfold two_columns. rewrite (bgp_rows _ 0 _ _ two_columns_nodup). rewrite in_map_iff. unfold table_of. split.
  - intros (r & (_ & H) & _ & ->). eauto.
  - intros (r & <- & H). exists r. split; [auto|]. split; [now rewrite (L r H)|reflexivity].
Qed.

Definition fits (x y : option nat) (e : string * option nat) : bool :=
  match snd e with None => true | Some c => match (if String.eqb (fst e) "x" then x else y) with Some d => d =? c | None => false end end.

Lemma fits_agrees x y pos : (forall k, In k pos -> k < 2) -> forall r, forallb (fits x y) (combine (map (fun k => nth k ["x"; "y"]%string EmptyString) pos) r) = true <->
  forall i k c, nth_error pos i = Some k -> nth_error r i = Some (Some c) -> nth_error [x; y] k = Some (Some c).
Proof.
  induction pos as [|k pos IH]; intros B r.
  - cbn [map combine forallb]. split; [|reflexivity]. intros _ [|i] k c Q; discriminate.
  - destruct r as [|v r]; cbn [map combine forallb].
    + split; [|reflexivity]. intros _ [|i] j c _ Q; discriminate.
    + rewrite andb_true_iff, IH by (intros j Hj; apply B; now right). assert (K : k < 2) by (apply B; now left).
      assert (V : fits x y (nth k ["x"; "y"]%string EmptyString, v) = true <-> forall c, v = Some c -> nth_error [x; y] k = Some (Some c)).
      { unfold fits. cbn [fst snd]. destruct v as [d|]; [|split; [intros _ c Q; discriminate|reflexivity]].
        assert (Z : forall z : option nat, match z with Some e => e =? d | None => false end = true <-> z = Some d).
        { intros [e|]; [rewrite Nat.eqb_eq; split; congruence|split; discriminate]. }
        destruct k as [|[|k]]; [| |lia]; cbn [nth nth_error String.eqb Ascii.eqb Bool.eqb]; rewrite Z; split;
          [intros -> c Q; congruence|intros Q; specialize (Q d eq_refl); congruence|intros -> c Q; congruence|intros Q; specialize (Q d eq_refl); congruence]. }
      rewrite V. split.
      * intros (P & Q) [|i] j c; cbn [nth_error]; [intros A C; injection A as <-; apply P; congruence|apply Q].
      * intros P. split; [intros c ->; exact (P 0 k c eq_refl eq_refl)|intros i j c; exact (P (S i) j c)].
Qed.

Lemma meets_agrees E x y p : (forall b, In b p -> good_bindings E two_columns b) -> forall inner,
  meets (fold_left (fun prev b => PJoin prev (PValues (map (fun k => nth k ["x"; "y"]%string EmptyString) (fst b)) (snd b))) p inner) x y = true <->
  meets inner x y = true /\ forall b, In b p -> agrees b [x; y].
Proof.
  induction p as [|b p IH]; intros G inner; cbn [fold_left]; [split; [intros H; split; [exact H|intros b []]|tauto]|].
  rewrite IH by (intros c Hc; apply G; now right). cbn [meets]. fold (fits x y). rewrite andb_true_iff, existsb_exists.
  assert (B : (exists r, In r (snd b) /\ forallb (fits x y) (combine (map (fun k => nth k ["x"; "y"]%string EmptyString) (fst b)) r) = true) <-> agrees b [x; y]).
  { unfold agrees. split; intros (r & H & F); exists r; (split; [exact H|]); apply (fits_agrees x y (fst b)); auto;
      intros k Hk; exact (proj1 (proj1 (proj2 (G b (or_introl eq_refl))) k Hk)). }
  unfold fits in B at 1. unfold fits. rewrite B. split.
  - intros ((H & A) & K). split; [exact H|]. intros c [<- |Hc]; auto.
  - intros (H & K). split; [split; [exact H|apply K; now left]|intros c Hc; apply K; now right].
Qed.

Lemma answer_true t : (forall r, In r t -> List.length r = 2) -> forall q', asked (table_of t) two_columns q' -> forall row, In row (answer_of t q') <-> rows (table_of t) q' row.
Proof.
  intros L q' (p & G & ->) row. rewrite C52_bindings; [|exact I|apply two_columns_nodup|exact G]. rewrite two_columns_rows by exact L.
  assert (Q : with_bindings two_columns p = PProject (fold_left (fun prev b => PJoin prev (PValues (map (fun k => nth k ["x"; "y"]%string EmptyString) (fst b)) (snd b))) p (PBgp 0 ["x"; "y"]%string)) ["x"; "y"]%string)
    by (destruct p; reflexivity).
  rewrite Q. cbn [answer_of]. rewrite filter_In. split; intros (H & K); (split; [exact H|]); apply in_map_iff in H; destruct H as (r & <- & H);
    specialize (L r H); destruct r as [|x [|y [|]]]; try discriminate; cbn [map nth] in *.
  - apply (meets_agrees (table_of t) (Some x) (Some y) p G) in K. tauto.
  - apply (meets_agrees (table_of t) (Some x) (Some y) p G). split; [reflexivity|exact K].
Qed.

Definition server_of (t : list (list nat)) : pattern -> answer := fun q => Rows (answer_of t q).
Lemma server_true t : (forall r, In r t -> List.length r = 2) -> truthful (table_of t) two_columns (server_of t) /\ always_answers (table_of t) two_columns (server_of t).
Proof.
  intros L. split; [|intros q' _; eexists; reflexivity]. intros q' rs A Q row. injection Q as <-. now apply answer_true.
Qed.

Definition one_new (k : nat) (cs : list nat) : bindings * bindings := (for_column k [], for_column k cs).
Lemma one_new_good E k cs : k < 2 -> fst (fst (one_new k cs)) = fst (snd (one_new k cs)) /\ good_bindings E two_columns (fst (one_new k cs)) /\ good_bindings E two_columns (snd (one_new k cs)).
Proof. intros H. split; [reflexivity|]. split; now apply for_column_good. Qed.

(** Two tables with more bindings than a page has: a list is read after its end. *)
Theorem C54_panics_refuted : forall max_page, 0 < max_page -> ~ (forall E server q pb,
  has_projection q -> NoDup (columns q) -> good_product E q pb -> truthful E q server -> always_answers E q server ->
  exists fuel r, load (fun _ => 0) 1 server max_page fuel q pb = Ends r).
Proof.
  intros m M H. destruct (server_true [] ltac:(intros r [])) as (T & A).
  destruct (H (table_of []) (server_of []) two_columns [one_new 0 (repeat 1 m); one_new 1 (repeat 2 m)] I two_columns_nodup) as (fuel & r & Q); auto.
  - intros f [<- |[<- |[]]]; apply one_new_good; lia.
  - assert (C : forall k c, count (for_column k (repeat c m)) = m) by (intros k c; unfold count, for_column; cbn [snd]; now rewrite map_length, repeat_length).
    assert (N : forall k c, is_empty (for_column k (repeat c m)) = false) by (intros k c; unfold is_empty; rewrite C; apply Nat.eqb_neq; lia).
    destruct fuel as [|f]; [discriminate|]. cbn [load queries] in Q. apply after_ends in Q. destruct Q as (qs & Q & _).
    unfold combinations in Q. cbn [combinations_from one_new fst snd others flat_map app] in Q. rewrite !N, !andb_false_r in Q. cbn [app of_combinations] in Q.
    apply after_ends in Q. destruct Q as (ps & Q & _). unfold bindings_chunks in Q. cbn [sorted fold_right insert] in Q.
    assert (U : forall k c, count (union (for_column k []) (for_column k (repeat c m))) = m) by exact C. rewrite C, U, Nat.leb_refl in Q. cbn [split_index] in Q. rewrite C in Q.
    assert (X : Nat.max m 1 <? 1 + m = true) by (apply Nat.ltb_lt; lia). rewrite X in Q. cbn [firstn map fold_right Nat.eqb skipn removelast existsb] in Q. rewrite N in Q. discriminate.
Qed.
Print Assumptions C54_panics_refuted.

(** An endpoint that fails: no error is returned, but rows are missing. *)
Theorem C54_failures_refuted : ~ (forall size limit E server max_page fuel q pb w,
  has_projection q -> NoDup (columns q) -> good_product E q pb -> truthful E q server ->
  load size limit server max_page fuel q pb = Ends (w, false) ->
  forall row, rows E q row -> wanted pb row -> In row w).
Proof.
  intros H. apply (H (fun _ => 0) 1 (table_of [[1; 2]]) (fun _ => Failed) 10 2 two_columns [one_new 0 [1]] []) with (row := [Some 1; Some 2]).
  - exact I.
  - apply two_columns_nodup.
  - intros f [<- |[]]. apply one_new_good. lia.
  - intros q' rs _ Q. discriminate.
  - reflexivity.
  - apply two_columns_rows; [intros r [<- |[]]; reflexivity|now left].
  - split; [intros f [<- |[]]; right|exists (one_new 0 [1]); split; [now left|]];
      (exists [Some 1]; split; [now left|]; intros [|[|]] k c P Q; try discriminate; injection P as <-; injection Q as <-; reflexivity).
Qed.
Print Assumptions C54_failures_refuted.

(** Queries with one row of bindings are answered, but the query with two rows of bindings is too large: the import does not end. *)
Theorem C54_too_large_refuted : ~ (forall E server q old new,
  has_projection q -> NoDup (columns q) -> good_product E q [(old, new)] -> truthful E q server ->
  (forall r, In r (snd new) -> exists rs, server (with_bindings q [(fst new, [r])]) = Rows rs) ->
  exists fuel r, load (fun _ => 0) 1 server 10 fuel q [(old, new)] = Ends r).
Proof.
  intros H. set (t := [[1; 2]]). set (both := with_bindings two_columns [for_column 0 [1; 3]]).
  set (server := fun q => match q with PProject (PJoin _ (PValues _ [_; _])) _ => Too_large | _ => server_of t q end).
  destruct (server_true t) as (T & A); [intros r [<- |[]]; reflexivity|].
  destruct (H (table_of t) server two_columns (for_column 0 []) (for_column 0 [1; 3]) I two_columns_nodup) as (fuel & r & Q).
  - intros f [<- |[]]. apply (one_new_good _ 0 [1; 3]). lia.
  - intros q' rs As Q. apply T; [exact As|]. rewrite <- Q. unfold server in *. unfold server_of in *.
    repeat match goal with |- context [match ?x with _ => _ end] => destruct x; try discriminate; try reflexivity end.
  - intros r [<- |[<- |[]]]; eexists; reflexivity.
  - revert r Q. induction fuel as [|f IH]; intros r Q; [discriminate|]. cbn [load] in Q.
    change (queries (fun _ => 0) 1 (S f) two_columns [(for_column 0 [], for_column 0 [1; 3])] 10) with (Ends [([for_column 0 [1; 3]], both)]) in Q.
    cbn [after load_pages] in Q. change (server both) with Too_large in Q. cbn [after] in Q.
    change (total [(for_column 0 [], for_column 0 [1; 3])] =? 1) with false in Q. apply after_ends in Q. destruct Q as (r0 & Q & _).
    change (chunk_list (Nat.max (div_ceil (List.length [for_column 0 [1; 3]]) 2) 1) [for_column 0 [1; 3]]) with [[for_column 0 [1; 3]]] in Q.
    cbn [load_parts map] in Q. apply after_ends in Q. destruct Q as (r1 & Q & _). exact (IH r1 Q).
Qed.
Print Assumptions C54_too_large_refuted.

(** A query that is too long with one row of bindings already: the import does not end. *)
Theorem C54_long_refuted : ~ (forall size limit E server q old new,
  has_projection q -> NoDup (columns q) -> good_product E q [(old, new)] -> truthful E q server -> always_answers E q server ->
  exists fuel r, load size limit server 10 fuel q [(old, new)] = Ends r).
Proof.
  intros H. destruct (server_true [] ltac:(intros r [])) as (T & A).
  destruct (H (fun _ => 1) 1 (table_of []) (server_of []) two_columns (for_column 0 []) (for_column 0 [1]) I two_columns_nodup) as (fuel & r & Q); auto.
  - intros f [<- |[]]. apply (one_new_good _ 0 [1]). lia.
  - destruct fuel as [|f]; [discriminate|]. cbn [load] in Q. apply after_ends in Q. destruct Q as (qs & Q & _). revert qs Q. generalize 10, (S f). clear.
    intros page fuel. revert page. induction fuel as [|f IH]; intros page qs Q; [discriminate|]. cbn [queries] in Q. rewrite one_combination in Q.
    change (is_empty (for_column 0 [1])) with false in Q. cbn [of_combinations] in Q. rewrite one_pages in Q. cbn [after] in Q. apply after_ends in Q. destruct Q as (qs0 & Q & _).
    assert (P : exists p ps, (if Nat.max page 1 <? 1 + count (for_column 0 [1]) then map (fun c => [c]) (chunks (Nat.max (div_ceil (Nat.max page 1) 1) 1) (for_column 0 [1])) else [[for_column 0 [1]]]) = p :: ps)
      by (destruct (_ <? _); cbn; eauto).
    destruct P as (p & ps & P). rewrite P in Q. cbn [of_pages] in Q. unfold query_with_bindings in Q. cbn [Nat.ltb Nat.leb] in Q.
    apply after_ends in Q. destruct Q as (x & Q & _). exact (IH _ _ Q).
Qed.
Print Assumptions C54_long_refuted.

(** A table without bindings: nothing is wanted, but rows are requested. *)
Theorem C54_empty_table_refuted : ~ (forall size limit E server max_page fuel q pb r,
  has_projection q -> NoDup (columns q) -> good_product E q pb -> truthful E q server -> always_answers E q server ->
  load size limit server max_page fuel q pb = Ends r ->
  forall row, In row (fst r) -> wanted pb row).
Proof.
  intros H. set (t := [[1; 2]]). destruct (server_true t) as (T & A); [intros r [<- |[]]; reflexivity|].
  destruct (H (fun _ => 0) 1 (table_of t) (server_of t) 10 2 two_columns [one_new 0 [1]; one_new 1 []] ([[Some 1; Some 2]], false) I two_columns_nodup) with (row := [Some 1; Some 2]) as (W & _); auto.
  - intros f [<- |[<- |[]]]; apply one_new_good; lia.
  - now left.
  - destruct (W (one_new 1 []) (or_intror (or_introl eq_refl))) as [(x & [] & _)|(x & [] & _)].
Qed.
Print Assumptions C54_empty_table_refuted.

(** ** A case that meets the hypotheses *)
Example pages_case : let t := [[1; 2]; [3; 4]; [5; 6]] in
  let pb := [(for_column 0 [3], for_column 0 [1]); (for_column 1 [2], for_column 1 [4; 8])] in
  good_product (table_of t) two_columns pb /\ truthful (table_of t) two_columns (server_of t) /\ always_answers (table_of t) two_columns (server_of t) /\
  load (fun _ => 0) 1 (server_of t) 3 2 two_columns pb = Ends ([[Some 1; Some 2]; [Some 3; Some 4]], false).
Proof.
  intros t pb. destruct (server_true t) as (T & A); [intros r [<- |[<- |[<- |[]]]]; reflexivity|].
  split; [intros f [<- |[<- |[]]]; (split; [reflexivity|]; split; apply for_column_good; lia)|]. split; [exact T|]. split; [exact A|]. vm_compute. reflexivity.
Qed.
