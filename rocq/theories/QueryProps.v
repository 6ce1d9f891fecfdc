(** C52: Merging two queries joins their results, and constants, bindings and filters that are pushed into a query select rows. *)
From Coq Require Import String Ascii List Arith Bool Lia.
From Verif Require Import QueryModel QuerySpec QueryProofs1 QueryProofs2 QueryProofs3 QueryProofs4 QueryProofs5.
Import ListNotations.
Local Open Scope list_scope.

(** The merged query has one row for each pair of rows that agree in the joined columns and have the constants: the first row without
    its constant columns, and then the second row without its constant and its joined columns. *)
Theorem C52_merge : forall order E p q joins lc rc m, listing order -> mergeable E p q joins lc rc ->
  merge_patterns order p q joins lc rc = Some m ->
  forall row, rows E m row <->
    exists r s, rows E p r /\ rows E q s /\ (forall i j, In (i, j) joins -> nth_error r i = nth_error s j) /\
      has_constants lc r /\ has_constants rc s /\ row = drop_columns (map fst lc) r ++ drop_columns (map fst rc ++ map snd joins) s.
Proof.
  intros order E p q joins lc rc m Ho M H.
  assert (P : exists il lvs ir rvs, p = PProject il lvs /\ q = PProject ir rvs) by (destruct p, q; cbn in H; try discriminate; eauto 6).
  destruct P as (il & lvs & ir & rvs & -> & ->). destruct (merge_rows order Ho E il ir lvs rvs joins lc rc M) as (m' & H' & R).
  rewrite H in H'. injection H' as <-. exact R.
Qed.
Print Assumptions C52_merge.

(** Two queries whose outermost operation is a projection can always be merged. *)
Theorem C52_merge_defined : forall order p q vs ws joins lc rc, merge_patterns order (PProject p vs) (PProject q ws) joins lc rc <> None.
Proof. discriminate. Qed.
Print Assumptions C52_merge_defined.

(** Constants that are pushed into a query: the rows with the constants, without their columns. *)
Theorem C52_push_constants : forall order E inner vs constants, listing order -> plain_names (PProject inner vs) -> NoDup vs ->
  good_constants (List.length vs) constants -> (forall k, In k (map fst constants) -> always_bound E (PProject inner vs) k) ->
  forall row, rows E (push_constants order (PProject inner vs) constants) row <->
    exists r, rows E (PProject inner vs) r /\ has_constants constants r /\ row = drop_columns (map fst constants) r.
Proof.
  intros order E inner vs cs Ho P N G B row. apply push_constants_rows; auto. intros k c H. apply B. apply in_map_iff. exists (k, c). auto.
Qed.
Print Assumptions C52_push_constants.

(** Bindings that are pushed into a query: the rows that agree with one row of each set of bindings. *)
Theorem C52_bindings : forall E p bs, has_projection p -> NoDup (columns p) -> (forall b, In b bs -> good_bindings E p b) ->
  forall row, rows E (with_bindings p bs) row <-> rows E p row /\ forall b, In b bs -> agrees b row.
Proof. intros. now apply bindings_rows. Qed.
Print Assumptions C52_bindings.

(** Filters that are pushed into a query: the rows for which all conditions are true. *)
Theorem C52_filters : forall E p cs, has_projection p -> (forall c, In c cs -> simple c /\ incl (cond_vars c) (columns p)) ->
  forall row, rows E (with_filters p cs) row <-> rows E p row /\ forall c, In c cs -> cond_value E c (row_solution (columns p) row) true.
Proof. intros. now apply filters_rows. Qed.
Print Assumptions C52_filters.

(** ** What fails *)

Definition two_tables (a b : list nat -> Prop) : endpoint := fun t => match t with 0 => a | 1 => b | _ => fun _ => False end.

Lemma same_order : listing (fun l => l). Proof. intros l v. reflexivity. Qed.

Lemma bgp_bound E t vs k : k < List.length vs -> always_bound E (PProject (PBgp t vs) vs) k.
Proof.
  intros L row H. rewrite rows_project in H. destruct H as (n & (e & _ & V) & ->). rewrite (nth_error_nth_map _ _ _ EmptyString L). rewrite V.
  assert (M : mem (nth k vs EmptyString) vs = true) by (apply mem_In, nth_In; auto). rewrite M. eauto.
Qed.

Lemma plain_bgp t vs : (forall v, In v vs -> String.length v < 5) -> plain_names (PProject (PBgp t vs) vs).
Proof.
  intros H. split.
  - intros v Hv (w & ->). assert (In (w ++ "Label")%string vs) as G by (cbn in Hv; apply in_app_or in Hv; tauto). apply H in G.
    rewrite append_length in G. cbn in G. lia.
  - intros v Hv N. exfalso. apply N. exact Hv.
Qed.

Lemma bgp_rows E t vs row : NoDup vs -> rows E (PProject (PBgp t vs) vs) row <-> exists r, E t r /\ List.length r = List.length vs /\ row = map Some r.
Proof.
  intros N. rewrite rows_project. split.
  - intros (n & (e & He & V) & ->). exists (map e vs). split; auto. rewrite map_length, map_map. split; auto. apply map_ext_in. intros v Hv.
    rewrite V. apply mem_In in Hv. now rewrite Hv.
  - intros (r & Hr & L & ->).
    exists (fun v => match first_index v vs with Some k => Some (nth k r 0) | None => None end).
    assert (Q : map (fun v => match first_index v vs with Some k => nth k r 0 | None => 0 end) vs = r).
    { apply nth_ext with (d := 0) (d' := 0); [now rewrite map_length|]. intros i Hi. rewrite map_length in Hi.
      erewrite nth_indep with (d' := (fun v => match first_index v vs with Some k => nth k r 0 | None => 0 end) EmptyString) by now rewrite map_length.
      rewrite (map_nth (fun v => match first_index v vs with Some k => nth k r 0 | None => 0 end)).
      rewrite (first_index_nodup _ vs i); auto. now apply nth_error_nth'. }
    split.
    + exists (fun v => match first_index v vs with Some k => nth k r 0 | None => 0 end). split; [now rewrite Q|]. intros v.
      destruct (first_index v vs) eqn:F.
      * assert (mem v vs = true) as -> by (apply mem_In; eapply nth_error_In, first_index_nth; eauto). auto.
      * assert (mem v vs = false) as -> by (apply mem_not, first_index_none; auto). auto.
    + rewrite <- Q at 1. rewrite map_map. apply map_ext_in. intros v Hv. destruct (first_index_in v vs Hv) as (k & ->). auto.
Qed.

(** A negated query that is merged into another one should remove the rows that match; as the negation does not see the variables of
    the other query, one row of the negated query removes all rows. *)
Theorem C52_negation_refuted : ~ (forall order E p q joins m, listing order -> mergeable E p q joins [] [] ->
  (forall k, k < List.length (columns q) -> In k (map snd joins)) ->
  merge_patterns order p (negate q) joins [] [] = Some m ->
  forall row, rows E m row <-> rows E p row /\ ~ exists s, rows E q s /\ forall i j, In (i, j) joins -> nth_error row i = nth_error s j).
Proof.
  intros H. set (E := two_tables (fun r => r = [1] \/ r = [2]) (fun r => r = [2])).
  set (p := PProject (PBgp 0 ["x"%string]) ["x"%string]). set (q := PProject (PBgp 1 ["y"%string]) ["y"%string]).
  assert (M : mergeable E p q [(0, 0)] [] []).
  { assert (N : forall s : string, NoDup [s]) by (intros s; constructor; [intros []|constructor]).
    split; [apply plain_bgp; intros v [<- |[]]; cbn; lia|]. split; [apply plain_bgp; intros v [<- |[]]; cbn; lia|].
    split; [apply N|]. split; [apply N|]. split; [split; [|split]|].
    - cbn. constructor; [intros []|constructor].
    - cbn. constructor; [intros []|constructor].
    - intros i j [J|[]]. injection J as <- <-. cbn. lia.
    - split; [split; [constructor|intros k c []]|]. split; [split; [constructor|intros k c []]|].
      split; intros k [[<- |[]]|[]]; apply bgp_bound; cbn; lia. }
  assert (Em : exists m, merge_patterns (fun l => l) p (negate q) [(0, 0)] [] [] = Some m) by (eexists; reflexivity).
  destruct Em as (m & Em). specialize (H (fun l => l) E p q [(0, 0)] m same_order M ltac:(cbn; intros k Hk; left; lia) Em [Some 1]).
  vm_compute in Em. injection Em as <-. destruct H as (_ & H). destruct H as (m & S & _).
  - split; [apply bgp_rows; [constructor; [intros []|constructor]|exists [1]; cbn; auto]|].
    intros (s & Hs & J). apply bgp_rows in Hs; [|constructor; [intros []|constructor]]. destruct Hs as (r & Hr & _ & ->). cbn in Hr. subst r.
    specialize (J 0 0 (or_introl eq_refl)). cbn in J. congruence.
  - cbn [sol cond_value negb] in S. destruct S as (n & (a & b & _ & (U & K) & _) & _). apply K.
    exists (fun v => if mem v ["j0"%string] then Some 2 else None).
    split; [exists (fun _ => 2); split; [reflexivity|intros v; reflexivity]|].
    destruct U as (r & [<- |[]] & U). intros v x y Hx. rewrite U in Hx. cbn in Hx. discriminate.
Qed.
Print Assumptions C52_negation_refuted.

(** Without the assumption on names the theorem about merging is wrong: a column that is called like another one with Label at the end
    does not get a new name of its own. *)
Theorem C52_label_refuted : ~ (forall order E p q joins m, listing order ->
  incl (all_vars p) (columns p) -> incl (all_vars q) (columns q) -> NoDup (columns p) -> NoDup (columns q) ->
  good_joins (List.length (columns p)) (List.length (columns q)) joins ->
  (forall k, k < List.length (columns p) -> always_bound E p k) -> (forall k, k < List.length (columns q) -> always_bound E q k) ->
  merge_patterns order p q joins [] [] = Some m ->
  forall row, rows E m row -> exists r s, rows E p r /\ rows E q s /\ (forall i j, In (i, j) joins -> nth_error r i = nth_error s j) /\ row = r ++ drop_columns (map snd joins) s).
Proof.
  intros H. set (E := two_tables (fun r => r = [1; 2]) (fun r => r = [1; 3])).
  set (p := PProject (PBgp 0 ["x"; "xLabel"]%string) ["x"; "xLabel"]%string). set (q := PProject (PBgp 1 ["y"; "z"]%string) ["y"; "z"]%string).
  assert (Np : NoDup ["x"; "xLabel"]%string) by (repeat constructor; cbn; intuition discriminate).
  assert (Nq : NoDup ["y"; "z"]%string) by (repeat constructor; cbn; intuition discriminate).
  assert (Em : exists m, merge_patterns (fun l => l) p q [(0, 0); (1, 1)] [] [] = Some m) by (eexists; reflexivity).
  destruct Em as (m & Em). destruct (H (fun l => l) E p q [(0, 0); (1, 1)] m same_order) with (row := [Some 1; Some 2; Some 3])
    as (r & s & Hr & Hs & J & _); auto.
  - cbn. intros v Hv. cbn in *. tauto.
  - cbn. intros v Hv. cbn in *. tauto.
  - split; [cbn; repeat constructor; cbn; intuition discriminate|]. split; [cbn; repeat constructor; cbn; intuition discriminate|].
    cbn. intros i j [J|[J|[]]]; injection J as <- <-; lia.
  - intros k Hk. now apply bgp_bound.
  - intros k Hk. now apply bgp_bound.
  - vm_compute in Em. injection Em as <-.
    exists (fun v => if String.eqb v "j0" then Some 1 else if String.eqb v "j0Label" then Some 2 else if String.eqb v "j1" then Some 3 else None).
    split; [|reflexivity]. cbn [sol].
    exists (fun v => if String.eqb v "j0" then Some 1 else if String.eqb v "j0Label" then Some 2 else if String.eqb v "j1" then Some 3 else None).
    split.
    + exists (fun v => if mem v ["j0"; "j0Label"]%string then Some (if String.eqb v "j0" then 1 else 2) else None).
      exists (fun v => if mem v ["j0"; "j1"]%string then Some (if String.eqb v "j0" then 1 else 3) else None).
      split; [exists (fun v => if String.eqb v "j0" then 1 else 2); split; [reflexivity|intros v; reflexivity]|].
      split; [exists (fun v => if String.eqb v "j0" then 1 else 3); split; [reflexivity|intros v; reflexivity]|].
      split.
      * intros v x y. cbn [mem existsb]. destruct (String.eqb_spec v "j0") as [-> |N]; cbn; [congruence|].
        destruct (String.eqb_spec v "j0Label") as [-> |N2]; cbn; [discriminate|]. discriminate.
      * intros v. unfold both. cbn [mem existsb]. destruct (String.eqb_spec v "j0") as [-> |N]; cbn; auto.
        destruct (String.eqb_spec v "j0Label") as [-> |N2]; cbn; auto. destruct (String.eqb_spec v "j1") as [-> |N3]; cbn; auto.
    + intros v. cbn [mem existsb]. destruct (String.eqb_spec v "j0") as [-> |N]; cbn; auto.
      destruct (String.eqb_spec v "j0Label") as [-> |N2]; cbn; auto. destruct (String.eqb_spec v "j1") as [-> |N3]; cbn; auto.
  - apply (proj1 (bgp_rows E 0 _ r Np)) in Hr. apply (proj1 (bgp_rows E 1 _ s Nq)) in Hs. destruct Hr as (r' & Hr & _ & ->). destruct Hs as (s' & Hs & _ & ->).
    cbn in Hr, Hs. subst. specialize (J 1 1). cbn in J. specialize (J (or_intror (or_introl eq_refl))). discriminate.
Qed.
Print Assumptions C52_label_refuted.

(** Constants are not pushed into a query with DISTINCT: the query stays as it is. *)
Theorem C52_distinct_refuted : ~ (forall order E p constants, listing order -> has_projection p -> plain_names p -> NoDup (columns p) ->
  good_constants (List.length (columns p)) constants -> (forall k, In k (map fst constants) -> always_bound E p k) ->
  forall row, rows E (push_constants order p constants) row -> exists r, rows E p r /\ has_constants constants r /\ row = drop_columns (map fst constants) r).
Proof.
  intros H. set (E := two_tables (fun r => r = [1] \/ r = [2]) (fun r => False)). set (p := PProject (PBgp 0 ["x"%string]) ["x"%string]).
  assert (N : NoDup ["x"%string]) by (constructor; [intros []|constructor]).
  destruct (H (fun l => l) E (PDistinct p) [(0, 1)] same_order) with (row := [Some 2]) as (r & Hr & _ & Q); auto.
  - cbn. auto.
  - apply (plain_bgp 0). intros v [<- |[]]. cbn. lia.
  - split; [constructor; [intros []|constructor]|]. intros k c [G|[]]. injection G as <- <-. cbn. lia.
  - intros k [<- |[]]. apply (bgp_bound E 0 ["x"%string] 0). cbn. lia.
  - change (rows E p [Some 2]). apply bgp_rows; auto. exists [2]. cbn. auto.
  - change (rows E p r) in Hr. apply bgp_rows in Hr; auto. destruct Hr as (r' & _ & L & ->). destruct r' as [|x [|y r']]; try discriminate.
Qed.
Print Assumptions C52_distinct_refuted.

(** ** Cases that meet the hypotheses *)
Example merge_case : let E := two_tables (fun r => r = [1; 2] \/ r = [5; 2]) (fun r => r = [2; 3] \/ r = [4; 4]) in
  let p := PProject (PBgp 0 ["x"; "y"]%string) ["x"; "y"]%string in let q := PProject (PBgp 1 ["y"; "z"]%string) ["y"; "z"]%string in
  mergeable E p q [(1, 0)] [(0, 1)] [] /\
  exists m, merge_patterns (fun l => l) p q [(1, 0)] [(0, 1)] [] = Some m /\ forall row, rows E m row <-> row = [Some 2; Some 3].
Proof.
  intros E p q. assert (Np : NoDup ["x"; "y"]%string) by (repeat constructor; cbn; intuition discriminate).
  assert (Nq : NoDup ["y"; "z"]%string) by (repeat constructor; cbn; intuition discriminate).
  assert (M : mergeable E p q [(1, 0)] [(0, 1)] []).
  { split; [apply plain_bgp; intros v [<- |[<- |[]]]; cbn; lia|]. split; [apply plain_bgp; intros v [<- |[<- |[]]]; cbn; lia|].
    split; [exact Np|]. split; [exact Nq|]. split; [split; [|split]|].
    - cbn. constructor; [intros []|constructor].
    - cbn. constructor; [intros []|constructor].
    - intros i j [J|[]]. injection J as <- <-. cbn. lia.
    - split; [split; [constructor; [intros []|constructor]|intros k c [J|[]]; injection J as <- <-; cbn; lia]|]. 
      split; [split; [constructor|intros k c []]|].
      split; intros k Hk; apply bgp_bound; cbn in *; lia. }
  split; [exact M|]. assert (Em : exists m, merge_patterns (fun l => l) p q [(1, 0)] [(0, 1)] [] = Some m) by (eexists; reflexivity).
  destruct Em as (m & Em). exists m. split; [exact Em|]. intros row. rewrite (C52_merge _ E p q _ _ _ m same_order M Em row). split.
  - intros (r & s & Hr & Hs & J & C & _ & ->). apply (proj1 (bgp_rows E 0 _ r Np)) in Hr. apply (proj1 (bgp_rows E 1 _ s Nq)) in Hs.
    destruct Hr as (r' & Hr & _ & ->). destruct Hs as (s' & Hs & _ & ->). cbn in Hr, Hs. specialize (J 1 0 (or_introl eq_refl)).
    specialize (C 0 1 (or_introl eq_refl)). destruct Hr as [-> | ->], Hs as [-> | ->]; cbn in *; try discriminate. reflexivity.
  - intros ->. exists [Some 1; Some 2], [Some 2; Some 3]. split; [apply (bgp_rows E 0 _ _ Np); exists [1; 2]; cbn; auto|].
    split; [apply (bgp_rows E 1 _ _ Nq); exists [2; 3]; cbn; auto|]. split; [intros i j [J|[]]; injection J as <- <-; reflexivity|].
    split; [intros k c [J|[]]; injection J as <- <-; reflexivity|]. split; [intros k c []|]. reflexivity.
Qed.

Example bindings_case : let E := two_tables (fun r => r = [1; 2] \/ r = [5; 2]) (fun r => False) in
  let p := PDistinct (PProject (PBgp 0 ["x"; "y"]%string) ["x"; "y"]%string) in
  good_bindings E p ([0; 1], [[Some 1; None]; [Some 5; Some 7]]) /\ simple (CNot (CEq (QVar "x"%string) (QConst 1))) /\
  agrees ([0; 1], [[Some 1; None]; [Some 5; Some 7]]) [Some 1; Some 2] /\ ~ agrees ([0; 1], [[Some 1; None]; [Some 5; Some 7]]) [Some 5; Some 2].
Proof.
  intros E p. split; [|split; [exact I|split]].
  - split; [cbn; repeat constructor; cbn; intuition discriminate|]. split.
    + intros k Hk. cbn in Hk. split; [cbn; lia|]. change (always_bound E (PProject (PBgp 0 ["x"; "y"]%string) ["x"; "y"]%string) k).
      apply bgp_bound. cbn. lia.
    + intros r [<- |[<- |[]]]; reflexivity.
  - exists [Some 1; None]. split; [cbn; auto|]. intros [|[|i]] k c Hi Hc; cbn in *; try discriminate; [|destruct i; discriminate].
    injection Hi as <-. injection Hc as <-. reflexivity.
  - intros (r & [<- |[<- |[]]] & H); [specialize (H 0 0 1 eq_refl eq_refl)|specialize (H 1 1 7 eq_refl eq_refl)]; discriminate.
Qed.

Example filter_case : let E := two_tables (fun r => r = [1; 2] \/ r = [5; 2]) (fun r => False) in
  let p := PProject (PBgp 0 ["x"; "y"]%string) ["x"; "y"]%string in
  forall row, rows E (with_filters p [CNot (CEq (QVar "x"%string) (QConst 1)); CBound "y"%string]) row <-> row = [Some 5; Some 2].
Proof.
  intros E p row. assert (Np : NoDup ["x"; "y"]%string) by (repeat constructor; cbn; intuition discriminate).
  rewrite C52_filters; [|exact I|intros c [<- |[<- |[]]]; split; try exact I; intros v [<- |[]]; cbn; auto]. split.
  - intros (H & C). apply (proj1 (bgp_rows E 0 _ row Np)) in H. destruct H as (r & Hr & _ & ->). cbn in Hr.
    specialize (C _ (or_introl eq_refl)). cbn in C. destruct C as (x & y & Hx & Hy & Q). destruct Hr as [-> | ->]; auto.
    cbn in Hx. injection Hx as <-. injection Hy as <-. discriminate.
  - intros ->. split; [apply (bgp_rows E 0 _ _ Np); exists [5; 2]; cbn; auto|]. intros c [<- |[<- |[]]]; cbn; [|reflexivity].
    exists 5, 1. auto.
Qed.
