(** C53: Merging the imports of a rule keeps what the rule derives. *)
From Coq Require Import String List Arith Bool Lia.
From Verif Require Import QueryModel QuerySpec QueryProofs1 QueryProofs2 QueryProofs3 QueryProps RuleMergeModel RuleMergeSpec RuleMergeProofs1 RuleMergeProofs2 RuleMergeProofs3.
Import ListNotations.
Local Open Scope list_scope.

(** The transformation succeeds, and either only the imports of the rule change or the import is moved out of the rule. *)
Theorem C53_defined : forall order sparql ends r ineligible, set_listing order -> mergeable_rule ends sparql r ->
  (forall a, In a (r_head r) -> ineligible (fst a) = false) ->
  exists r' new, merge_rule order sparql ineligible r = Done (r', new) /\ r_head r' = r_head r /\
    ((exists c, r_imports r' = [(false, c)] /\ new = []) \/ (exists c, r_imports r' = [] /\ new = [c])).
Proof.
  intros order sparql ends r inel Ho (A & B & C & D & F & G) Hi.
  destruct (merge_rule_form order sparql Ho ends r A B C D F G inel Hi) as (c & _ & [-> | ->]); do 2 eexists; (split; [reflexivity|]); cbn; split; eauto.
Qed.
Print Assumptions C53_defined.

(** If only the imports of the rule change, it has the same matches. *)
Theorem C53_kept : forall order sparql ends other r ineligible r', set_listing order -> mergeable_rule ends sparql r ->
  (forall a, In a (r_head r) -> ineligible (fst a) = false) ->
  merge_rule order sparql ineligible r = Done (r', []) ->
  r_head r' = r_head r /\ forall I s, matches ends other I r s <-> matches ends other I r' s.
Proof.
  intros order sparql ends other r inel r' Ho (A & B & C & D & F & G) Hi H.
  destruct (merge_rule_form order sparql Ho ends r A B C D F G inel Hi) as (c & M & [E|E]); rewrite E in H; [|discriminate]. injection H as <-.
  split; auto. intros I s. exact (kept_matches order sparql Ho ends other r A B C D F G c I s M).
Qed.
Print Assumptions C53_kept.

(** If the import is moved out of the rule, the rule derives the same facts from the predicates and the new import. *)
Theorem C53_moved : forall order sparql ends other r ineligible r' new I, set_listing order -> mergeable_rule ends sparql r ->
  (forall a, In a (r_head r) -> ineligible (fst a) = false) ->
  merge_rule order sparql ineligible r = Done (r', new) -> new <> [] -> only_imported I r -> constants_apart r ->
  forall p row, derives ends other I r p row <-> derives ends other (with_imports ends I new) r' p row.
Proof.
  intros order sparql ends other r inel r' new I Ho (A & B & C & D & F & G) Hi H N O K p row.
  destruct (merge_rule_form order sparql Ho ends r A B C D F G inel Hi) as (c & M & [E|E]); rewrite E in H; injection H as <- <-; [congruence|].
  exact (moved_derives order sparql Ho ends other r A B C D F G c I p row M O K).
Qed.
Print Assumptions C53_moved.

(** ** What fails *)
Lemma same_set_order : set_listing (fun l => l). Proof. split; [exact same_order|auto]. Qed.

Definition table_query (t : nat) (vs : list string) : pattern := PProject (PBgp t vs) vs.

Lemma table_clause ends p e t vs : NoDup vs -> (forall v, In v vs -> String.length v < 5) -> good_clause ends (mk_clause p e (table_query t vs) vs).
Proof.
  intros N L. split; [now apply plain_bgp|]. split; [exact N|]. split; [exact N|]. split; [reflexivity|]. split; [eexists; eexists; reflexivity|].
  cbn. intros k Hk. now apply bgp_bound.
Qed.
Lemma table_holds ends p e t vs s : NoDup vs -> clause_holds ends (mk_clause p e (table_query t vs) vs) s <-> ends e t (map s vs).
Proof.
  intros N. unfold clause_holds. cbn [c_endpoint c_query c_vars]. unfold table_query. rewrite (bgp_rows _ t vs _ N). split.
  - intros (r & H & _ & Q). rewrite <- (map_map s Some) in Q. assert (E : map s vs = r); [|now rewrite E].
    revert r Q H. generalize (map s vs). induction l as [|x l IH]; intros [|y r] Q H; cbn in Q; try discriminate; auto. injection Q as -> Q.
    f_equal. clear H. revert r Q. clear IH. induction l as [|x l IH]; intros [|z r] Q; cbn in Q; try discriminate; auto. injection Q as -> Q. f_equal. auto.
  - intros H. exists (map s vs). split; auto. split; [apply map_length|]. now rewrite map_map.
Qed.

Lemma nodup_one (x : string) : NoDup [x]. Proof. constructor; [intros []|constructor]. Qed.

Definition x_clause (p : string) (e t : nat) : clause := mk_clause p e (table_query t ["x"%string]) ["x"%string].
Lemma x_good ends p e t : good_clause ends (x_clause p e t).
Proof. apply table_clause; [apply nodup_one|]. intros v [<- |[]]. cbn. lia. Qed.
Lemma x_holds ends p e t s : clause_holds ends (x_clause p e t) s <-> ends e t [s "x"%string].
Proof. apply table_holds, nodup_one. Qed.

(** A rule whose only imports are negated loses them. *)
Theorem C53_negated_refuted : ~ (forall order sparql ends other r r', set_listing order ->
  (forall neg c, In (neg, c) (r_imports r) -> neg = true /\ good_clause ends c) -> constant_vars (r_body r) = [] ->
  merge_rule order sparql (fun _ => false) r = Done (r', []) ->
  forall I s, matches ends other I r s <-> matches ends other I r' s).
Proof.
  intros H. set (ends := fun _ : nat => two_tables (fun r => r = [1]) (fun _ => False)).
  set (r := mk_rule [("a"%string, ["x"%string])] [LPos "b" ["x"%string]] [(true, x_clause "q" 0 0)]).
  destruct (H (fun l => l) (fun _ => true) ends (fun _ _ => True) r (mk_rule (r_head r) (r_body r) []) same_set_order) with (I := fun (_ : string) (_ : list nat) => True) (s := fun _ : string => 1)
    as (_ & M).
  - intros neg c [Q|[]]. injection Q as <- <-. split; auto. apply x_good.
  - reflexivity.
  - vm_compute. reflexivity.
  - destruct M as (_ & M); [split; [intros l [<- |[]]; exact I|intros neg c []]|]. specialize (M true _ (or_introl eq_refl)). apply M.
    apply x_holds. reflexivity.
Qed.
Print Assumptions C53_negated_refuted.

(** Two negated imports become the negation of their join. *)
Theorem C53_two_negated_refuted : ~ (forall order sparql ends other r r', set_listing order ->
  (forall neg c, In (neg, c) (r_imports r) -> good_clause ends c) -> (exists c, In (false, c) (r_imports r)) -> constant_vars (r_body r) = [] ->
  (forall c d, In (false, c) (r_imports r) -> In (true, d) (r_imports r) -> c_endpoint c <> c_endpoint d) ->
  merge_rule order sparql (fun _ => false) r = Done (r', []) ->
  forall I s, matches ends other I r s <-> matches ends other I r' s).
Proof.
  intros H. set (ends := fun _ : nat => two_tables (fun r => r = [1]) (fun _ => False)).
  set (p := x_clause "p" 1 0). set (q := x_clause "q" 0 0). set (t := x_clause "t" 0 1).
  set (r := mk_rule [("a"%string, ["x"%string])] [] [(false, p); (true, q); (true, t)]).
  assert (Gp : good_clause ends p) by apply x_good. assert (Gq : good_clause ends q) by apply x_good. assert (Gt : good_clause ends t) by apply x_good.
  set (m := match try_merge (fun l => l) (fun _ => true) q t [] with Done c => c | _ => q end).
  assert (Tm : try_merge (fun l => l) (fun _ => true) q t [] = Done m) by reflexivity.
  destruct (merge_holds (fun l => l) (fun _ => true) same_set_order ends [] q t m Gq Gt Tm) as (_ & Hm).
  assert (R : respects [] (fun _ => 1)) by (intros x c; discriminate).
  destruct (H (fun l => l) (fun _ => true) ends (fun _ _ => True) r
    (mk_rule [("a"%string, ["x"%string])] [] [(false, push_clause (fun l => l) (fun _ => true) p []); (true, m)]) same_set_order)
    with (I := fun (_ : string) (_ : list nat) => True) (s := fun _ : string => 1) as (_ & M).
  - intros neg c [Q|[Q|[Q|[]]]]; injection Q as <- <-; auto.
  - exists p. now left.
  - reflexivity.
  - intros c d [Q|[Q|[Q|[]]]] [Q'|[Q'|[Q'|[]]]]; try discriminate; injection Q as <-; injection Q' as <-; discriminate.
  - vm_compute. reflexivity.
  - destruct M as (_ & M).
    + split; [intros l []|]. cbn [r_imports]. intros neg c [Q|[Q|[]]]; injection Q as <- <-.
      * apply (push_holds (fun l => l) (fun _ => true) same_set_order ends [] p); auto; [eexists; reflexivity|]. apply x_holds. reflexivity.
      * rewrite (Hm _ R). intros (_ & K). apply x_holds in K. exact K.
    + apply (M true q); [cbn; auto|]. apply x_holds. reflexivity.
Qed.
Print Assumptions C53_two_negated_refuted.

(** A negated import that is merged into a positive one: the negation does not see the variables of the positive import. *)
Theorem C53_positive_negated_refuted : ~ (forall order sparql ends other r r', set_listing order ->
  (forall neg c, In (neg, c) (r_imports r) -> good_clause ends c) -> List.length (r_imports r) = 2 -> constant_vars (r_body r) = [] ->
  (forall c d, In c (r_imports r) -> In d (r_imports r) -> c_endpoint (snd c) = c_endpoint (snd d) /\ c_vars (snd c) = c_vars (snd d)) ->
  merge_rule order sparql (fun _ => false) r = Done (r', []) ->
  forall I s, matches ends other I r s <-> matches ends other I r' s).
Proof.
  intros H. set (ends := fun _ : nat => two_tables (fun r => r = [1] \/ r = [2]) (fun r => r = [2])).
  set (p := x_clause "p" 0 0). set (q := x_clause "q" 0 1).
  set (r := mk_rule [("a"%string, ["x"%string])] [] [(false, p); (true, q)]).
  assert (Em : exists r', merge_rule (fun l => l) (fun _ => true) (fun _ => false) r = Done (r', [])) by (eexists; vm_compute; reflexivity).
  destruct Em as (r' & Em).
  destruct (H (fun l => l) (fun _ => true) ends (fun _ _ => True) r r' same_set_order)
    with (I := fun (_ : string) (_ : list nat) => True) (s := fun _ : string => 1) as (M & _); auto.
  - intros neg c [Q|[Q|[]]]; injection Q as <- <-; apply x_good.
  - intros c d [<- |[<- |[]]] [<- |[<- |[]]]; auto.
  - destruct M as (_ & M).
    + split; [intros l []|]. cbn [r_imports r]. intros neg c [Q|[Q|[]]]; injection Q as <- <-.
      * apply x_holds. left. reflexivity.
      * intros K. apply x_holds in K. discriminate.
    + vm_compute in Em. injection Em as <-. specialize (M false _ (or_introl eq_refl)). cbn in M. destruct M as (mm & S & _).
      cbn [c_query sol cond_value negb] in S. destruct S as (n & (a & b & _ & (U & K) & _) & _). apply K.
      exists (fun v => if mem v ["j0"%string] then Some 2 else None).
      split; [exists (fun _ => 2); split; [reflexivity|intros v; reflexivity]|].
      destruct U as (row & [<- |[]] & U). intros v x y Hx. rewrite U in Hx. cbn in Hx. discriminate.
Qed.
Print Assumptions C53_positive_negated_refuted.

(** If merging fails all imports are lost. *)
Theorem C53_distinct_refuted : ~ (forall order sparql ends other r r', set_listing order ->
  (forall neg c, In (neg, c) (r_imports r) -> neg = false /\ c_endpoint c = 0 /\ has_projection (c_query c) /\ List.length (c_vars c) = List.length (columns (c_query c))) ->
  constant_vars (r_body r) = [] -> merge_rule order sparql (fun _ => false) r = Done (r', []) ->
  forall I s, matches ends other I r s <-> matches ends other I r' s).
Proof.
  intros H. set (ends := fun _ : nat => two_tables (fun _ => False) (fun _ => False)).
  set (p := x_clause "p" 0 0). set (q := mk_clause "q" 0 (PDistinct (table_query 1 ["x"%string])) ["x"%string]).
  set (r := mk_rule [("a"%string, ["x"%string])] [LPos "b" ["x"%string]] [(false, p); (false, q)]).
  destruct (H (fun l => l) (fun _ => true) ends (fun _ _ => True) r (mk_rule (r_head r) (r_body r) []) same_set_order)
    with (I := fun (_ : string) (_ : list nat) => True) (s := fun _ : string => 1) as (_ & M).
  - intros neg c [Q|[Q|[]]]; injection Q as <- <-; cbn; auto.
  - reflexivity.
  - vm_compute. reflexivity.
  - destruct M as (_ & M); [split; [intros l [<- |[]]; exact I|intros neg c []]|]. specialize (M false p (or_introl eq_refl)). cbn in M.
    apply x_holds in M. exact M.
Qed.
Print Assumptions C53_distinct_refuted.

(** A variable of the head that has a constant can be lost. *)
Theorem C53_head_refuted : ~ (forall order sparql ends r r' new, set_listing order -> mergeable_rule ends sparql r -> head_bound r ->
  merge_rule order sparql (fun _ => false) r = Done (r', new) -> head_bound r').
Proof.
  intros H. set (ends := fun _ : nat => two_tables (fun _ => False) (fun _ => False)).
  set (p := mk_clause "p" 0 (table_query 0 ["x"; "y"]%string) ["x"; "y"]%string).
  set (r := mk_rule [("a"%string, ["x"; "y"]%string)] [LEqual "y" 5] [(false, p)]).
  assert (Em : exists r' new, merge_rule (fun l => l) (fun _ => true) (fun _ => false) r = Done (r', new)) by (do 2 eexists; vm_compute; reflexivity).
  destruct Em as (r' & new & Em).
  assert (B : head_bound r').
  { refine (H (fun l => l) (fun _ => true) ends r r' new same_set_order _ _ Em).
    - split; [discriminate|]. split; [|split; [|split; [|split]]].
      + intros neg c [Q|[]]. injection Q as <- <-. split; auto. apply table_clause; [repeat constructor; cbn; intuition discriminate|].
        intros v [<- |[<- |[]]]; cbn; lia.
      + intros n m c d [Q|[]] [Q'|[]]. injection Q as <- <-. injection Q' as <- <-. reflexivity.
      + intros x c d [Q|[]] [Q'|[]]. congruence.
      + reflexivity.
      + intros [|i] [|j] n m c d v Hi Hj; cbn in *; try congruence; try (destruct i; discriminate). destruct j; discriminate.
    - intros q vs x [Q|[]] Hx. injection Q as <- <-. right. exists false, p. split; [now left|exact Hx]. }
  vm_compute in Em. injection Em as <- <-. destruct (B "a"%string ["x"; "y"]%string "y"%string) as [(l & [<- |[]] & L)|(n & c & [] & _)]; cbn; auto.
  cbn in L. destruct L as [L|[]]. discriminate.
Qed.
Print Assumptions C53_head_refuted.

(** A constant for a variable of two imports makes the transformation panic. *)
Theorem C53_panics_refuted : ~ (forall order sparql ends r, set_listing order ->
  (forall neg c, In (neg, c) (r_imports r) -> neg = false /\ good_clause ends c /\ c_endpoint c = 0) -> one_constant (r_body r) ->
  merge_rule order sparql (fun _ => false) r <> Panics).
Proof.
  intros H. set (ends := fun _ : nat => two_tables (fun _ => False) (fun _ => False)).
  apply (H (fun l => l) (fun _ => true) ends (mk_rule [] [LEqual "x" 5] [(false, x_clause "p" 0 0); (false, x_clause "q" 0 1)]) same_set_order).
  - intros neg c [Q|[Q|[]]]; injection Q as <- <-; split; auto; split; auto; apply x_good.
  - intros x c d [Q|[]] [Q'|[]]. congruence.
  - vm_compute. reflexivity.
Qed.
Print Assumptions C53_panics_refuted.

(** A constant and a query with DISTINCT: the import has less variables than the query has columns. *)
Theorem C53_arity_refuted : ~ (forall order sparql r r' new, set_listing order ->
  (forall neg c, In (neg, c) (r_imports r) -> neg = false /\ has_projection (c_query c) /\ List.length (c_vars c) = List.length (columns (c_query c))) ->
  one_constant (r_body r) -> merge_rule order sparql (fun _ => false) r = Done (r', new) ->
  forall c, In c new -> List.length (c_vars c) = List.length (columns (c_query c))).
Proof.
  intros H. set (q := mk_clause "q" 0 (PDistinct (table_query 1 ["x"; "y"]%string)) ["x"; "y"]%string).
  set (r := mk_rule [("a"%string, ["x"]%string)] [LEqual "y" 5] [(false, q)]).
  assert (Em : exists r' new, merge_rule (fun l => l) (fun _ => true) (fun _ => false) r = Done (r', new)) by (do 2 eexists; vm_compute; reflexivity).
  destruct Em as (r' & new & Em).
  assert (B : forall c, In c new -> List.length (c_vars c) = List.length (columns (c_query c))).
  { refine (H (fun l => l) (fun _ => true) r r' new same_set_order _ _ Em).
    - intros neg c [Q|[]]. injection Q as <- <-. cbn. auto.
    - intros x c d [Q|[]] [Q'|[]]. congruence. }
  vm_compute in Em. injection Em as <- <-. specialize (B _ (or_introl eq_refl)). discriminate.
Qed.
Print Assumptions C53_arity_refuted.

(** A variable with two different constants: the rule derives nothing, the new rule ignores one of the constants. *)
Theorem C53_two_constants_refuted : ~ (forall order sparql ends other r r' new I, set_listing order ->
  (forall neg c, In (neg, c) (r_imports r) -> neg = false /\ good_clause ends c) -> List.length (r_imports r) = 1 ->
  merge_rule order sparql (fun _ => false) r = Done (r', new) -> new <> [] -> only_imported I r -> constants_apart r ->
  forall p row, derives ends other I r p row <-> derives ends other (with_imports ends I new) r' p row).
Proof.
  intros H. set (ends := fun _ : nat => two_tables (fun r => r = [4; 2]) (fun _ => False)).
  set (p := mk_clause "p" 0 (table_query 0 ["x"; "y"]%string) ["x"; "y"]%string).
  set (r := mk_rule [("a"%string, ["x"%string])] [LEqual "y" 1; LEqual "y" 2] [(false, p)]).
  set (I := fun (_ : string) (_ : list nat) => False).
  assert (N : NoDup ["x"; "y"]%string) by (constructor; [intros [Q|[]]; discriminate|apply nodup_one]).
  assert (G : good_clause ends p) by (apply table_clause; [exact N|intros v [<- |[<- |[]]]; cbn; lia]).
  assert (Em : merge_rule (fun l => l) (fun _ => true) (fun _ => false) r =
    Done (mk_rule (r_head r) [LEqual "y" 1; LPos "p" ["x"%string]] [], [push_clause (fun l => l) (fun _ => true) p [("y"%string, 2); ("y"%string, 1)]])) by (vm_compute; reflexivity).
  assert (K : derives ends (fun _ _ => True) I r "a"%string [4]).
  { refine (proj2 (H (fun l => l) (fun _ => true) ends (fun _ _ => True) r _ _ I same_set_order _ _ Em _ _ _ "a"%string [4]) _).
  - intros neg c [Q|[]]. injection Q as <- <-. auto.
  - reflexivity.
  - discriminate.
  - intros n x [Q|[]]. injection Q as <- <-. split; [intros t []|]. intros l [<- |[<- |[]]]; exact Logic.I.
  - intros x [<- |[<- |[]]]; (split; [intros q vs [Q|[]]; injection Q as <- <-; intros [Q|[]]; discriminate|]; intros l [<- |[<- |[]]] _; eexists; reflexivity).
  - exists (fun v => if String.eqb v "x" then 4 else 1), ["x"%string]. split; [|split; [now left|reflexivity]]. split; [|intros neg c []].
      intros l [<- |[<- |[]]]; [reflexivity|]. right. eexists. split; [now left|]. split; [reflexivity|].
      refine (proj2 (push_holds (fun l => l) (fun _ => true) same_set_order ends [("y"%string, 2); ("y"%string, 1)] p (fun v => if String.eqb v "x" then 4 else 2) G _ _) _).
      * eexists. reflexivity.
      * clear. intros x c Q. unfold value_of in Q. cbn [find fst] in Q. destruct (String.eqb "y" x) eqn:E; [|rewrite ?E in Q; cbn in Q; rewrite ?E in Q; cbn in Q; discriminate].
        apply String.eqb_eq in E. subst x. injection Q as <-. reflexivity.
      * apply table_holds; [exact N|]. reflexivity.
  }
  destruct K as (s & vs & (M & _) & _). pose proof (M _ (or_introl eq_refl)) as A. pose proof (M _ (or_intror (or_introl eq_refl))) as B. cbn in A, B. clear - A B. congruence.
Qed.
Print Assumptions C53_two_constants_refuted.

(** ** Cases that meet the hypotheses *)
Definition two_vars (p : string) (e t : nat) (v w : string) : clause := mk_clause p e (table_query t [v; w]) [v; w].

Example merged_case : let ends := fun _ : nat => two_tables (fun r => r = [1; 2] \/ r = [4; 2]) (fun r => r = [2; 3] \/ r = [2; 5]) in
  let r := mk_rule [("a", ["x"; "z"])]%string [LPos "b" ["x"%string]; LEqual "z" 3] [(false, two_vars "p" 0 0 "x" "y"); (false, two_vars "q" 0 1 "y" "z")] in
  mergeable_rule ends (fun _ => true) r /\ (exists r', merge_rule (fun l => l) (fun _ => true) (fun _ => false) r = Done (r', [])) /\
  let s := fun v => if String.eqb v "x" then 1 else if String.eqb v "y" then 2 else 3 in
  matches ends (fun _ _ => True) (fun _ row => row = [1]) r s.
Proof.
  intros ends r. assert (G : forall p t v w, v <> w -> String.length v < 5 -> String.length w < 5 -> good_clause ends (two_vars p 0 t v w)).
  { intros p t v w N Lv Lw. apply table_clause; [constructor; [intros [Q|[]]; auto|apply nodup_one]|]. intros u [<- |[<- |[]]]; auto. }
  split; [|split].
  - split; [discriminate|]. split; [|split; [|split; [|split]]].
    + intros neg c [Q|[Q|[]]]; injection Q as <- <-; split; auto; apply G; cbn; try lia; discriminate.
    + intros n m c d [Q|[Q|[]]] [Q'|[Q'|[]]]; injection Q as <- <-; injection Q' as <- <-; reflexivity.
    + intros x c d [Q|[Q|[]]] [Q'|[Q'|[]]]; congruence.
    + reflexivity.
    + intros i j n m c d v Hi Hj N Hc Hd [Z|[]]. subst v.
      destruct i as [|[|i]]; cbn in Hi; [injection Hi as <- <-; destruct Hc as [Hc|[Hc|[]]]; discriminate| |destruct i; discriminate].
      destruct j as [|[|j]]; cbn in Hj; [injection Hj as <- <-; destruct Hd as [Hd|[Hd|[]]]; discriminate|congruence|destruct j; discriminate].
  - eexists. vm_compute. reflexivity.
  - intros s. split; [intros l [<- |[<- |[]]]; reflexivity|].
    intros neg c [Q|[Q|[]]]; injection Q as <- <-; unfold two_vars; apply table_holds; try (left; reflexivity);
      (constructor; [intros [Q|[]]; discriminate|apply nodup_one]).
Qed.

Example moved_case : let ends := fun _ : nat => two_tables (fun r => r = [1; 2] \/ r = [4; 2]) (fun r => r = [2; 3] \/ r = [2; 5]) in
  let r := mk_rule [("a", ["x"])]%string [LEqual "y" 2] [(false, two_vars "p" 0 0 "x" "y")] in
  let I := fun (_ : string) (_ : list nat) => False in
  mergeable_rule ends (fun _ => true) r /\ only_imported I r /\ constants_apart r /\
  exists r' new, merge_rule (fun l => l) (fun _ => true) (fun _ => false) r = Done (r', new) /\ new <> [] /\
    derives ends (fun _ _ => True) (with_imports ends I new) r' "a" [4].
Proof.
  intros ends r I. assert (M : mergeable_rule ends (fun _ => true) r).
  { split; [discriminate|]. split; [|split; [|split; [|split]]].
    - intros neg c [Q|[]]; injection Q as <- <-; split; auto. apply table_clause; [constructor; [intros [Q|[]]; discriminate|apply nodup_one]|].
      intros u [<- |[<- |[]]]; cbn; lia.
    - intros n m c d [Q|[]] [Q'|[]]; injection Q as <- <-; injection Q' as <- <-; reflexivity.
    - intros x c d [Q|[]] [Q'|[]]; congruence.
    - reflexivity.
    - intros [|i] [|j] n m c d v Hi Hj; cbn in *; try congruence; try (destruct i; discriminate). destruct j; discriminate. }
  assert (O : only_imported I r).
  { intros n x [Q|[]]. injection Q as <- <-. split; [intros t []|]. intros l [<- |[]]. exact Logic.I. }
  assert (K : constants_apart r).
  { intros x [<- |[]]. split; [intros q vs [Q|[]]; injection Q as <- <-; intros [Q|[]]; discriminate|]. intros l [<- |[]] _. eauto. }
  split; [exact M|]. split; [exact O|]. split; [exact K|].
  assert (Em : exists r' new, merge_rule (fun l => l) (fun _ => true) (fun _ => false) r = Done (r', new) /\ new <> []).
  { do 2 eexists. split; [vm_compute; reflexivity|discriminate]. }
  destruct Em as (r' & new & Em & N). exists r', new. split; auto. split; auto.
  apply (C53_moved (fun l => l) (fun _ => true) ends (fun _ _ => True) r (fun _ => false) r' new I same_set_order M (fun _ _ => eq_refl) Em N O K).
  exists (fun v => if String.eqb v "x" then 4 else 2), ["x"%string]. split; [|split; [now left|reflexivity]]. split; [intros l [<- |[]]; reflexivity|].
  intros neg c [Q|[]]. injection Q as <- <-. apply table_holds; [constructor; [intros [Q|[]]; discriminate|apply nodup_one]|]. right. reflexivity.
Qed.
