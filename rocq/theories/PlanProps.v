(* C40: execution plans compute the tables that relational algebra assigns to them. *)
From Coq Require Import List ZArith Bool Lia Arith Permutation Sorted.
From Verif Require Import ColumnModel ScanModel TrieModel TrieSpec TrieScanSpec OpModel OpSpec ProjModel ProjSpec ProjProofs2 StoreModel StoreSpec StoreProofs1 StoreProofs2 StoreProofs3 StoreProps PlanModel PlanSpec PlanProofs1 PlanProofs2 PlanProofs3 PlanProofs4 PlanProofs5 PlanProofs6 PlanProofs7 PlanProofs8 PlanProofs9.
From Verif Require PermModel PermProofs PermProps.
Import ListNotations.
Local Open Scope nat_scope.

(* A plan that was built with the functions of ExecutionPlan and is sound is executed without panicking.  Either some
   output that has to be non-empty and is needed for a permanent output has no rows; then nothing is stored.  Or every
   permanent output that has rows is stored as a new table, with exactly the rows that relational algebra gives it and
   with its columns in the requested order, and the other tables are as before. *)
Theorem C40_execute_partial : forall shuffle cat db pl A M, shuffles shuffle -> history shuffle cat db -> built_plan pl -> sound_plan cat pl A -> means cat pl A M ->
  exists enough db' results, (forall fuel, enough <= fuel -> execute_plan shuffle fuel db pl = Ok (db', Some results)) /\
    ((exists nd res, In (mk_out nd res true) (pl_outs pl) /\ needed pl nd /\ without_rows A M nd) /\ results = [] /\ history shuffle cat db' \/
     (forall nd res, In (mk_out nd res true) (pl_outs pl) -> needed pl nd -> ~ without_rows A M nd) /\
     exists cat', history shuffle (cat ++ cat') db' /\
       (forall nd id, find_key Nat.eqb nd results = Some id -> exists o, permanent pl nd o /\ ~ without_rows A M nd /\ length cat <= id /\
          nth_error (cat ++ cat') id = Some (A nd, arranged_as (A nd) o (M nd), None)) /\
       (forall nd o, permanent pl nd o -> ~ without_rows A M nd -> find_key Nat.eqb nd results <> None)).
Proof.
  intros shuffle cat db pl A M SH HH HB SP ME. pose proof (built_outs pl HB) as OO.
  destruct (finalize_ok cat pl A M OO SP ME) as (en1 & se & G & E1 & MS). pose proof (ms_ok _ _ _ _ _ _ MS) as SO.
  destruct (collect_ok shuffle SH cat (loaded_tries se) db HH (ms_loaded _ _ _ _ _ _ MS)) as (en2 & m & loaded & E2 & HH2 & _ & HL).
  assert (LD : forall cs, loads cat m (mk_tstorage loaded cs) (loaded_tries se)).
  { intros cs i id o n P Ei Hc Hp. destruct (HL i id o n P Ei Hc) as (sid & tr & Es & Et & Hg). exists tr. split; [unfold load_leaf, index; cbn [loaded_tables]; rewrite Es; exact Et|apply Hg]. }
  destruct (execute_series cat m (loaded_tries se) (map (rows_of A M) G) (series_trees se) SO loaded LD) as (en3 & res & E3 & Hres).
  assert (HG : forall r t, nth_error (series_trees se) r = Some t -> exists g, nth_error G r = Some g).
  { intros r t Et. assert (Hr : r < length (series_trees se)) by (apply nth_error_Some; congruence). rewrite <- (so_length _ _ _ _ SO), map_length in Hr. apply nth_error_Some in Hr. destruct (nth_error G r) as [g|]; [eauto|congruence]. }
  assert (HGt : forall r g, nth_error G r = Some g -> exists t, nth_error (series_trees se) r = Some t).
  { intros r g Eg. assert (Hr : r < length (map (rows_of A M) G)) by (rewrite map_length; apply nth_error_Some; congruence). rewrite (so_length _ _ _ _ SO) in Hr. apply nth_error_Some in Hr. destruct (nth_error (series_trees se) r) as [t|]; [eauto|congruence]. }
  assert (Hrows : forall r g, nth_error G r = Some g -> permutes (A (fst g)) (snd g) -> (no_rows (map (rows_of A M) G) r <-> without_rows A M (fst g))).
  { intros r g Eg Hp. unfold no_rows, without_rows. rewrite nth_error_map, Eg. cbn [option_map rows_of]. split.
    - intros H q Hq HM. destruct (arranged_exists (A (fst g)) (snd g) q Hp Hq) as (q' & Hq' & Ha). apply (H _ _ eq_refl q' Hq'). exists q. auto.
    - intros H n Q K q Hq HQ. unfold rows_of in K. injection K as <- <-. destruct HQ as (q0 & Hq0 & HM & _). apply (H q0 Hq0 HM). }
  destruct res as [cs|].
  - destruct Hres as (Hlc & Hreq & Hcs).
    assert (Hperm : forall r t g o, nth_error (series_trees se) r = Some t -> nth_error G r = Some g -> t_result t = Permanent o -> permanent pl (fst g) o /\ identical (snd g) /\ t_id t = fst g).
    { intros r t g o Et Eg Ho. destruct (ms_tree _ _ _ _ _ _ MS r t g Et Eg) as (Hid & _ & _ & on & Eon & Hr & _). rewrite Ho in Hr. destruct (PermModel.is_identity (snd g)) eqn:Ei; [|discriminate].
      destruct (find_out_spec _ _ _ Eon) as [Hin En]. split; [|split; [intros i; apply PermProps.C16_is_identity, Ei|exact Hid]]. exists (on_required on). destruct on as [nd r0 rq]. cbn in *. subst. exact Hin. }
    set (results := combine (map (fun t => (t_result t, t_id t)) (series_trees se)) cs).
    assert (Hin : forall o nd tr, In (Permanent o, nd, tr) results -> exists r t g, nth_error (series_trees se) r = Some t /\ nth_error G r = Some g /\ nth_error cs r = Some tr /\ t_result t = Permanent o /\ t_id t = nd).
    { intros o nd tr Hi. apply In_nth_error in Hi. destruct Hi as (r & Hr). unfold results in Hr. clear - Hr HG.
      assert (K : forall (l : list tree) (k : list (option trie)) r o nd tr, nth_error (combine (map (fun t => (t_result t, t_id t)) l) k) r = Some (Permanent o, nd, tr) -> exists t, nth_error l r = Some t /\ nth_error k r = Some tr /\ t_result t = Permanent o /\ t_id t = nd).
      { clear. induction l as [|t l IH]; intros [|x k] [|r] o nd tr H; cbn in H; try discriminate; [injection H as H1 H2 H3; subst; exists t; auto|]. exact (IH k r o nd tr H). }
      destruct (K _ _ _ _ _ _ Hr) as (t & Et & Ec & K1 & K2). destruct (HG r t Et) as (g & Eg). exists r, t, g. auto. }
    destruct (register_ok shuffle SH pl A M (length cat) results cat (with_manager db m) [] HH2) as (db' & found & cat' & E4 & HH4 & F1 & _ & F2); [lia|intros nd id K; discriminate| |].
    { intros o nd tr Hi. destruct (Hin o nd tr Hi) as (r & t & g & Et & Eg & Ec & Ho & <-). destruct (Hperm r t g o Et Eg Ho) as (Hp & Hid & ->). split; [exact Hp|]. split; [apply (sp_permanent _ _ _ SP _ _ Hp)|].
      destruct (Hcs r t (A (fst g)) (rearranged (A (fst g)) (snd g) (M (fst g))) Et) as (tr' & Etr & Hh); [rewrite nth_error_map, Eg; reflexivity|apply (ms_used _ _ _ _ _ _ MS r t o Et Ho)|].
      rewrite Ec in Etr. injection Etr as ->. exists tr'. split; [reflexivity|]. refine (holds_iff _ _ _ _ _ Hh). intros q Hq. apply rearranged_identical; assumption. }
    exists (max en1 (max en2 en3)), db', found. split.
    { intros fuel Hf. unfold execute_plan. rewrite E1 by lia. cbn [bind]. rewrite E2 by lia. cbn [bind fst snd]. cbn [with_manager db_manager]. rewrite E3 by lia. cbn [bind]. fold results. cbn [with_manager] in E4 |- *. rewrite E4. reflexivity. }
    right. split.
    { intros nd r0 Hi Hn. destruct (ms_needed _ _ _ _ _ _ MS nd Hn) as (r & o & Eg); [exists (mk_out nd r0 true); auto|]. destruct (HGt r _ Eg) as (t & Et). destruct (ms_tree _ _ _ _ _ _ MS r t _ Et Eg) as (_ & Hp & _ & on & Eon & _ & Hrq). cbn [fst snd] in *.
      pose proof (oo_distinct pl OO _ Hi) as K. cbn [on_node] in K. rewrite Eon in K. injection K as ->. cbn in Hrq. intros N. apply (Hreq r t Et Hrq). apply (Hrows r _ Eg Hp), N. }
    exists cat'. split; [exact HH4|]. split; [exact F1|].
    intros nd o Hp N. destruct (ms_permanent _ _ _ _ _ _ MS nd o Hp) as (r & o' & Eg & Hid). destruct (HGt r _ Eg) as (t & Et). destruct (ms_tree _ _ _ _ _ _ MS r t _ Et Eg) as (Eid & _ & _ & on & Eon & Hr & _). cbn [fst snd] in *.
    destruct Hp as (rq & Hp). pose proof (oo_distinct pl OO _ Hp) as K. cbn [on_node] in K. rewrite Eon in K. injection K as ->. rewrite (proj2 (PermProps.C16_is_identity o') Hid) in Hr. cbn in Hr.
    assert (Hrc : r < length cs) by (rewrite Hlc; apply nth_error_Some; congruence). apply nth_error_Some in Hrc. destruct (nth_error cs r) as [tr|] eqn:Ec; [|congruence]. apply (F2 o nd tr); [|exact N].
    unfold results. clear - Et Ec Hr Eid. revert r cs Et Ec. induction (series_trees se) as [|x l IH]; intros [|r] [|y cs] Et Ec; cbn in *; try discriminate.
    + injection Et as ->. injection Ec as ->. left. rewrite Hr, Eid. reflexivity.
    + right. apply (IH r cs Et Ec).
  - destruct Hres as (r & t & Et & Hrq & Hn). destruct (HG r t Et) as (g & Eg). destruct (ms_tree _ _ _ _ _ _ MS r t g Et Eg) as (_ & Hp & Hnd & on & Eon & _ & Hq). destruct (find_out_spec _ _ _ Eon) as [Hin En].
    exists (max en1 (max en2 en3)), (with_manager db m), []. split.
    { intros fuel Hf. unfold execute_plan. rewrite E1 by lia. cbn [bind]. rewrite E2 by lia. cbn [bind fst snd]. cbn [with_manager db_manager]. rewrite E3 by lia. reflexivity. }
    left. split; [|split; [reflexivity|exact HH2]]. exists (fst g), (on_result on). split; [|split; [exact Hnd|apply (Hrows r g Eg Hp), Hn]]. destruct on as [nd0 r0 rq]. cbn in *. subst. rewrite Hrq in Hin. exact Hin.
Qed.
Print Assumptions C40_execute_partial.

(* ---------- examples and refutations ---------- *)
(* two tables: 0 has the rows (1,2), (1,3), (2,3) and 1 has the row (3) *)
Definition rows_r : list row := [[i64 1; i64 2]; [i64 1; i64 3]; [i64 2; i64 3]].
Definition rows_s : list row := [[i64 3]].
Definition register (db : database) (n : nat) (rows : list row) : res database :=
  bind (write_rows n rows) (fun tr => bind (register_add_trie db PermModel.perm_default tr) (fun r => Ok (fst r))).
Definition db2 : res database := bind (register database_default 2 rows_r) (fun db => register db 1 rows_s).
Definition given (n : nat) (rows : list row) : nat * (row -> Prop) * option perm := (n, arranged_as n PermModel.perm_default (fun r => In r rows), None).
Definition cat2 : catalog := [given 2 rows_r; given 1 rows_s].
Lemma register_rows : forall cat db n rows, 0 < n -> Forall (fun r => length r = n) rows -> history keep cat db ->
  exists db', register db n rows = Ok db' /\ history keep (cat ++ [given n rows]) db'.
Proof.
  intros cat db n rows Hn HF HH. destruct (written_good n rows Hn HF) as (tr & E & HG).
  destruct (proj1 (C39_register keep cat db (fun l => Permutation_refl _) HH) n _ PermModel.perm_default tr HG (permutes_default n)) as (db' & E' & HH').
  exists db'. split; [unfold register; rewrite E; cbn [bind]; rewrite E'; reflexivity|exact HH'].
Qed.
Lemma db2_history : exists db, db2 = Ok db /\ history keep cat2 db.
Proof.
  destruct (register_rows [] database_default 2 rows_r) as (db1 & E1 & H1); [lia|repeat constructor|apply l_refl|].
  destruct (register_rows [given 2 rows_r] db1 1 rows_s) as (db' & E2 & H2); [lia|repeat constructor|exact H1|].
  exists db'. split; [unfold db2; rewrite E1; exact E2|exact H2].
Qed.
Lemma given_rows : forall n rows r, length r = n -> (rearranged n PermModel.perm_default (snd (fst (given n rows))) r <-> In r rows).
Proof.
  intros n rows r Hl. cbn [given fst snd]. split.
  - intros (q & Hq & (s & Hs & Hin & Ha) & Ha'). apply (arranged_default n) in Ha, Ha'. subst. exact Hin.
  - intros Hin. exists r. split; [exact Hl|]. split; [|apply (arranged_default n); reflexivity]. exists r. split; [exact Hl|]. split; [exact Hin|apply (arranged_default n); reflexivity].
Qed.
(* the ids of the new tables and the rows of the one for this node *)
Definition run (pl : plan) (nd : nat) : res (list (nat * nat) * option (list row)) :=
  bind db2 (fun db => bind (execute_plan keep 100 db pl) (fun r => bind (must (snd r)) (fun l =>
  match find_key Nat.eqb nd l with
  | Some id => bind (table_row_iterator keep 100 (fst r) id) (fun q => Ok (l, Some (snd q)))
  | None => Ok (l, None)
  end))).
(* q(x) :- r(x, y), s(y), with a temporary table for the join *)
Definition plan_query : res (plan * nat) :=
  let (p, r) := fetch_table plan_default [10; 11] 0 in
  let (p, s) := fetch_table p [11] 1 in
  let (p, j) := join p [10; 11] [r; s] in
  let p := write_temporary p j in
  bind (projectreorder p [10] j) (fun q => Ok (write_permanent (fst q) (snd q), snd q)).
Definition query_nodes : plan :=
  mk_plan [mk_node (PFetch 0 PermModel.perm_default) [10; 11]; mk_node (PFetch 1 PermModel.perm_default) [11]; mk_node (PJoin [0; 1]) [10; 11]; mk_node (PProject 2) [10]]
    [mk_out 2 Temporary false; mk_out 3 (Permanent PermModel.perm_default) false].

Lemma query_built : exists nd, plan_query = Ok (query_nodes, nd) /\ built_plan query_nodes.
Proof.
  exists 3. split; [reflexivity|]. destruct (projectreorder (write_temporary (fst (join (fst (fetch_table (fst (fetch_table plan_default [10; 11] 0)) [11] 1)) [10; 11] [0; 1])) 2) [10] 2) as [[p n]| |] eqn:E; [|discriminate|discriminate].
  change query_nodes with (write_permanent (fst (mk_plan (pl_nodes query_nodes) [mk_out 2 Temporary false; mk_out 3 Temporary false], 3)) 3). injection E as <- <-.
  apply bp_permanent; [|cbn; lia]. refine (bp_project (write_temporary (fst (join (fst (fetch_table (fst (fetch_table plan_default [10; 11] 0)) [11] 1)) [10; 11] [0; 1])) 2) [10] 2 _ 3 _ _); [|reflexivity].
  apply bp_temporary; [|cbn; lia]. apply bp_join; [|cbn; intros s [<-|[<-|[]]]; lia]. apply bp_fetch, bp_fetch, bp_default.
Qed.
Definition query_arity (nd : nat) : nat := match nd with 0 | 2 => 2 | _ => 1 end.
Definition query_rows (nd : nat) (r : row) : Prop :=
  In r (match nd with 0 => rows_r | 1 => rows_s | 2 => [[i64 1; i64 3]; [i64 2; i64 3]] | _ => [[i64 1]; [i64 2]] end).
Lemma query_means : means cat2 query_nodes query_arity query_rows.
Proof.
  intros nd op ms H r Hl. unfold node_is in H. destruct nd as [|[|[|[|nd]]]]; cbn in H; [| | | |destruct nd; discriminate]; injection H as <- <-.
  - rewrite <- (given_rows 2 rows_r r Hl). split; [intros K; do 3 eexists; split; [reflexivity|exact K]|]. intros (n & P & ref & K & HR). injection K as <- <- <-. exact HR.
  - rewrite <- (given_rows 1 rows_s r Hl). split; [intros K; do 3 eexists; split; [reflexivity|exact K]|]. intros (n & P & ref & K & HR). injection K as <- <- <-. exact HR.
  - destruct r as [|a [|b [|]]]; try discriminate Hl. split.
    + intros Hin s [<-|[<-|[]]]; [exists [a; b]|exists [b]]; (split; [reflexivity|]); cbn in Hin |- *; destruct Hin as [K|[K|[]]]; injection K as <- <-; auto.
    + intros K. destruct (K 0 (or_introl eq_refl)) as (q & Hq & H0). destruct (K 1 (or_intror (or_introl eq_refl))) as (q' & Hq' & H1). clear K.
      destruct q as [|x [|y [|]]]; cbn in Hq; try discriminate Hq. injection Hq as -> ->. destruct q' as [|z [|]]; cbn in Hq'; try discriminate Hq'. injection Hq' as ->.
      cbn in H1. destruct H1 as [H1|[]]. injection H1 as <-. cbn in H0. destruct H0 as [K|[K|[K|[]]]]; try discriminate K; injection K as <-; cbn; auto.
  - destruct r as [|a [|]]; try discriminate Hl. split.
    + intros [K|[K|[]]]; injection K as <-; [exists [i64 1; i64 3]|exists [i64 2; i64 3]]; (split; [reflexivity|]); (split; [cbn; auto|reflexivity]).
    + intros (q & _ & Hin & Hp). cbn in Hin. destruct Hin as [<-|[<-|[]]]; cbn in Hp; injection Hp as ->; cbn; auto.
Qed.
Lemma query_sound : sound_plan cat2 query_nodes query_arity.
Proof.
  assert (D : permutes 2 PermModel.perm_default /\ permutes 1 PermModel.perm_default) by (split; apply permutes_default).
  assert (I : identical PermModel.perm_default) by (intros [|i]; reflexivity).
  assert (W3 : forall o, wanted query_nodes 3 o -> identical o).
  { intros o H. inversion H; subst; try exact I; match goal with K : node_is _ ?nd _ _ |- _ => unfold node_is in K; destruct nd as [|[|[|[|nd]]]]; cbn in K; try discriminate K; [..|destruct nd; discriminate K] end;
      match goal with K : Some _ = Some _ |- _ => injection K; intros; subst end; match goal with K : In 3 _ |- _ => cbn in K; intuition discriminate end. }
  assert (W2 : forall o, wanted query_nodes 2 o -> identical o).
  { intros o H. inversion H; subst; try exact I; match goal with K : node_is _ ?nd _ _ |- _ => unfold node_is in K; destruct nd as [|[|[|[|nd]]]]; cbn in K; try discriminate K; [..|destruct nd; discriminate K] end;
      match goal with K : Some _ = Some _ |- _ => injection K; intros; subst end; try (match goal with K : In 2 _ |- _ => cbn in K; intuition discriminate end). apply W3. assumption. }
  constructor.
  - intros nd op ms H. unfold node_is in H. destruct nd as [|[|[|[|nd]]]]; cbn in H; [| | | |destruct nd; discriminate]; injection H as <- <-; (split; [cbn; auto|]).
    + split; [eexists; reflexivity|apply D].
    + split; [eexists; reflexivity|apply D].
    + split; [reflexivity|]. split; [repeat constructor; cbn; intuition discriminate|]. split; [discriminate|]. split.
      * intros x Hx. exists 0. split; [left; reflexivity|exact Hx].
      * intros s [<-|[<-|[]]]; (split; [split; [reflexivity|repeat constructor; cbn; intuition discriminate]|]); cbn; intros x Hx; cbn in *; tauto.
    + split; [reflexivity|]. split; [repeat constructor; cbn; intuition discriminate|]. split; [split; [reflexivity|repeat constructor; cbn; intuition discriminate]|]. intros x Hx. cbn in *. tauto.
  - exists (fun nd => nd). intros nd s (op & ms & H & Hin). unfold node_is in H. destruct nd as [|[|[|[|nd]]]]; cbn in H; [| | | |destruct nd; discriminate]; injection H as <- <-; cbn in Hin; intuition lia.
  - intros nd o (rq & H). cbn in H. destruct H as [H|[H|[]]]; [discriminate H|]. injection H as <- <- <-. apply D.
  - intros nd o (s & ms & H). unfold node_is in H. destruct nd as [|[|[|[|nd]]]]; cbn in H; try discriminate H; [|destruct nd; discriminate]. apply W3.
  - intros nd o (on & H & <-) _ K. cbn in H. destruct H as [<-|[<-|[]]]; discriminate K.
  - intros nd s ms x H HO. unfold node_is in H. destruct nd as [|[|[|[|nd]]]]; cbn in H; try discriminate H; [|destruct nd; discriminate]. injection H as <- <-.
    inversion HO as [y Ho|nd0 s0 ms0 y N Hn Hov]; [|discriminate Hn]. subst. split; [exact W2|]. right. split; [cbn; lia|]. intros (s & ms & K). discriminate K.
  - intros nd s ms l y root H Hc. unfold node_is in H. destruct nd as [|[|[|[|nd]]]]; cbn in H; try discriminate H; [|destruct nd; discriminate]. injection H as <- <-. discriminate Hc.
Qed.
(* the plan of this query meets all hypotheses; the new table 2 has the rows (1) and (2) *)
Example C40_execute_example : (exists db, db2 = Ok db /\ history keep cat2 db) /\ (exists nd, plan_query = Ok (query_nodes, nd)) /\ built_plan query_nodes /\
  sound_plan cat2 query_nodes query_arity /\ means cat2 query_nodes query_arity query_rows /\
  run query_nodes 3 = Ok ([(3, 2)], Some [[i64 1]; [i64 2]]).
Proof.
  split; [exact db2_history|]. destruct query_built as (nd & E & HB). split; [eauto|]. split; [exact HB|]. split; [exact query_sound|]. split; [exact query_means|]. vm_compute. reflexivity.
Qed.

(* Asking for the first match only: the temporary tables of the plan are cut as if nothing depended on them, and rows are
   missed. *)
Theorem C40_first_refuted : exists cat db pl A M nd o, history keep cat db /\ built_plan pl /\ sound_plan cat pl A /\ means cat pl A M /\
  permanent pl nd o /\ (forall nd', (exists o', permanent pl nd' o') -> nd' = nd) /\ ~ without_rows A M nd /\ (forall on, In on (pl_outs pl) -> on_required on = false) /\
  exists db', execute_first_match keep 100 db pl = Ok (db', None).
Proof.
  destruct db2_history as (db & E & HH). exists cat2, db, query_nodes, query_arity, query_rows, 3, PermModel.perm_default.
  split; [exact HH|]. destruct query_built as (_ & _ & HB). split; [exact HB|]. split; [exact query_sound|]. split; [exact query_means|].
  split; [exists false; cbn; auto|]. split. { intros nd' (o' & rq & [H|[H|[]]]); [discriminate H|injection H; auto]. }
  split; [intros N; apply (N [i64 1] eq_refl); cbn; auto|]. split; [intros on [<-|[<-|[]]]; reflexivity|].
  assert (K : exists db', bind db2 (fun db => execute_first_match keep 100 db query_nodes) = Ok (db', None)) by (eexists; vm_compute; reflexivity).
  rewrite E in K. exact K.
Qed.
Print Assumptions C40_first_refuted.

(* the plan makes sense, whatever the orders of columns and the other outputs are *)
Definition sensible (cat : catalog) (pl : plan) (A : nat -> nat) : Prop :=
  typed cat pl A /\ acyclic pl /\ (forall nd o, permanent pl nd o -> permutes (A nd) o) /\ forall on, In on (pl_outs pl) -> on_required on = false.
Ltac cases_of H nd := unfold node_is in H; destruct nd as [|[|[|[|[|nd]]]]]; cbn in H; first [discriminate H | injection H; clear H; intros; subst | match type of H with nth_error _ ?n = _ => destruct n; discriminate H end].
Ltac distinct := repeat constructor; cbn; intuition discriminate.
Ltac rows_in := cbn; repeat match goal with K : In _ _ |- _ => cbn in K | K : _ \/ _ |- _ => destruct K as [K|K] | K : False |- _ => destruct K | K : [_] = _ |- _ => try discriminate K; injection K; clear K; intros; subst | K : _ :: _ = _ |- _ => try discriminate K; injection K; clear K; intros; subst end; auto 8.

(* A projection that keeps all columns is left out; the table below it is then cut for the columns of the projection. *)
Definition plan_cut : plan :=
  mk_plan [mk_node (PFetch 0 PermModel.perm_default) [10; 11]; mk_node (PProject 0) [10; 11]; mk_node (PFetch 1 PermModel.perm_default) [11]; mk_node (PJoin [1; 2]) [10; 11]; mk_node (PProject 3) [10]]
    [mk_out 1 Temporary false; mk_out 4 (Permanent PermModel.perm_default) false].
Definition cut_arity (nd : nat) : nat := match nd with 2 | 4 => 1 | _ => 2 end.
Definition cut_rows (nd : nat) (r : row) : Prop :=
  In r (match nd with 0 | 1 => rows_r | 2 => rows_s | 3 => [[i64 1; i64 3]; [i64 2; i64 3]] | _ => [[i64 1]; [i64 2]] end).
Theorem C40_cut_refuted : exists cat db pl A M nd o, history keep cat db /\ built_plan pl /\ sensible cat pl A /\ means cat pl A M /\
  permanent pl nd o /\ ~ without_rows A M nd /\ exists db', execute_plan keep 100 db pl = Ok (db', Some []).
Proof.
  destruct db2_history as (db & E & HH). exists cat2, db, plan_cut, cut_arity, cut_rows, 4, PermModel.perm_default.
  split; [exact HH|]. split; [|split; [|split]].
  - change plan_cut with (write_permanent (mk_plan (pl_nodes plan_cut) [mk_out 1 Temporary false; mk_out 4 Temporary false]) 4). apply bp_permanent; [|cbn; lia].
    refine (bp_project (mk_plan (firstn 4 (pl_nodes plan_cut)) [mk_out 1 Temporary false]) [10] 3 _ 4 _ eq_refl).
    apply (bp_join (mk_plan (firstn 3 (pl_nodes plan_cut)) [mk_out 1 Temporary false]) [10; 11] [1; 2]); [|cbn; intros s [<-|[<-|[]]]; lia].
    apply (bp_fetch (mk_plan (firstn 2 (pl_nodes plan_cut)) [mk_out 1 Temporary false]) [11] 1 PermModel.perm_default).
    refine (bp_project (mk_plan (firstn 1 (pl_nodes plan_cut)) []) [10; 11] 0 _ 1 _ eq_refl). apply (bp_fetch plan_default), bp_default.
  - split; [|split; [|split]].
    + intros nd op ms H. cases_of H nd; (split; [cbn; auto|]).
      * split; [eexists; reflexivity|apply permutes_default].
      * split; [reflexivity|]. split; [distinct|]. split; [split; [reflexivity|distinct]|intros x Hx; exact Hx].
      * split; [eexists; reflexivity|apply permutes_default].
      * split; [reflexivity|]. split; [distinct|]. split; [discriminate|]. split; [intros x Hx; exists 1; split; [left; reflexivity|exact Hx]|].
        intros s [<-|[<-|[]]]; (split; [split; [reflexivity|distinct]|]); intros x Hx; cbn in Hx |- *; tauto.
      * split; [reflexivity|]. split; [distinct|]. split; [split; [reflexivity|distinct]|intros x Hx; cbn in Hx |- *; tauto].
    + exists (fun nd => nd). intros nd s (op & ms & H & Hin). cases_of H nd; cbn in Hin; intuition lia.
    + intros nd o (rq & [H|[H|[]]]); [discriminate H|]. injection H as <- <- <-. apply permutes_default.
    + intros on [<-|[<-|[]]]; reflexivity.
  - intros nd op ms H r Hl. cases_of H nd.
    + rewrite <- (given_rows 2 rows_r r Hl). split; [intros K; do 3 eexists; split; [reflexivity|exact K]|]. intros (n & P & ref & K & HR). injection K as <- <- <-. exact HR.
    + destruct r as [|a [|b [|]]]; try discriminate Hl. split; [intros H; exists [a; b]; split; [reflexivity|split; [exact H|reflexivity]]|].
      intros (q & Hq & H & Hp). destruct q as [|x [|y [|]]]; try discriminate Hq. cbn in Hp. injection Hp as -> ->. exact H.
    + rewrite <- (given_rows 1 rows_s r Hl). split; [intros K; do 3 eexists; split; [reflexivity|exact K]|]. intros (n & P & ref & K & HR). injection K as <- <- <-. exact HR.
    + destruct r as [|a [|b [|]]]; try discriminate Hl. split.
      * intros Hin s [<-|[<-|[]]]; [exists [a; b]|exists [b]]; (split; [reflexivity|]); unfold cut_rows in *; rows_in.
      * intros K. destruct (K 1 (or_introl eq_refl)) as (q & Hq & H0). destruct (K 2 (or_intror (or_introl eq_refl))) as (q' & Hq' & H1). clear K.
        destruct q as [|x [|y [|]]]; cbn in Hq; try discriminate Hq. injection Hq as -> ->. destruct q' as [|z [|]]; cbn in Hq'; try discriminate Hq'. injection Hq' as ->. unfold cut_rows in *. rows_in.
    + destruct r as [|a [|]]; try discriminate Hl. split.
      * intros [K|[K|[]]]; injection K as <-; [exists [i64 1; i64 3]|exists [i64 2; i64 3]]; (split; [reflexivity|]); (split; [cbn; auto|reflexivity]).
      * intros (q & _ & Hin & Hp). cbn in Hin. destruct Hin as [<-|[<-|[]]]; cbn in Hp; injection Hp as ->; cbn; auto.
  - split; [exists false; cbn; auto|]. split; [intros N; apply (N [i64 1] eq_refl); cbn; auto|].
    assert (K : exists db', bind db2 (fun db => execute_plan keep 100 db plan_cut) = Ok (db', Some [])) by (eexists; vm_compute; reflexivity).
    rewrite E in K. exact K.
Qed.
Print Assumptions C40_cut_refuted.

(* A projection that is wanted in another order of its columns: the values in its columns are confused. *)
Definition plan_order : plan :=
  mk_plan [mk_node (PFetch 0 PermModel.perm_default) [10; 11]; mk_node (PProject 0) [11; 10]; mk_node (PFetch 0 PermModel.perm_default) [10; 11]; mk_node (PJoin [1; 2]) [10; 11]]
    [mk_out 1 Temporary false; mk_out 3 (Permanent PermModel.perm_default) false].
Definition order_rows (nd : nat) (r : row) : Prop := In r (match nd with 1 => [[i64 2; i64 1]; [i64 3; i64 1]; [i64 3; i64 2]] | _ => rows_r end).
Theorem C40_order_refuted : exists cat db pl A M nd o, history keep cat db /\ built_plan pl /\ sensible cat pl A /\ means cat pl A M /\
  permanent pl nd o /\ ~ without_rows A M nd /\ exists db', execute_plan keep 100 db pl = Ok (db', Some []).
Proof.
  destruct db2_history as (db & E & HH). exists cat2, db, plan_order, (fun _ => 2), order_rows, 3, PermModel.perm_default.
  split; [exact HH|]. split; [|split; [|split]].
  - change plan_order with (write_permanent (mk_plan (pl_nodes plan_order) [mk_out 1 Temporary false]) 3). apply bp_permanent; [|cbn; lia].
    apply (bp_join (mk_plan (firstn 3 (pl_nodes plan_order)) [mk_out 1 Temporary false]) [10; 11] [1; 2]); [|cbn; intros s [<-|[<-|[]]]; lia].
    apply (bp_fetch (mk_plan (firstn 2 (pl_nodes plan_order)) [mk_out 1 Temporary false]) [10; 11] 0 PermModel.perm_default).
    refine (bp_project (mk_plan (firstn 1 (pl_nodes plan_order)) []) [11; 10] 0 _ 1 _ eq_refl). apply (bp_fetch plan_default), bp_default.
  - split; [|split; [|split]].
    + intros nd op ms H. cases_of H nd; (split; [cbn; auto|]).
      * split; [eexists; reflexivity|apply permutes_default].
      * split; [reflexivity|]. split; [distinct|]. split; [split; [reflexivity|distinct]|intros x Hx; cbn in Hx |- *; tauto].
      * split; [eexists; reflexivity|apply permutes_default].
      * split; [reflexivity|]. split; [distinct|]. split; [discriminate|]. split; [intros x Hx; exists 1; split; [left; reflexivity|cbn in Hx |- *; tauto]|].
        intros s [<-|[<-|[]]]; (split; [split; [reflexivity|distinct]|]); intros x Hx; cbn in Hx |- *; tauto.
    + exists (fun nd => nd). intros nd s (op & ms & H & Hin). cases_of H nd; cbn in Hin; intuition lia.
    + intros nd o (rq & [H|[H|[]]]); [discriminate H|]. injection H as <- <- <-. apply permutes_default.
    + intros on [<-|[<-|[]]]; reflexivity.
  - intros nd op ms H r Hl. cases_of H nd.
    + rewrite <- (given_rows 2 rows_r r Hl). split; [intros K; do 3 eexists; split; [reflexivity|exact K]|]. intros (n & P & ref & K & HR). injection K as <- <- <-. exact HR.
    + destruct r as [|a [|b [|]]]; try discriminate Hl. split; [intros H; exists [b; a]; split; [reflexivity|split; [unfold order_rows in *; rows_in|reflexivity]]|].
      intros (q & Hq & H & Hp). destruct q as [|x [|y [|]]]; try discriminate Hq. cbn in Hp. injection Hp as -> ->. unfold order_rows in *; rows_in.
    + rewrite <- (given_rows 2 rows_r r Hl). split; [intros K; do 3 eexists; split; [reflexivity|exact K]|]. intros (n & P & ref & K & HR). injection K as <- <- <-. exact HR.
    + destruct r as [|a [|b [|]]]; try discriminate Hl. split.
      * intros Hin s [<-|[<-|[]]]; [exists [b; a]|exists [a; b]]; (split; [reflexivity|]); unfold order_rows in *; rows_in.
      * intros K. destruct (K 2 (or_intror (or_introl eq_refl))) as (q' & Hq' & H1). clear K.
        destruct q' as [|x [|y [|]]]; cbn in Hq'; try discriminate Hq'. injection Hq' as -> ->. exact H1.
  - split; [exists false; cbn; auto|]. split; [intros N; apply (N [i64 1; i64 2] eq_refl); cbn; auto|].
    assert (K : exists db', bind db2 (fun db => execute_plan keep 100 db plan_order) = Ok (db', Some [])) by (eexists; vm_compute; reflexivity).
    rewrite E in K. exact K.
Qed.
Print Assumptions C40_order_refuted.

(* A projection of a projection that is not kept panics if the first one reorders columns. *)
Definition plan_chain : plan :=
  mk_plan [mk_node (PFetch 0 PermModel.perm_default) [10; 11]; mk_node (PProject 0) [11; 10]; mk_node (PProject 1) [10]]
    [mk_out 1 Temporary false; mk_out 2 (Permanent PermModel.perm_default) false].
Definition chain_arity (nd : nat) : nat := match nd with 2 => 1 | _ => 2 end.
Theorem C40_chain_refuted : exists cat db pl A, history keep cat db /\ built_plan pl /\ sensible cat pl A /\ execute_plan keep 100 db pl = Panicked.
Proof.
  destruct db2_history as (db & E & HH). exists cat2, db, plan_chain, chain_arity.
  split; [exact HH|]. split; [|split].
  - change plan_chain with (write_permanent (mk_plan (pl_nodes plan_chain) [mk_out 1 Temporary false; mk_out 2 Temporary false]) 2). apply bp_permanent; [|cbn; lia].
    refine (bp_project (mk_plan (firstn 2 (pl_nodes plan_chain)) [mk_out 1 Temporary false]) [10] 1 _ 2 _ eq_refl).
    refine (bp_project (mk_plan (firstn 1 (pl_nodes plan_chain)) []) [11; 10] 0 _ 1 _ eq_refl). apply (bp_fetch plan_default), bp_default.
  - split; [|split; [|split]].
    + intros nd op ms H. cases_of H nd; (split; [cbn; auto|]).
      * split; [eexists; reflexivity|apply permutes_default].
      * split; [reflexivity|]. split; [distinct|]. split; [split; [reflexivity|distinct]|intros x Hx; cbn in Hx |- *; tauto].
      * split; [reflexivity|]. split; [distinct|]. split; [split; [reflexivity|distinct]|intros x Hx; cbn in Hx |- *; tauto].
    + exists (fun nd => nd). intros nd s (op & ms & H & Hin). cases_of H nd; cbn in Hin; intuition lia.
    + intros nd o (rq & [H|[H|[]]]); [discriminate H|]. injection H as <- <- <-. apply permutes_default.
    + intros on [<-|[<-|[]]]; reflexivity.
  - assert (K : bind db2 (fun db => execute_plan keep 100 db plan_chain) = Panicked) by (vm_compute; reflexivity).
    rewrite E in K. exact K.
Qed.
Print Assumptions C40_chain_refuted.

(* A table that has to be non-empty: this is ignored if the node is an output already, as each projection is. *)
Theorem C40_required_ignored : forall pl ms sub pl' nd, projectreorder pl ms sub = Ok (pl', nd) ->
  write_temporary_non_empty pl' nd = pl'.
Proof.
  intros pl ms sub pl' nd H. unfold projectreorder in H. destruct (node_markers pl sub) as [sms| |]; [cbn [bind] in H|discriminate|discriminate].
  match type of H with (if ?b then _ else _) = _ => destruct b; [|discriminate H] end. cbn [push_node] in H. injection H as <- <-. unfold write_temporary_non_empty, write_temporary.
  generalize (mk_plan (pl_nodes pl ++ [mk_node (PProject sub) ms]) (pl_outs pl)). intros p. set (nd := length (pl_nodes pl)).
  assert (K : forall outs on, find_out outs nd = Some on -> upgrade_out outs nd Temporary = outs).
  { clear. induction outs as [|x outs IH]; intros on H; [discriminate|]. cbn in *. destruct (on_node x =? nd) eqn:E; [reflexivity|]. rewrite (IH on H). reflexivity. }
  unfold push_out_node. cbn [pl_nodes pl_outs]. destruct (find_out (pl_outs p) nd) as [on|] eqn:E.
  - rewrite (K _ _ E), E, (K _ _ E). reflexivity.
  - assert (E' : find_out (pl_outs p ++ [mk_out nd Temporary false]) nd = Some (mk_out nd Temporary false)).
    { clear - E. induction (pl_outs p) as [|x outs IH]; cbn in *; [rewrite Nat.eqb_refl; reflexivity|]. destruct (on_node x =? nd); [discriminate|]. apply IH, E. }
    rewrite E', (K _ _ E'). reflexivity.
Qed.
Print Assumptions C40_required_ignored.
