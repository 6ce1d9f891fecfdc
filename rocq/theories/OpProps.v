(* C23, C24: operations on tables. *)
From Coq Require Import List ZArith Bool Lia Arith Permutation Sorted.
From Verif Require Import ColumnModel ColumnSpec ScanModel ScanSpec TrieModel TrieSpec TrieScanSpec OpModel OpSpec OpProofs3 OpProofs5 OpProofs8 ProjModel ProjSpec ProjProofs1 ProjProofs2 ProjProofs3 ProjProofs4 ProjProofs5.
From Verif Require PermModel PermProofs PermProps.
Import ListNotations.
Local Open Scope nat_scope.

(* ---------- C23 ---------- *)

(* The tables are any trie scans that explore their rows; their columns are among the columns of the
   result, in the same order.  The scan of the join explores the natural join. *)
Theorem C23_join : forall sc strict output (Ts : list (table sc)), Ts <> [] -> NoDup output ->
  (forall T, In T Ts -> table_ok strict T) -> (forall T, In T Ts -> subsequence (cols T) output) ->
  (forall x, In x output -> exists T, In T Ts /\ In x (cols T)) ->
  exists bs o, join_bindings output (map cols Ts) = Ok bs /\ join_generate sc bs (map input Ts) = Ok o /\
    reads (length output) (joined output Ts) (either_trie sc (join_trie sc)) strict o.
Proof.
  intros sc strict output Ts Hne Hn Hok Hs Hc.
  destruct (join_bindings_exist output (map cols Ts) Hn) as (bs & Eb).
  { intros ms H. apply in_map_iff in H. destruct H as (T & <- & HT). apply Hs, HT. }
  { intros x Hx. destruct (Hc x Hx) as (T & HT & HxT). exists (cols T). split; [apply in_map, HT|exact HxT]. }
  destruct (join_generate_reads sc strict output Ts bs Hne Hok Eb) as (o & Eo & HR).
  { intros T HT. apply subsequence_incl, Hs, HT. }
  exists bs, o. auto.
Qed.
(* the union of tables with the same number of columns *)
Theorem C23_union : forall sc n (Ts : list (table sc)), (forall T, In T Ts -> table_ok true T /\ length (cols T) = n) ->
  exists o, union_generate sc (map input Ts) = Ok o /\
    reads n (fun r => exists T, In T Ts /\ rows T r) (either_trie sc (union_trie sc)) true o.
Proof. exact union_generate_reads. Qed.
(* the rows of T0 without those that have a part in one of the other tables *)
Theorem C23_subtract : forall sc strict T0 (Ts : list (table sc)), NoDup (cols T0) ->
  (forall T, In T (T0 :: Ts) -> table_ok strict T) -> (forall T, In T Ts -> subsequence (cols T) (cols T0)) ->
  exists maps o, map_res (layer_map (cols T0)) (map cols Ts) = Ok maps /\ subtract_generate sc maps (map input (T0 :: Ts)) = Ok o /\
    reads (length (cols T0)) (fun r => rows T0 r /\ forall T, In T Ts -> ~ exists q, part_of (cols T0) r (cols T) q /\ rows T q)
      (either_trie sc (subtract_trie sc)) strict o.
Proof.
  intros sc strict T0 Ts Hn Hok Hs.
  assert (Em : exists maps, map_res (layer_map (cols T0)) (map cols Ts) = Ok maps).
  { clear Hok. induction Ts as [|T Ts IH]; [exists []; reflexivity|]. cbn [map map_res].
    destruct (layer_map_exists (cols T) (cols T0)) as (mp & ->); [apply Hs; left; reflexivity|exact Hn|]. cbn [bind].
    destruct IH as (maps & ->); [intros s' Hin; apply Hs; right; exact Hin|]. cbn. eauto. }
  destruct Em as (maps & Em). destruct (subtract_generate_reads sc strict (cols T0) T0 Ts maps eq_refl Em) as (o & Eo & HR); [|exact Hok|].
  { intros T HT. apply (subsequence_NoDup _ (cols T0)); [apply Hs, HT|exact Hn]. }
  exists maps, o. auto.
Qed.

(* stored rows are held by their table *)
Theorem C23_stored : forall n rows, 0 < n -> Forall (fun r => length r = n) rows ->
  exists tr, write_rows n rows = Ok tr /\ holds n (fun r => In r rows) tr.
Proof. exact written_holds. Qed.
(* A tree of joins, unions and differences over stored tables: the table that is stored in the end. *)
Theorem C23_operations : forall content o d, formed content o -> depth o <= d ->
  exists enough tr, (forall fuel, enough <= fuel -> execute_operation d fuel o [] true = Ok (tr, [])) /\
    holds (length (markers o)) (meaning content o) tr.
Proof.
  intros content o d Hf Hd. destruct (evaluate_reads content d o Hd Hf) as (s & Es & HR). destruct s as [s|].
  - destruct (with_dependents_holds _ _ (scans d) true s [] [] true HR) as (en & tr & trs & E & H1 & H2); [constructor|left; reflexivity|].
    inversion H2; subst trs. exists en, tr. split; [|apply H1; reflexivity]. intros fuel Hfu. unfold execute_operation. rewrite Es. cbn [bind]. apply E, Hfu.
  - exists 0, (trie_empty 0). split; [intros fuel _; unfold execute_operation; rewrite Es; reflexivity|]. apply empty_holds, HR.
Qed.

(* ---------- C24 ---------- *)

Theorem C24_project_partial : forall content o d output, formed content o -> depth o <= d ->
  NoDup (markers o) -> NoDup output -> incl output (markers o) ->
  exists p enough tr, project_new output (markers o) = Ok p /\ (forall fuel, enough <= fuel -> execute_project d fuel p o 0 = Ok tr) /\
    holds (length output) (projection (markers o) (meaning content o) output) tr.
Proof.
  intros content o d output Hf Hd Hn Hno Hi. destruct (project_new_ok output (markers o) Hno Hi Hn) as (v & p & Ep & HP & Hv & Hl & Hb).
  destruct (execute_project_holds content o d p v Hf Hd HP Hb) as (en & tr & E & HH). exists p, en, tr. split; [exact Ep|]. split; [exact E|].
  rewrite <- Hl. refine (holds_iff _ _ _ _ _ HH). intros q _. apply projection_projected, Hv.
Qed.
(* the first row of a projection, if there is one *)
Theorem C24_first : forall sc strict s input output P, input <> [] -> NoDup input -> NoDup output -> incl output input ->
  reads (length input) P sc strict (Some s) ->
  exists p enough r, project_new output input = Ok p /\ (forall fuel, enough <= fuel -> apply_operation_first sc fuel p s = Ok r) /\
    match r with Some q => projection input P output q | None => forall q, ~ projection input P output q end.
Proof.
  intros sc strict s input output P Hne Hn Hno Hi HR. destruct (project_new_ok output input Hno Hi Hn) as (v & p & Ep & HP & Hv & Hl & Hb).
  destruct (apply_first_finds (length input) P sc strict s p v) as (en & r & E & HH); [destruct input; [congruence|cbn; lia]|exact HR|exact HP|exact Hb|].
  exists p, en, r. split; [exact Ep|]. split; [exact E|]. destruct r as [q|].
  - apply (projection_projected input output P v Hv), HH.
  - intros q H. apply (HH q), (projection_projected input output P v Hv), H.
Qed.
(* several projections are computed in one pass, together with the table itself if it is needed *)
Theorem C24_dependents : forall content o d outputs (keep : bool), formed content o -> depth o <= d ->
  NoDup (markers o) -> (forall output, In output outputs -> NoDup output /\ incl output (markers o)) -> (keep = true \/ markers o <> []) ->
  exists ps enough tr trs, Forall2 (fun output p => project_new output (markers o) = Ok p) outputs ps /\
    (forall fuel, enough <= fuel -> execute_operation d fuel o (map pj_choice ps) keep = Ok (tr, trs)) /\
    (keep = true -> holds (length (markers o)) (meaning content o) tr) /\
    Forall2 (fun output t => holds (length output) (projection (markers o) (meaning content o) output) t) outputs trs.
Proof.
  intros content o d outputs keep Hf Hd Hn Ho Hk. set (n := length (markers o)).
  assert (Hps : exists ps vs, Forall2 (fun output p => project_new output (markers o) = Ok p) outputs ps /\
    Forall2 (fun c v => PermModel.as_vector c = Some v /\ forall i, In i v -> i < n) (map pj_choice ps) vs /\
    Forall2 (fun output v => length v = length output /\ forall r, length r = n -> map (nth_error r) v = map (lookup (markers o) r) output) outputs vs).
  { clear Hk. induction outputs as [|output outputs IH]; [exists [], []; repeat split; constructor|].
    destruct IH as (ps & vs & H1 & H2 & H3); [intros out Hin; apply Ho; right; exact Hin|].
    destruct (Ho output (or_introl eq_refl)) as [Hno Hi]. destruct (project_new_ok output (markers o) Hno Hi Hn) as (v & p & Ep & HP & Hv & Hl & Hb).
    exists (p :: ps), (v :: vs). split; [constructor; assumption|]. split; [constructor; [split; [apply (pr_vector _ _ _ HP)|exact Hb]|exact H2]|constructor; auto]. }
  destruct Hps as (ps & vs & H1 & H2 & H3). destruct (evaluate_reads content d o Hd Hf) as (s & Es & HR). fold n in HR. destruct s as [s|].
  - destruct (with_dependents_holds n _ (scans d) true s (map pj_choice ps) vs keep HR H2) as (en & tr & trs & E & G1 & G2).
    { destruct Hk as [Hk|Hk]; [left; exact Hk|right]. unfold n. destruct (markers o); [congruence|cbn; lia]. }
    exists ps, en, tr, trs. split; [exact H1|]. split; [intros fuel Hfu; unfold execute_operation; rewrite Es; cbn [bind]; apply E, Hfu|]. split; [exact G1|].
    clear - G2 H3. revert outputs H3. induction G2 as [|v t vs trs Hvt _ IH]; intros outputs H3; inversion H3 as [|output ? outputs' ? [Hl Hv] H3']; subst; constructor; [|apply IH; exact H3'].
    rewrite <- Hl. refine (holds_iff _ _ _ _ _ Hvt). intros q _. apply projection_projected, Hv.
  - exists ps, 0, (trie_empty 0), (map (fun _ => trie_empty 0) (map pj_choice ps)). split; [exact H1|]. split; [intros fuel _; unfold execute_operation; rewrite Es; reflexivity|].
    split; [intros _; apply empty_holds, HR|]. clear - H1 HR. induction H1 as [|output p outputs ps _ _ IH]; [constructor|]. cbn [map]. constructor; [|exact IH].
    apply empty_holds. intros q _ (r & Hl & H & _). apply (HR r Hl H).
Qed.
(* A table that is stored in one column order is brought into another. *)
Theorem C24_reorder : forall content source target n P ms tr d, PermProps.built source -> PermProps.built target ->
  length (PermModel.idx_to_val source) <= n -> length (PermModel.idx_to_val target) <= n -> length ms = n ->
  (forall s, content tr s <-> exists r, length r = n /\ P r /\ arranged source r s) -> holds n (content tr) tr ->
  exists p enough tr', from_reordering source target n = Ok p /\ (forall fuel, enough <= fuel -> execute_project d fuel p (Leaf ms tr) 0 = Ok tr') /\
    holds n (fun t => exists r, length r = n /\ P r /\ arranged target r t) tr'.
Proof.
  intros content source target n P ms tr d Hs Ht Ls Lt Hms Hc Hh. apply PermProps.built_wf in Hs, Ht.
  destruct (from_reordering_ok source target n Hs Ht Ls Lt) as (v & p & Ep & HP & Hlv & Hget & Hb).
  destruct (execute_project_holds content (Leaf ms tr) d p v) as (en & tr' & E & HH); cbn [formed depth markers]; rewrite ?Hms; auto; [lia|].
  exists p, en, tr'. split; [exact Ep|]. split; [exact E|]. rewrite Hlv in HH. cbn [markers] in HH. rewrite Hms in HH. refine (holds_iff _ _ _ _ _ HH). clear HH.
  intros t Hlt. unfold projected. cbn [meaning].
  assert (Htr : forall r s, length r = n -> arranged source r s -> (map Some t = map (nth_error s) v <-> arranged target r t)).
  { intros r s Hlr (Hls & Ha). split.
    - intros E'. split; [unfold row in *; lia|]. intros i Hi. rewrite Hlr in Hi. assert (Eg : nth_error (map Some t) (PermModel.get target i) = nth_error (map (nth_error s) v) (PermModel.get target i)) by (rewrite E'; reflexivity).
      rewrite !nth_error_map, (Hget i Hi) in Eg. cbn [option_map] in Eg. rewrite (Ha i) in Eg by (unfold row in *; lia).
      destruct (nth_error t (PermModel.get target i)) as [x|]; cbn in Eg; congruence.
    - intros (_ & Hta). apply nth_list_ext. intros j. rewrite !nth_error_map. destruct (Nat.lt_ge_cases j n) as [Hj|Hj].
      + (* the position j is the image of a position *)
        assert (Hi : exists i, i < n /\ PermModel.get target i = j).
        { exists (PermModel.get (PermModel.invert target) j). destruct (PermProofs.invert_wfp target Ht) as [_ Hinv]. specialize (Hinv j). split; [|apply Hinv].
          apply (PermProofs.get_lt target n _ Ht Lt). rewrite (proj2 Hinv). exact Hj. }
        destruct Hi as (i & Hi & <-). rewrite (Hget i Hi). cbn [option_map]. rewrite (Ha i), (Hta i) by (unfold row in *; lia).
        destruct (nth_error r i) eqn:Er; [reflexivity|]. apply nth_error_None in Er. unfold row in *. lia.
      + rewrite (proj2 (nth_error_None t j)), (proj2 (nth_error_None v j)) by (unfold row in *; lia). reflexivity. }
  split.
  - intros (s & Hls & Hcs & E'). apply Hc in Hcs. destruct Hcs as (r & Hlr & HPr & Hr). exists r. split; [exact Hlr|]. split; [exact HPr|]. apply (Htr r s Hlr Hr), E'.
  - intros (r & Hlr & HPr & Hta).
    (* the row in the source order *)
    assert (Hr : exists s, arranged source r s).
    { exists (map (fun j => nth (PermModel.get (PermModel.invert source) j) r (Id32, 0%Z)) (seq 0 n)). split; [rewrite map_length, seq_length; unfold row in *; lia|].
      intros i Hi. assert (Hg : PermModel.get source i < n) by (apply (PermProofs.get_lt source n i Hs Ls); unfold row in *; lia).
      rewrite nth_error_map, (nth_error_nth' (seq 0 n) 0) by (rewrite seq_length; exact Hg). rewrite seq_nth by exact Hg. cbn [plus option_map].
      destruct (PermProofs.invert_wfp source Hs) as [_ Hinv]. rewrite (proj1 (Hinv i)). symmetry. apply nth_error_nth'. exact Hi. }
    destruct Hr as (s & Hr). exists s. split; [destruct Hr; unfold row in *; lia|]. split; [apply Hc; exists r; auto|]. apply (Htr r s Hlr Hr), Hta.
Qed.

(* If a table without columns is only needed for its projections, it panics (debug build). *)
Theorem C24_dependents_refuted : exists c, PermModel.choice_from_transformation Nat.eqb (@nil nat) [] = Some c /\
  execute_operation 0 5 (Leaf [] (zero_arity true)) [c] false = Panicked.
Proof. eexists. split; reflexivity. Qed.

(* ---------- examples ---------- *)
Definition i64 (v : Z) : value := (Int64, v).
Definition id32 (v : Z) : value := (Id32, v).
Definition table_r : list row := [[i64 1; id32 3]; [i64 1; id32 5]; [i64 2; i64 7]; [id32 0; id32 3]].
Definition table_s : list row := [[id32 3; i64 9]; [id32 3; i64 8]; [i64 7; id32 2]].
Definition table_t : list row := [[i64 1; i64 9]].
Definition on_tables (f : trie -> trie -> trie -> res (list row)) : res (list row) :=
  bind (write_rows 2 table_r) (fun r => bind (write_rows 2 table_s) (fun s => bind (write_rows 2 table_t) (fun t => f r s t))).
(* the columns 10, 11, 12: R(10,11), S(11,12) and not T(10,12) *)
Definition demo_operation (r s t : trie) : operation :=
  Subtract (Join [10; 11; 12] [Leaf [10; 11] r; Leaf [11; 12] s]) [Leaf [10; 12] t].
Example C23_example :
  on_tables (fun r s t => bind (execute_operation 2 60 (demo_operation r s t) [] true) (fun q => row_iterator 60 (fst q))) =
    Ok [[id32 0; id32 3; i64 8]; [id32 0; id32 3; i64 9]; [i64 1; id32 3; i64 8]; [i64 2; i64 7; id32 2]].
Proof. vm_compute. repeat split. Qed.
Example C23_example_union :
  on_tables (fun r s t => bind (execute_operation 1 60 (Union [10; 11] [Leaf [10; 11] r; Leaf [10; 11] t; Leaf [12; 13] s]) [] true) (fun q => row_iterator 60 (fst q))) =
    Ok [[id32 0; id32 3]; [id32 3; i64 8]; [id32 3; i64 9]; [i64 1; id32 3]; [i64 1; id32 5]; [i64 1; i64 9]; [i64 2; i64 7]; [i64 7; id32 2]].
Proof. vm_compute. repeat split. Qed.
(* the hypotheses are met: R(10,11), R(11,12) and not R(10,12) *)
Example C23_example_formed : exists tr, write_rows 2 table_r = Ok tr /\
  formed (fun _ x => In x table_r) (demo_operation tr tr tr) /\ depth (demo_operation tr tr tr) = 2.
Proof.
  destruct (C23_stored 2 table_r) as (tr & E & H); [lia|repeat constructor|]. exists tr. split; [exact E|]. split; [|reflexivity].
  assert (S1 : subsequence [10; 11] [10; 11; 12]) by (apply sub_take, sub_take, sub_nil).
  assert (S2 : subsequence [11; 12] [10; 11; 12]) by (apply sub_skip, sub_take, sub_take, sub_nil).
  assert (S3 : subsequence [10; 12] [10; 11; 12]) by (apply sub_take, sub_skip, sub_take, sub_nil).
  assert (Hn : NoDup [10; 11; 12]) by (repeat constructor; cbn; intuition lia).
  split; [split; [discriminate|]|split; [exact Hn|split; [split; [exact H|exact S3]|exact Logic.I]]].
  split; [exact Hn|]. split; [|split; [split; [exact H|exact S1]|split; [split; [exact H|exact S2]|exact Logic.I]]].
  intros x Hx. cbn in Hx. destruct Hx as [<-|[<-|[<-|[]]]]; [exists (Leaf [10; 11] tr)|exists (Leaf [10; 11] tr)|exists (Leaf [11; 12] tr)]; cbn; auto.
Qed.
Example C24_example :
  on_tables (fun r s t => bind (project_new [12; 10] [10; 11; 12]) (fun p =>
    bind (execute_project 2 60 p (demo_operation r s t) 0) (row_iterator 60))) =
    Ok [[id32 2; i64 2]; [i64 8; id32 0]; [i64 8; i64 1]; [i64 9; id32 0]].
Proof. vm_compute. repeat split. Qed.

Print Assumptions C23_join.
Print Assumptions C23_union.
Print Assumptions C23_subtract.
Print Assumptions C23_stored.
Print Assumptions C23_operations.
Print Assumptions C24_project_partial.
Print Assumptions C24_first.
Print Assumptions C24_dependents.
Print Assumptions C24_reorder.
Print Assumptions C24_dependents_refuted.
