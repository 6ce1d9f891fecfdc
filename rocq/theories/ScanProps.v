(* C19, C20, C21, C37: join, union, difference, filters and constants on sorted scans. *)
From Coq Require Import List ZArith Bool Lia Sorted.
From Verif Require Import ColumnModel ColumnSpec ColumnProofs ColumnProofs2 ColumnProofs3 ColumnProofs4 ColumnProps ScanModel ScanSpec ScanProofs ScanProofs2 ScanProofs3 ScanProofs4 ScanProofs5.
Import ListNotations.
Local Open Scope nat_scope.

(* In all theorems the sub scans are any scans that list increasing values (ScanSpec.lists): scans
   of columns (below), or operators again.  strict says whether they also report "no current value"
   correctly; every operator but the filter does. *)

Lemma Forall2_length : forall A B (R : A -> B -> Prop) l m, Forall2 R l m -> length l = length m.
Proof. intros A B R l m H. induction H; cbn; congruence. Qed.

(* ---------- C19 ---------- *)

Theorem C19_join_is_intersection : forall D sc strict subs ls l,
  subs <> [] -> Forall2 (lists D sc strict) subs ls ->
  increasing l -> (forall x, In x l <-> forall F, In F ls -> In x F) ->
  lists D (join_scanner sc) true (join_new sc subs) l.
Proof.
  intros D sc b subs ls l Hne Hs Hinc Hset.
  apply (implements_lists D _ true _ _ _ _ (join_implements D sc b _ (conforms_implements D sc b))).
  apply (join_initial sc _ subs ls l Hne); [symmetry; eapply Forall2_length, Hs| |exact Hinc|exact Hset].
  intros i s F Hi HF. clear -Hs Hi HF. revert i Hi HF. induction Hs as [|s0 F0 subs ls H0 Hs IH]; intros [|i] Hi HF; cbn in Hi, HF; try discriminate.
  - injection Hi as <-. injection HF as <-. exact H0.
  - eapply IH; eassumption.
Qed.

(* ---------- C20 ---------- *)

Theorem C20_union_is_union : forall D sc subs ls active l,
  Forall2 (lists D sc true) subs ls ->
  NoDup active -> (forall i, In i active -> i < length subs) ->
  increasing l -> (forall x, In x l <-> exists i F, In i active /\ nth_error ls i = Some F /\ In x F) ->
  lists_with D (union_scanner sc) true (union_report ls) (union_new sc subs active) l.
Proof.
  intros D sc subs ls active l Hs Hnd Hlt Hinc Hset.
  assert (HF : forall F, In F ls -> increasing F).
  { clear -Hs. induction Hs as [|s0 F0 subs ls H0 Hs IH]; intros F HF; [destruct HF|]. destruct HF as [<-|HF]; [apply H0|apply IH, HF]. }
  apply (implements_lists D _ true _ _ _ _ (union_implements D sc _ (conforms_implements D sc true) ls active HF)).
  apply union_initial; try assumption; [symmetry; eapply Forall2_length, Hs|].
  intros i s F Hi HFi. clear -Hs Hi HFi. revert i Hi HFi. induction Hs as [|s0 F0 subs ls H0 Hs IH]; intros [|i] Hi HF; cbn in Hi, HF; try discriminate.
  - injection Hi as <-. injection HF as <-. exact H0.
  - eapply IH; eassumption.
Qed.

(* ---------- C21 ---------- *)

Theorem C21_subtract_is_difference : forall D sc strict main lm followers F sub follow active l,
  lists D sc strict main lm ->
  (forall i s, nth_error followers i = Some (Some s) -> lists D sc strict s (F i)) ->
  (forall i, In i (sub ++ follow) -> i < length active /\
     (nth_error active i = Some true -> exists s, nth_error followers i = Some (Some s))) ->
  increasing l ->
  (forall x, In x l <-> In x lm /\ ~ exists i, In i sub /\ nth_error active i = Some true /\ In x (F i)) ->
  lists_with D (subtract_scanner sc) true (subtract_report F) (subtract_new sc main followers sub follow active) l.
Proof.
  intros D sc b main lm followers F sub follow active l Hm Hf Hu Hinc Hset.
  apply (implements_lists D _ true _ _ _ _ (subtract_implements D sc b _ (conforms_implements D sc b) F active)).
  apply (subtract_initial sc _ F active main followers sub follow lm l Hu Hm (fun i s _ => Hf i s) Hinc Hset).
Qed.

(* ---------- C37 ---------- *)

(* A filter lists the values that pass the test.  It does not always notice that it has no current
   value (see the refutation below). *)
Theorem C37_filter_lists : forall D sc strict sub ls keep,
  lists D sc strict sub ls -> lists D (filter_scanner sc keep) false (filter_new sc sub) (filter keep ls).
Proof.
  intros D sc b sub ls keep H. apply (implements_lists D _ false _ _ _ _ (filter_implements D sc b _ (conforms_implements D sc b) keep)).
  exists ls. auto.
Qed.

Theorem C37_filter_constant_lists : forall (D : Z -> Prop) (sc : scanner) strict sub ls k,
  D k -> lists D sc strict sub ls ->
  lists D (filter_constant_scanner sc k) true (filter_constant_new sc sub) (if in_dec Z.eq_dec k ls then [k] else []).
Proof.
  intros D sc b sub ls k Hk H. apply (implements_lists D _ true _ _ _ _ (fc_implements D sc b _ (conforms_implements D sc b) k Hk)).
  cbn. exists ls. split; [exact H|]. split; [reflexivity|]. symmetry. apply (filter_one k). apply H.
Qed.

Theorem C37_constant_lists : forall (D : Z -> Prop) o, (forall v, o = Some v -> D v) ->
  lists D constant_scanner true (constant_new o) (match o with Some v => [v] | None => [] end).
Proof.
  intros D o H. apply (implements_lists D _ true _ _ _ _ (constant_implements D)). split; [|exact H]. destruct o; cbn; auto.
Qed.

(* the scans that only hand on requests, and the sum of two kinds of scans *)
Theorem C37_pass_lists : forall D sc strict sub l, lists D sc strict sub l -> lists D (pass_scanner sc) strict sub l.
Proof. intros D sc b sub l H. apply (implements_lists D _ b _ _ _ _ (pass_implements D sc b _ _ (conforms_implements D sc b))). exact H. Qed.
Theorem C37_either_lists : forall D A B strict l,
  (forall s, lists D A strict s l -> lists D (either_scanner A B) strict (inl s) l) /\
  (forall s, lists D B strict s l -> lists D (either_scanner A B) strict (inr s) l).
Proof.
  intros D A B b l. pose proof (either_implements D A B b _ _ (conforms_implements D A b) (conforms_implements D B b)) as HI.
  split; intros s H; apply (implements_lists D _ b _ _ _ _ HI); exact H.
Qed.

(* a history of actions on a column scan *)
Fixpoint perform_all (k : kind) (h : list action) (s : cscan) : res cscan :=
  match h with [] => Ok s | x :: h' => bind (perform k x s) (fun r => perform_all k h' (fst r)) end.

(* A column that is strictly increasing on an interval lists the values of the interval: the whole
   column, or an interval chosen with narrow at any time (data need not be sorted elsewhere).  With
   overflow checks this holds for the unsigned types (see C18_checked_seek_refuted). *)
Theorem C18_column_lists : forall k threshold target data,
  column_type k -> debug k = false \/ vmin k = 0%Z -> storable data -> (forall v, In v data -> of_type k v) ->
  exists col s, build_column k threshold target data = Ok col /\ citer col = Ok s /\
    (increasing data -> lists (of_type k) (column_scanner k) true s data) /\
    (forall a b, a <= b <= length data -> increasing (slice data a b) ->
      forall h s1, perform_all k h s = Ok s1 ->
      all_permitted data (mk_cursor 0 (length data) None) h -> can_seek k data h ->
      exists s2, cnarrow a b s1 = Ok s2 /\ lists (of_type k) (column_scanner k) true s2 (slice data a b)).
Proof.
  intros k t g data Hty Hk Hn Hv.
  destruct (build_represents k t g data (type_zero k Hty) (type_typed k data Hv) (type_fits k _ Hty Hn)) as (c & E & Hc).
  destruct (crep_new k c data Hc) as (s & Es & Hrep). exists c, s. split; [exact E|]. split; [exact Es|]. split.
  - intros Hinc. apply (implements_lists _ _ true _ _ _ _ (column_implements k data Hk)).
    rewrite <- (slice_all data) in Hinc. pose proof (column_initial k data s 0 (length data) Hrep (Nat.le_0_l _) (Nat.le_refl _) Hinc Hv) as H.
    rewrite slice_all in H. exact H.
  - intros a b Hab Hinc h. revert s Hrep Es. generalize (mk_cursor 0 (length data) None). intros cur s Hrep _. revert cur s Hrep.
    induction h as [|x h IH]; intros cur s Hrep s1 Hrun Hp Hs.
    + injection Hrun as <-. destruct (crep_step k data s cur (Narrow a b) Hrep Hab ltac:(discriminate)) as (s2 & E2 & Hr). cbn [perform] in E2.
      destruct (cnarrow a b s) as [s3| |]; try discriminate. cbn [bind returns] in E2. injection E2 as <-. exists s3. split; [reflexivity|].
      apply (implements_lists _ _ true _ _ _ _ (column_implements k data Hk)). apply column_initial; try assumption; lia.
    + cbn in Hp. destruct Hp as [Hp1 Hp2]. destruct (crep_step k data s cur x Hrep Hp1) as (s' & E' & Hr').
      { intros v ->. destruct (Hs v (or_introl eq_refl)) as [Hvv Hd]. split; [apply in_kind_iff, Hvv|]. destruct (debug k); [right|left; reflexivity].
        intros y Hy Hlt. apply in_kind_iff. apply Hd; auto. }
      cbn [perform_all] in Hrun. rewrite E' in Hrun. cbn [bind fst] in Hrun. eapply IH; [exact Hr'|exact Hrun|exact Hp2|]. intros v Hv'. apply Hs. right. exact Hv'.
Qed.

(* ---------- the filter keeps a stale current value ---------- *)

(* the column 1, 2, 3 of 64 bit numbers as a scan *)
Definition numbers : scanner := column_scanner (u64 false).
Definition column_of (data : list Z) : cscan := VScan (mk_vscan data None 0 (length data)).

Lemma column_of_lists : forall data, increasing data -> (forall x, In x data -> of_type (u64 false) x) -> lists (of_type (u64 false)) numbers true (column_of data) data.
Proof.
  intros data Hi Ht. apply (implements_lists _ _ true _ _ _ _ (column_implements (u64 false) data (or_introl eq_refl))).
  rewrite <- (slice_all data) in Hi.
  pose proof (column_initial (u64 false) data (column_of data) 0 (length data) (vnew_rep data) (Nat.le_0_l _) (Nat.le_refl _) Hi Ht) as H.
  rewrite slice_all in H. exact H.
Qed.

(* After a seek beyond the last value, current still returns the value before. *)
Theorem C37_filter_current_refuted : exists s s1 s2,
  lists (of_type (u64 false)) numbers true s [1; 2; 3]%Z /\
  (forall fuel, 5 <= fuel -> s_next (filter_scanner numbers Z.odd) fuel (filter_new numbers s) = Ok (s1, Some 1%Z)) /\
  (forall fuel, 5 <= fuel -> s_seek (filter_scanner numbers Z.odd) fuel 4 s1 = Ok (s2, None)) /\
  s_current (filter_scanner numbers Z.odd) s2 = Ok (Some 1%Z).
Proof.
  exists (column_of [1; 2; 3]%Z).
  eexists. eexists. split; [|split; [|split]].
  - apply column_of_lists; [repeat constructor; lia|]. intros x Hx. unfold of_type, u64. cbn [vmin vmax]. cbn in Hx. lia.
  - intros fuel Hf. do 5 (destruct fuel as [|fuel]; [lia|]). reflexivity.
  - intros fuel Hf. do 5 (destruct fuel as [|fuel]; [lia|]). reflexivity.
  - reflexivity.
Qed.

(* Hence a union of filters can go back to a value it has already listed: over the odd numbers of
   {1, 2, 3} and of {5, 7}: next returns 1, seek 4 returns 5, and next returns 1 again. *)
Theorem C37_union_of_filters_refuted :
  let F := filter_scanner numbers Z.odd in
  exists a b u1 u2 u3,
  lists (of_type (u64 false)) F false a [1; 3]%Z /\ lists (of_type (u64 false)) F false b [5; 7]%Z /\
  (forall fuel, 5 <= fuel -> s_next (union_scanner F) fuel (union_new F [a; b] [0; 1]) = Ok (u1, Some 1%Z)) /\
  (forall fuel, 5 <= fuel -> s_seek (union_scanner F) fuel 4 u1 = Ok (u2, Some 5%Z)) /\
  (forall fuel, 5 <= fuel -> s_next (union_scanner F) fuel u2 = Ok (u3, Some 1%Z)).
Proof.
  intros F. exists (filter_new numbers (column_of [1; 2; 3]%Z)), (filter_new numbers (column_of [5; 7]%Z)).
  eexists. eexists. eexists. split; [|split; [|split; [|split]]].
  - change [1; 3]%Z with (filter Z.odd [1; 2; 3]%Z). apply (C37_filter_lists _ _ true).
    apply column_of_lists; [repeat constructor; lia|]. intros x Hx. unfold of_type, u64. cbn [vmin vmax]. cbn in Hx. lia.
  - change [5; 7]%Z with (filter Z.odd [5; 7]%Z). apply (C37_filter_lists _ _ true).
    apply column_of_lists; [repeat constructor; lia|]. intros x Hx. unfold of_type, u64. cbn [vmin vmax]. cbn in Hx. lia.
  - intros fuel Hf. do 5 (destruct fuel as [|fuel]; [lia|]). reflexivity.
  - intros fuel Hf. do 5 (destruct fuel as [|fuel]; [lia|]). reflexivity.
  - intros fuel Hf. do 5 (destruct fuel as [|fuel]; [lia|]). reflexivity.
Qed.

(* ---------- examples ---------- *)

(* a run of requests *)
Fixpoint run (sc : scanner) (fuel : nat) (s : state sc) (h : list request) : res (list (option Z)) :=
  match h with
  | [] => Ok []
  | q :: h' => bind (ask sc q fuel s) (fun r => bind (run sc fuel (fst r) h') (fun l => Ok (snd r :: l)))
  end.

Definition exA : cscan := column_of [1; 2; 4; 7; 9]%Z.
Definition exB : cscan := column_of [2; 3; 4; 9; 10]%Z.
Definition exC : cscan := column_of [0; 4; 9]%Z.
Example C19_ex : run (join_scanner numbers) 20 (join_new numbers [exA; exB; exC]) [RNext; RNext; RNext] = Ok [Some 4; Some 9; None]%Z /\
  run (join_scanner numbers) 20 (join_new numbers [exA; exB; exC]) [RSeek 5; RNext] = Ok [Some 9; None]%Z.
Proof. vm_compute. repeat split. Qed.
Example C20_ex : run (union_scanner numbers) 20 (union_new numbers [exA; exB; exC] [0; 2]) [RNext; RNext; RSeek 3; RNext; RNext; RNext] = Ok [Some 0; Some 1; Some 4; Some 7; Some 9; None]%Z.
Proof. vm_compute. repeat split. Qed.
Example C21_ex : run (subtract_scanner numbers) 20 (subtract_new numbers exA [Some exB; Some exC] [0] [1] [true; true]) [RNext; RSeek 2; RNext] = Ok [Some 1; Some 7; None]%Z.
Proof. vm_compute. repeat split. Qed.
(* the operators can be combined: the join of exA with the union of exB and exC, through either *)
Example C19_ex_nested :
  let J := either_scanner numbers (union_scanner numbers) in
  run (join_scanner J) 20 (join_new J [inl exA; inr (union_new numbers [exB; exC] [0; 1])]) [RNext; RNext; RNext; RNext] = Ok [Some 2; Some 4; Some 9; None]%Z.
Proof. vm_compute. repeat split. Qed.
(* columns as above meet the hypotheses *)
Example C19_hypotheses : lists (of_type (u64 false)) (join_scanner numbers) true (join_new numbers [exA; exB; exC]) [4; 9]%Z.
Proof.
  apply (C19_join_is_intersection _ _ true _ [[1; 2; 4; 7; 9]; [2; 3; 4; 9; 10]; [0; 4; 9]]%Z); [discriminate| |repeat constructor; lia|].
  - apply Forall2_cons; [|apply Forall2_cons; [|apply Forall2_cons; [|apply Forall2_nil]]]; (apply column_of_lists; [repeat constructor; lia|]); intros x Hx; unfold of_type, u64; cbn [vmin vmax]; cbn in Hx; lia.
  - intros x. cbn. split; [intros H F [<-|[<-|[<-|[]]]]; cbn; lia|]. intros H. pose proof (H _ (or_introl eq_refl)) as H1. pose proof (H _ (or_intror (or_introl eq_refl))) as H2. pose proof (H _ (or_intror (or_intror (or_introl eq_refl)))) as H3. cbn in H1, H2, H3. lia.
Qed.
Example C20_hypotheses : lists_with (of_type (u64 false)) (union_scanner numbers) true (union_report [[1; 2; 4; 7; 9]; [2; 3; 4; 9; 10]; [0; 4; 9]]%Z)
  (union_new numbers [exA; exB; exC] [0; 2]) [0; 1; 2; 4; 7; 9]%Z.
Proof.
  apply C20_union_is_union.
  - apply Forall2_cons; [|apply Forall2_cons; [|apply Forall2_cons; [|apply Forall2_nil]]]; (apply column_of_lists; [repeat constructor; lia|]); intros x Hx; unfold of_type, u64; cbn [vmin vmax]; cbn in Hx; lia.
  - repeat constructor; cbn; lia.
  - intros i. cbn. lia.
  - repeat constructor; lia.
  - intros x. split.
    + intros H. destruct (in_dec Z.eq_dec x [1; 2; 4; 7; 9]%Z) as [Hx|Hx]; [exists 0; eexists; split; [left; reflexivity|split; [reflexivity|exact Hx]]|].
      exists 2. eexists. split; [right; left; reflexivity|]. split; [reflexivity|]. cbn in *. lia.
    + intros (i & F & [<-|[<-|[]]] & [= <-] & Hx); cbn in *; lia.
Qed.
Example C21_hypotheses : lists_with (of_type (u64 false)) (subtract_scanner numbers) true
  (subtract_report (fun i => match i with O => [2; 3; 4; 9; 10] | _ => [0; 4; 9] end%Z))
  (subtract_new numbers exA [Some exB; Some exC] [0] [1] [true; true]) [1; 7]%Z.
Proof.
  assert (HL : forall data, increasing data -> (forall x, In x data -> (0 <= x <= 10)%Z) -> lists (of_type (u64 false)) numbers true (column_of data) data).
  { intros data H1 H2. apply column_of_lists; [exact H1|]. intros x Hx. specialize (H2 x Hx). unfold of_type, u64. cbn [vmin vmax]. lia. }
  apply (C21_subtract_is_difference _ _ true _ [1; 2; 4; 7; 9]%Z).
  - apply HL; [repeat constructor; lia|]. intros x Hx. cbn in Hx. lia.
  - intros [|[|i]] s Hi; cbn in Hi; [| |destruct i; discriminate]; injection Hi as <-; (apply HL; [repeat constructor; lia|]); intros x Hx; cbn in Hx; lia.
  - intros i Hi. cbn in Hi. destruct Hi as [<-|[<-|[]]]; cbn; (split; [lia|]); intros _; eexists; reflexivity.
  - repeat constructor; lia.
  - intros x. split.
    + intros Hx. split; [cbn in *; lia|]. intros (i & [<-|[]] & _ & Hi). cbn in *. lia.
    + intros [Hx Hn]. destruct (in_dec Z.eq_dec x [2; 3; 4; 9; 10]%Z) as [H|H]; [exfalso; apply Hn; exists 0; split; [left; reflexivity|split; [reflexivity|exact H]]|].
      cbn in *. lia.
Qed.

Print Assumptions C19_join_is_intersection.
Print Assumptions C20_union_is_union.
Print Assumptions C21_subtract_is_difference.
Print Assumptions C37_filter_lists.
Print Assumptions C37_filter_constant_lists.
Print Assumptions C37_constant_lists.
Print Assumptions C37_pass_lists.
Print Assumptions C37_either_lists.
Print Assumptions C18_column_lists.
Print Assumptions C37_filter_current_refuted.
Print Assumptions C37_union_of_filters_refuted.
