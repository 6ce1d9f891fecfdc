(* Aggregation of the rows of an operation; the order of columns chosen by the planner. *)
From Coq Require Import List ZArith Bool Lia Arith Sorted.
From Verif Require Import ColumnModel ScanModel ScanSpec TrieModel TrieSpec TrieScanSpec TrieProofs1 TrieProofs3 TrieProofs8 TrieProofs10 TrieProofs12 TrieProofs13 TrieProofs14 OpModel OpSpec ProjModel ProjSpec ProjProofs1 ProjProofs2 AggModel AggSpec AggProofs1 AggProofs2 AggProofs3 AggProofs4 AggProofs5.
Import ListNotations.
Local Open Scope nat_scope.

Section Execute.
Variable F : floats.
Variable i : instructions.
Notation g := (in_groups i).
Notation A := (in_column i).
Notation m := (S (in_last i)).

Lemma table_nonempty : forall n (rows : list row), table n rows -> forall r, In r rows -> exists x l, rows = x :: l.
Proof. intros n [|x l] _ r H; [destruct H|eauto]. Qed.

Theorem execute_ok : forall content d o e, depth o <= d -> formed content o ->
  let n := length (markers o) in let P := fun r => length r = n /\ meaning content o r in
  g <= A -> A <= in_last i -> in_last i < n -> e <= S g -> (exists r, P r) -> computable F (in_op i) g A m P ->
  exists enough tr, (forall fuel, enough <= fuel -> execute_aggregate F d fuel i o e = Ok tr) /\
    holds (S g - e) (fun p => exists q, length q = e /\ aggregation F (in_op i) g A m P (p ++ q)) tr.
Proof.
  intros content d o e Hd Ho n P H1 H2 H3 He (r0 & Hl0 & Hm0) Hc. destruct (evaluate_reads content d o Hd Ho) as (s & Es & HR). fold n in HR.
  destruct s as [s|]; [|exfalso; exact (HR r0 Hl0 Hm0)]. destruct HR as (types & tau & (Hp & R & Hsim & HR) & Hrows).
  assert (Hn : 0 < n) by lia.
  assert (Hne : forall k, k < n -> types k <> []).
  { intros k Hk. apply (in_tree_types n types tau Hp 0 Hn k r0 []); cbn [length]; [apply Hrows; assumption|unfold row in *; lia|lia|unfold row in *; lia]. }
  pose proof (prune_enumerates n types tau Hp (scans d) R Hsim Hn Hne s HR) as HQ.
  assert (Hin : forall r, In r (all_rows n types tau) <-> length r = n /\ meaning content o r).
  { intros r. unfold all_rows. rewrite (under_in n types tau Hp) by (cbn; lia). split.
    - intros (q & -> & Hl & Hq). cbn [app] in *. split; [exact Hl|apply Hrows; assumption].
    - intros [Hl Hm]. exists r. split; [reflexivity|]. split; [exact Hl|apply Hrows; assumption]. }
  assert (T : table n (all_rows n types tau)).
  { split; [apply (under_sorted n types tau Hp n []); reflexivity|]. intros r Hr. apply Hin in Hr. apply Hr. }
  destruct (table_nonempty _ _ T r0 (proj2 (Hin r0) (conj Hl0 Hm0))) as (x & l & El).
  rewrite El in T.
  assert (HP : forall r, P r <-> In r (x :: l)) by (intros r; rewrite <- El; symmetry; apply Hin).
  assert (Hs : Q n types tau (scans d) R s (prune_new (scans d) s) None (x :: l)) by (left; rewrite El; auto).
  destruct (result_table F n (prune_scan (scans d)) _ HQ i H1 H2 H3 x l T P HP Hc (prune_new (scans d) s) Hs e He) as (en & tr & E & H).
  exists en, tr. split; [|exact H]. intros fuel Hf. unfold execute_aggregate. rewrite Es. cbn [bind]. unfold agg_new, valid.
  apply Nat.leb_le in H1, H2. rewrite H1, H2. cbn [andb bind]. exact (E fuel Hf).
Qed.
End Execute.

(* ---------- the planner ---------- *)

Lemma existsb_In : forall x (l : list marker), existsb (Nat.eqb x) l = true <-> In x l.
Proof. intros x l. rewrite existsb_exists. split; [intros (y & Hy & E); apply Nat.eqb_eq in E; subst y; exact Hy|intros H; exists x; rewrite Nat.eqb_refl; auto]. Qed.
Lemma existsb_nIn : forall x (l : list marker), existsb (Nat.eqb x) l = false <-> ~ In x l.
Proof. intros x l. rewrite <- existsb_In. destruct (existsb (Nat.eqb x) l); split; congruence. Qed.
Lemma first_seen_iff : forall l seen seen', (forall x, In x seen <-> In x seen') -> first_seen seen l = first_seen seen' l.
Proof.
  induction l as [|x l IH]; intros seen seen' H; [reflexivity|]. cbn [first_seen]. destruct (existsb (Nat.eqb x) seen) eqn:E.
  - apply existsb_In, H, existsb_In in E. rewrite E. apply IH, H.
  - apply existsb_nIn in E. rewrite (proj2 (existsb_nIn x seen')) by (rewrite <- H; exact E). f_equal. apply IH. intros y. cbn [In]. rewrite H. reflexivity.
Qed.
Lemma first_seen_app : forall l seen k, NoDup l -> (forall x, In x l -> ~ In x seen) -> first_seen seen (l ++ k) = l ++ first_seen (rev l ++ seen) k.
Proof.
  induction l as [|x l IH]; intros seen k Hnd Hs; [reflexivity|]. cbn [app first_seen]. rewrite (proj2 (existsb_nIn x seen)) by (apply Hs; left; reflexivity).
  inversion Hnd; subst. f_equal. rewrite IH; [|assumption|].
  - f_equal. apply first_seen_iff. intros y. cbn [rev]. rewrite !in_app_iff. cbn [In]. tauto.
  - intros y Hy [->|H']; [contradiction|]. exact (Hs y (or_intror Hy) H').
Qed.
Lemma first_seen_filter : forall l seen, NoDup l -> first_seen seen l = filter (fun x => negb (existsb (Nat.eqb x) seen)) l.
Proof.
  induction l as [|x l IH]; intros seen Hnd; [reflexivity|]. inversion Hnd; subst. cbn [first_seen filter]. destruct (existsb (Nat.eqb x) seen); cbn [negb]; [apply IH; assumption|]. f_equal.
  rewrite IH by assumption. apply filter_ext_in. intros y Hy. cbn [existsb]. destruct (Nat.eqb_spec y x); [subst; contradiction|reflexivity].
Qed.
Lemma filter_filter_and : forall A (p q : A -> bool) l, filter q (filter p l) = filter (fun x => p x && q x) l.
Proof. intros A p q l. induction l as [|x l IH]; [reflexivity|]. cbn [filter]. destruct (p x); cbn [filter andb]; rewrite IH; reflexivity. Qed.
Lemma position_at : forall l x k, ~ In x l -> position_of x (l ++ x :: k) = Some (length l).
Proof.
  induction l as [|y l IH]; intros x k H; cbn [app position_of length]; [rewrite Nat.eqb_refl; reflexivity|]. destruct (Nat.eqb_spec x y) as [->|N]; [exfalso; apply H; left; reflexivity|].
  rewrite IH by (intros Hx; apply H; right; exact Hx). reflexivity.
Qed.
Lemma find_rev_last : forall (p : nat -> bool) k, p k = true -> List.find p (rev (seq 0 (S k))) = Some k.
Proof. intros p k H. rewrite seq_S, rev_app_distr. cbn [rev app List.find plus]. rewrite H. reflexivity. Qed.
Lemma find_below : forall (p : nat -> bool) k i, List.find p (rev (seq 0 k)) = Some i -> i < k /\ p i = true.
Proof. intros p k i H. apply find_some in H. destruct H as [H1 H2]. rewrite <- in_rev in H1. apply in_seq in H1. split; [lia|exact H2]. Qed.

Lemma last_column : forall (gs ds distinct : list marker) (column : marker), (forall z, In z ds -> existsb (Nat.eqb z) distinct = true) ->
  (let l := match last_of (gs ++ column :: ds) distinct with Some l => l | None => length gs end in if l <? length gs then length gs else l) = length (gs ++ column :: ds) - 1.
Proof.
  intros gs ds distinct column Hd. unfold last_of. destruct ds as [|z ds' _] using rev_ind.
  - rewrite app_length. cbn [length]. destruct (List.find _ _) as [j|] eqn:Ef; [|cbn zeta; rewrite Nat.ltb_irrefl; lia]. apply find_below in Ef. destruct Ef as [Hj _]. cbn zeta. destruct (Nat.ltb_spec j (length gs)); lia.
  - assert (Hz : In z (ds' ++ [z])) by (apply in_or_app; right; left; reflexivity). specialize (Hd z Hz). replace (gs ++ column :: ds' ++ [z]) with ((gs ++ column :: ds') ++ [z]) by (rewrite <- app_assoc; reflexivity).
    rewrite (app_length (gs ++ column :: ds')). cbn [length]. rewrite Nat.add_1_r. rewrite find_rev_last; [|rewrite nth_snoc; exact Hd].
    cbn zeta. rewrite app_length. cbn [length]. destruct (Nat.ltb_spec (length gs + S (length ds')) (length gs)); lia.
Qed.

Theorem planned : forall input a column distinct group_by, NoDup input -> NoDup group_by -> incl group_by input -> incl distinct input -> ~ In column group_by ->
  let gs := filter (fun x => existsb (Nat.eqb x) group_by) input in
  let ds := filter (fun x => existsb (Nat.eqb x) distinct && negb (existsb (Nat.eqb x) (column :: group_by))) input in
  let ms := order_input input column distinct group_by in
  ms = gs ++ column :: ds /\ aggregate_new ms a distinct group_by column = Ok (mk_instructions a (length gs) (length gs) (length ms - 1)).
Proof.
  intros input a column distinct group_by Hi Hg Hgi Hdi Hc gs ds ms.
  assert (Hgs : forall x, In x gs <-> In x group_by).
  { intros x. unfold gs. rewrite filter_In, existsb_In. split; [tauto|]. intros H. split; [apply Hgi, H|exact H]. }
  assert (Ngs : NoDup gs) by (apply NoDup_filter, Hi).
  assert (Elen : length gs = length group_by).
  { apply Nat.le_antisymm; apply NoDup_incl_length; try assumption; intros x Hx; apply Hgs, Hx. }
  assert (Ems : ms = gs ++ column :: ds).
  { unfold ms, order_input. fold gs. rewrite first_seen_app; [|exact Ngs|intros x _ []]. f_equal. cbn [app first_seen].
    rewrite (proj2 (existsb_nIn column _)) by (rewrite app_nil_r, <- in_rev, Hgs; exact Hc). f_equal. rewrite first_seen_filter by (apply NoDup_filter, Hi).
    unfold ds. rewrite <- (filter_filter_and _ (fun x => existsb (Nat.eqb x) distinct) (fun x => negb (existsb (Nat.eqb x) (column :: group_by)))). apply filter_ext_in. intros x _. f_equal.
    destruct (existsb (Nat.eqb x) (column :: group_by)) eqn:E.
    - apply existsb_In. apply existsb_In in E. destruct E as [->|E]; [left; reflexivity|right; rewrite app_nil_r, <- in_rev; apply Hgs, E].
    - apply existsb_nIn. apply existsb_nIn in E. intros [->|H]; apply E; [left; reflexivity|right]. rewrite app_nil_r, <- in_rev in H. apply Hgs, H. }
  split; [exact Ems|]. unfold aggregate_new. rewrite Ems. rewrite position_at by (rewrite Hgs; exact Hc).
  assert (E2 : @length marker group_by = @length nat gs) by (symmetry; exact Elen). rewrite E2. f_equal. f_equal. apply last_column. intros z Hz. unfold ds in Hz. apply filter_In in Hz. destruct Hz as [_ Hz]. apply andb_true_iff in Hz. apply Hz.
Qed.
