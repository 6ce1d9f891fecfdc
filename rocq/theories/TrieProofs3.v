(* Sorting the tuple buffer. *)
From Coq Require Import List ZArith Bool Lia Arith Permutation Sorted.
From Verif Require Import ColumnModel ScanModel TrieModel TrieSpec TrieProofs1 TrieProofs2.
Import ListNotations.
Local Open Scope nat_scope.

(* ---------- the order on rows ---------- *)

Definition value_cmp (v w : value) : comparison :=
  match Nat.compare (order (fst v)) (order (fst w)) with Eq => Z.compare (snd v) (snd w) | o => o end.
Fixpoint row_cmp (r s : row) : comparison :=
  match r, s with
  | v :: r', w :: s' => match value_cmp v w with Eq => row_cmp r' s' | o => o end
  | _, _ => Eq
  end.
Definition row_le (r s : row) : Prop := row_lt r s \/ r = s.

Lemma value_cmp_spec : forall v w, match value_cmp v w with Eq => v = w | Lt => value_lt v w | Gt => value_lt w v end.
Proof.
  intros [s x] [t y]. unfold value_cmp, value_lt. cbn [fst snd].
  destruct (Nat.compare_spec (order s) (order t)) as [H|H|H]; [|auto|auto].
  apply order_inj in H. subst t. destruct (Z.compare_spec x y) as [->|H|H]; auto.
Qed.
Lemma row_cmp_spec : forall r s, length r = length s ->
  match row_cmp r s with Eq => r = s | Lt => row_lt r s | Gt => row_lt s r end.
Proof.
  induction r as [|v r IH]; intros [|w s] H; try discriminate; cbn [row_cmp row_lt]; [reflexivity|].
  injection H as H. pose proof (value_cmp_spec v w) as Hv. destruct (value_cmp v w); auto.
  subst w. specialize (IH s H). destruct (row_cmp r s); auto. congruence.
Qed.
Lemma value_lt_trans : forall u v w, value_lt u v -> value_lt v w -> value_lt u w.
Proof.
  unfold value_lt. intros u v w [H1|[H1 H1']] [H2|[H2 H2']].
  - left. lia.
  - left. rewrite <- H2. exact H1.
  - left. rewrite H1. exact H2.
  - right. split; [congruence|lia].
Qed.
Lemma value_lt_irrefl : forall v, ~ value_lt v v.
Proof. intros v [H|[_ H]]; lia. Qed.
Lemma row_lt_trans : forall r s u, row_lt r s -> row_lt s u -> row_lt r u.
Proof.
  induction r as [|v r IH]; intros [|w s] [|x u]; cbn; try tauto. intros [H1|[-> H1]] [H2|[-> H2]]; auto.
  - left. eapply value_lt_trans; eassumption.
  - right. split; [reflexivity|]. eapply IH; eassumption.
Qed.
Lemma row_lt_irrefl : forall r, ~ row_lt r r.
Proof. induction r as [|v r IH]; cbn; [tauto|]. intros [H|[_ H]]; [exact (value_lt_irrefl _ H)|exact (IH H)]. Qed.
Lemma row_le_trans : forall r s u, row_le r s -> row_le s u -> row_le r u.
Proof. unfold row_le. intros r s u [H1| ->] [H2| ->]; auto. left. eapply row_lt_trans; eassumption. Qed.

(* ---------- subtables one after the other ---------- *)

Definition all_rows (b : tuple_buffer) (L : list row) : list row :=
  concat (map (fun rc => rows_of (r_types rc) L) (tb_tables b)).

Lemma get_subtable_ok : forall (ls : list (list row)) start id i, start <= i -> i - start < length (concat ls) ->
  exists j k l, get_subtable (starts start (map (@length row) ls)) start id i = Ok (id + j, k) /\
    nth_error ls j = Some l /\ k < length l /\ nth_error l k = nth_error (concat ls) (i - start).
Proof.
  induction ls as [|l ls IH]; intros start id i Hs Hi; [cbn in Hi; lia|]. cbn [map starts get_subtable concat] in *. rewrite app_length in Hi.
  destruct (Nat.ltb_spec i (start + length l)) as [H|H].
  - exists 0, (i - start), l. rewrite Nat.add_0_r. split; [reflexivity|]. split; [reflexivity|]. split; [lia|].
    rewrite nth_error_app1 by lia. reflexivity.
  - destruct (IH (start + length l) (id + 1) i H ltac:(lia)) as (j & k & l' & E & Hl & Hk & Hn).
    exists (S j), k, l'. replace (id + S j) with (id + 1 + j) by lia. split; [exact E|]. split; [exact Hl|]. split; [exact Hk|].
    rewrite nth_error_app2 by lia. rewrite Hn. f_equal. lia.
Qed.

Lemma binv_lengths : forall n b L, binv n b L -> map r_length (tb_tables b) = map (@length row) (map (fun rc => rows_of (r_types rc) L) (tb_tables b)).
Proof.
  intros n b L B. rewrite map_map. apply map_ext_in. intros rc Hin. apply In_nth_error in Hin. destruct Hin as [id Hid].
  apply (bi_tables _ _ _ B id rc Hid).
Qed.
Lemma concat_length_sum : forall A (ls : list (list A)), length (concat ls) = list_sum (map (@length A) ls).
Proof. intros A. induction ls as [|l ls IH]; [reflexivity|]. cbn. rewrite app_length, IH. reflexivity. Qed.
Lemma size_ok : forall n b L, binv n b L -> buffer_size b = length (all_rows b L).
Proof. intros n b L B. unfold buffer_size, all_rows. rewrite (binv_lengths n b L B), concat_length_sum. reflexivity. Qed.

Lemma locate_ok : forall n b L i, binv n b L -> i < buffer_size b ->
  exists id off rc, get_subtable_id (subtable_ids b) i = Ok (id, off) /\ nth_error (tb_tables b) id = Some rc /\
    nth_error (rows_of (r_types rc) L) off = nth_error (all_rows b L) i.
Proof.
  intros n b L i B Hi. rewrite (size_ok n b L B) in Hi. unfold get_subtable_id, subtable_ids. rewrite (binv_lengths n b L B).
  destruct (get_subtable_ok (map (fun rc => rows_of (r_types rc) L) (tb_tables b)) 0 0 i ltac:(lia)) as (j & k & l & E & Hl & Hk & Hn).
  - rewrite Nat.sub_0_r. exact Hi.
  - rewrite nth_error_map in Hl. destruct (nth_error (tb_tables b) j) as [rc|] eqn:Erc; [|discriminate]. cbn in Hl. injection Hl as <-.
    exists j, k, rc. cbn [Nat.add] in E. split; [exact E|]. split; [exact Erc|]. rewrite Hn, Nat.sub_0_r. reflexivity.
Qed.

Lemma stored_value_ok : forall n b L id rc off r c, binv n b L -> nth_error (tb_tables b) id = Some rc ->
  nth_error (rows_of (r_types rc) L) off = Some r -> c < n ->
  length r = n /\ map fst r = r_types rc /\ stored_value b id off c = Ok (nth c r dflt).
Proof.
  intros n b L id rc off r c B Erc Er Hc. pose proof (nth_error_In _ _ Er) as Hin. unfold rows_of in Hin. apply filter_In in Hin.
  destruct Hin as [HL Ht]. unfold types_eqb in Ht. destruct (types_eq_dec (map fst r) (r_types rc)) as [Et|]; [|discriminate].
  pose proof (proj1 (Forall_forall _ _) (bi_rows _ _ _ B) r HL) as Hr. cbn beta in Hr.
  split; [exact Hr|]. split; [exact Et|]. destruct (bi_tables _ _ _ B id rc Erc) as (L1 & L2 & _ & _).
  unfold stored_value. rewrite (index_some _ _ _ _ Erc). cbn [bind].
  destruct (nth_lt _ (r_types rc) c ltac:(lia)) as [t Et']. destruct (nth_lt _ (r_indices rc) c ltac:(lia)) as [i Ei].
  rewrite (index_some _ _ _ _ Et'), (index_some _ _ _ _ Ei). cbn [bind].
  pose proof (bi_cell _ _ _ B id rc c t i Erc (conj Et' Ei)) as Hcell. unfold cell in Hcell. rewrite (index_some _ _ _ _ Hcell). cbn [bind].
  assert (Ev : nth_error (map snd (column c (rows_of (r_types rc) L))) off = Some (snd (nth c r dflt))).
  { unfold column. rewrite map_map. exact (map_nth_error (fun r => snd (nth c r dflt)) off _ Er). }
  rewrite (index_some _ _ _ _ Ev). cbn [bind]. f_equal. rewrite <- Et in Et'. apply nth_types in Et'. destruct Et' as (v & E1 & E2).
  rewrite (nth_error_nth _ _ dflt E1). rewrite <- E2. destruct v; reflexivity.
Qed.

Lemma skipn_nth : forall A c (l : list A) d, c < length l -> skipn c l = nth c l d :: skipn (S c) l.
Proof. intros A. induction c as [|c IH]; intros [|x l] d H; cbn in *; try lia; [reflexivity|]. rewrite (IH l d) by lia. reflexivity. Qed.
Lemma skipn_nil : forall A c (l : list A), length l <= c -> skipn c l = [].
Proof. intros A. induction c as [|c IH]; intros [|x l] H; cbn in *; try lia; try reflexivity. apply IH. lia. Qed.

Lemma compare_columns_ok : forall n b L id1 off1 rc1 r1 id2 off2 rc2 r2, binv n b L ->
  nth_error (tb_tables b) id1 = Some rc1 -> nth_error (rows_of (r_types rc1) L) off1 = Some r1 ->
  nth_error (tb_tables b) id2 = Some rc2 -> nth_error (rows_of (r_types rc2) L) off2 = Some r2 ->
  forall m c, c + m = n -> compare_columns b (id1, off1) (id2, off2) c m = Ok (row_cmp (skipn c r1) (skipn c r2)).
Proof.
  intros n b L id1 off1 rc1 r1 id2 off2 rc2 r2 B E1 R1 E2 R2. induction m as [|m IH]; intros c Hc.
  - cbn [compare_columns]. destruct n as [|n].
    + assert (Hin : In r1 L) by (apply nth_error_In in R1; apply filter_In in R1; tauto).
      pose proof (proj1 (Forall_forall _ _) (bi_rows _ _ _ B) r1 Hin) as Hr. destruct r1; [|discriminate]. destruct c; reflexivity.
    + destruct (stored_value_ok _ _ _ _ _ _ _ n B E1 R1 ltac:(lia)) as (Hr & _ & _). rewrite (skipn_nil _ c r1) by (unfold row in *; lia). reflexivity.
  - destruct (stored_value_ok _ _ _ _ _ _ _ c B E1 R1 ltac:(lia)) as (Hl1 & Ht1 & Hs1).
    destruct (stored_value_ok _ _ _ _ _ _ _ c B E2 R2 ltac:(lia)) as (Hl2 & Ht2 & Hs2).
    cbn [compare_columns fst snd]. rewrite (index_some _ _ _ _ E1), (index_some _ _ _ _ E2). cbn [bind].
    rewrite <- Ht1, <- Ht2.
    assert (N1 : nth_error (map fst r1) c = Some (fst (nth c r1 dflt))) by (rewrite nth_error_map, (nth_error_nth' r1 dflt) by (unfold row in *; lia); reflexivity).
    assert (N2 : nth_error (map fst r2) c = Some (fst (nth c r2 dflt))) by (rewrite nth_error_map, (nth_error_nth' r2 dflt) by (unfold row in *; lia); reflexivity).
    rewrite (index_some _ _ _ _ N1), (index_some _ _ _ _ N2). cbn [bind].
    rewrite Hs1, Hs2. cbn [bind].
    rewrite (skipn_nth _ c r1 dflt), (skipn_nth _ c r2 dflt) by (unfold row in *; lia). cbn [row_cmp]. unfold value_cmp.
    destruct (Nat.compare (order (fst (nth c r1 dflt))) (order (fst (nth c r2 dflt)))); try reflexivity.
    destruct (Z.compare (snd (nth c r1 dflt)) (snd (nth c r2 dflt))); try reflexivity.
    rewrite IH by lia. rewrite Nat.add_1_r. reflexivity.
Qed.

Theorem compare_ok : forall n b L i j r s, 0 < n -> binv n b L -> nth_error (all_rows b L) i = Some r -> nth_error (all_rows b L) j = Some s ->
  length r = n /\ length s = n /\ compare_tuples b i j = Ok (row_cmp r s).
Proof.
  intros n b L i j r s Hn B Hi Hj.
  destruct (locate_ok n b L i B) as (id1 & off1 & rc1 & E1 & T1 & R1). { rewrite (size_ok n b L B). eapply nth_Some_lt, Hi. }
  destruct (locate_ok n b L j B) as (id2 & off2 & rc2 & E2 & T2 & R2). { rewrite (size_ok n b L B). eapply nth_Some_lt, Hj. }
  rewrite Hi in R1. rewrite Hj in R2.
  destruct (stored_value_ok _ _ _ _ _ _ _ 0 B T1 R1 Hn) as (Hl1 & _ & _). destruct (stored_value_ok _ _ _ _ _ _ _ 0 B T2 R2 Hn) as (Hl2 & _ & _).
  split; [exact Hl1|]. split; [exact Hl2|]. unfold compare_tuples. rewrite E1, E2. cbn [bind]. rewrite (bi_columns _ _ _ B).
  rewrite (compare_columns_ok n b L id1 off1 rc1 r id2 off2 rc2 s B T1 R1 T2 R2 n 0 eq_refl). reflexivity.
Qed.

(* ---------- all rows, in another order ---------- *)

Lemma split_perm : forall (t0 : list stype) (r : row) (f : list stype -> list row) ts, NoDup ts -> In t0 ts ->
  Permutation (concat (map (fun t => (if types_eq_dec t0 t then [r] else []) ++ f t) ts)) (r :: concat (map f ts)).
Proof.
  intros t0 r f. induction ts as [|t ts IH]; intros Hd Hin; [destruct Hin|]. inversion Hd as [|? ? Hni Hd']; subst. cbn [map concat].
  destruct (types_eq_dec t0 t) as [->|Hne].
  - cbn [app]. constructor. apply Permutation_app_head.
    assert (E : map (fun s => (if types_eq_dec t s then [r] else []) ++ f s) ts = map f ts).
    { apply map_ext_in. intros s Hs. destruct (types_eq_dec t s) as [->|]; [contradiction|reflexivity]. }
    rewrite E. apply Permutation_refl.
  - cbn [app]. destruct Hin as [->|Hin]; [congruence|]. etransitivity; [apply Permutation_app_head, IH; assumption|].
    symmetry. apply Permutation_middle.
Qed.
Lemma groups_perm : forall ts L, NoDup ts -> (forall r : row, In r L -> In (map fst r) ts) ->
  Permutation (concat (map (fun t => rows_of t L) ts)) L.
Proof.
  intros ts L Hd. induction L as [|r L IH]; intros H.
  - induction ts as [|t ts IHt]; [constructor|]. inversion Hd; subst. cbn. apply IHt; [assumption|]. intros r [].
  - assert (E : map (fun t => rows_of t (r :: L)) ts = map (fun t => (if types_eq_dec (map fst r) t then [r] else []) ++ rows_of t L) ts).
    { apply map_ext. intros t. change (rows_of t (r :: L)) with (rows_of t ([r] ++ L)). rewrite rows_of_app, rows_of_one. reflexivity. }
    rewrite E. etransitivity; [apply split_perm; [exact Hd|apply H; left; reflexivity]|]. constructor. apply IH. intros s Hs. apply H. right. exact Hs.
Qed.
Theorem all_rows_perm : forall n b L, binv n b L -> Permutation (all_rows b L) L.
Proof.
  intros n b L B. unfold all_rows. rewrite <- (map_map r_types (fun t => rows_of t L)). apply groups_perm.
  - apply NoDup_nth_error. intros i j Hi E. rewrite map_length in Hi. destruct (nth_lt _ _ _ Hi) as [ri Ei].
    rewrite !nth_error_map, Ei in E. cbn in E. destruct (nth_error (tb_tables b) j) as [rj|] eqn:Ej; [|discriminate]. cbn in E. injection E as E.
    destruct (bi_tables _ _ _ B i ri Ei) as (_ & _ & Fi & _). destruct (bi_tables _ _ _ B j rj Ej) as (_ & _ & Fj & _). rewrite E in Fi. congruence.
  - intros r Hr. destruct (bi_all _ _ _ B r Hr) as [id Hid].
    destruct (bi_found _ _ _ B (map fst r) id) as (rc & E1 & E2); [rewrite map_length; apply (proj1 (Forall_forall _ _) (bi_rows _ _ _ B) r Hr)|exact Hid|].
    rewrite <- E2. apply in_map. eapply nth_error_In, E1.
Qed.

(* ---------- sorting ---------- *)

Section Sort.
Variable A : Type.
Variable cmp : A -> A -> res comparison.
Variable key : A -> row.
Variable D : A -> Prop.
Variable n : nat.
Hypothesis Hkey : forall x, D x -> length (key x) = n.
Hypothesis Hcmp : forall x y, D x -> D y -> cmp x y = Ok (row_cmp (key x) (key y)).

Lemma insert_ok : forall x l, D x -> Forall D l -> StronglySorted row_le (map key l) ->
  exists l', insert_by cmp x l = Ok l' /\ Permutation l' (x :: l) /\ StronglySorted row_le (map key l').
Proof.
  intros x l Dx. induction l as [|y l IH]; intros Dl Hs; cbn [insert_by].
  - exists [x]. repeat (split || constructor).
  - inversion Dl as [|? ? Dy Dl']; subst. cbn [map] in Hs. inversion Hs as [|? ? Hs' Hall]; subst.
    rewrite (Hcmp x y Dx Dy). cbn [bind]. pose proof (row_cmp_spec (key x) (key y) ltac:(rewrite !Hkey by assumption; reflexivity)) as Hc.
    assert (Hle : row_le (key x) (key y) -> exists l', Ok (x :: y :: l) = Ok l' /\ Permutation l' (x :: y :: l) /\ StronglySorted row_le (map key l')).
    { intros Hxy. exists (x :: y :: l). split; [reflexivity|]. split; [apply Permutation_refl|]. cbn [map]. constructor; [exact Hs|].
      constructor; [exact Hxy|]. eapply Forall_impl; [|exact Hall]. intros z. cbn. apply row_le_trans. exact Hxy. }
    destruct (row_cmp (key x) (key y)).
    + apply Hle. right. exact Hc.
    + apply Hle. left. exact Hc.
    + destruct (IH Dl' Hs') as (l' & E & P & S). rewrite E. cbn [bind]. exists (y :: l'). split; [reflexivity|]. split.
      * etransitivity; [apply perm_skip, P|apply perm_swap].
      * cbn [map]. constructor; [exact S|]. apply Forall_forall. intros k Hk. apply in_map_iff in Hk. destruct Hk as (z & <- & Hz).
        apply (Permutation_in _ P) in Hz. destruct Hz as [<-|Hz]; [left; exact Hc|]. apply (proj1 (Forall_forall _ _) Hall). apply in_map, Hz.
Qed.
Lemma sort_ok : forall l, Forall D l -> exists l', sort_by cmp l = Ok l' /\ Permutation l' l /\ StronglySorted row_le (map key l').
Proof.
  induction l as [|x l IH]; intros Dl; cbn [sort_by].
  - exists []. repeat (split || constructor).
  - inversion Dl as [|? ? Dx Dl']; subst. destruct (IH Dl') as (l' & E & P & S). rewrite E. cbn [bind].
    destruct (insert_ok x l' Dx) as (l'' & E2 & P2 & S2); [|exact S|].
    + apply Forall_forall. intros y Hy. apply (proj1 (Forall_forall _ _) Dl'). eapply Permutation_in; eassumption.
    + exists l''. split; [exact E2|]. split; [|exact S2]. etransitivity; [exact P2|]. constructor. exact P.
Qed.
End Sort.

Lemma map_nth_seq : forall A (l : list A) d, map (fun i => nth i l d) (seq 0 (length l)) = l.
Proof.
  intros A l d. induction l as [|x l IH]; [reflexivity|]. cbn [length seq map nth]. f_equal. rewrite <- seq_shift, map_map. exact IH.
Qed.
Lemma map_res_ok : forall A B (f : A -> res B) (g : A -> B) l, (forall x, In x l -> f x = Ok (g x)) -> map_res f l = Ok (map g l).
Proof.
  intros A B f g. induction l as [|x l IH]; intros H; [reflexivity|]. cbn [map_res map]. rewrite (H x) by (left; reflexivity). cbn [bind].
  rewrite IH by (intros y Hy; apply H; right; exact Hy). reflexivity.
Qed.

(* the buffer as a whole *)
Theorem finalize_ok : forall n b L, 0 < n -> binv n b L ->
  exists sb S, buffer_finalize b = Ok sb /\ Permutation S L /\ StronglySorted row_le S /\ column_number sb = n /\
    forall c, c < n -> get_column sb c = Ok (column c S).
Proof.
  intros n b L Hn B. unfold buffer_finalize. rewrite (size_ok n b L B). set (G := all_rows b L).
  destruct (sort_ok nat (compare_tuples b) (fun i => nth i G []) (fun i => i < length G) n) with (l := seq 0 (length G)) as (o & E & P & S).
  - intros x Hx. pose proof (nth_error_nth' G [] Hx) as Ex. apply (compare_ok n b L x x _ _ Hn B Ex Ex).
  - intros x y Hx Hy. apply (compare_ok n b L x y _ _ Hn B (nth_error_nth' G [] Hx) (nth_error_nth' G [] Hy)).
  - apply Forall_forall. intros x Hx. apply in_seq in Hx. lia.
  - exists (mk_sorted b o), (map (fun i => nth i G []) o). rewrite E. cbn [bind]. split; [reflexivity|]. split; [|split; [exact S|split; [apply (bi_columns _ _ _ B)|]]].
    + etransitivity; [apply Permutation_map, P|]. rewrite map_nth_seq. apply (all_rows_perm n b L B).
    + intros c Hc. unfold get_column. cbn [sb_buffer sb_order]. unfold column. rewrite map_map. apply map_res_ok.
      intros i Hi. apply (Permutation_in _ P) in Hi. apply in_seq in Hi. pose proof (nth_error_nth' G [] (n:=i) ltac:(lia)) as Ei.
      destruct (locate_ok n b L i B) as (id & off & rc & E1 & T1 & R1); [rewrite (size_ok n b L B); fold G; lia|].
      rewrite E1. cbn [bind fst snd]. unfold G in Ei. rewrite Ei in R1. apply (stored_value_ok n b L id rc off _ c B T1 R1 Hc).
Qed.

Theorem buffer_ok : forall n rows, 0 < n -> Forall (fun r => length r = n) rows ->
  exists b sb S, fold_res add_tuple_value (buffer_new n) (concat rows) = Ok b /\ buffer_finalize b = Ok sb /\
    Permutation S rows /\ StronglySorted row_le S /\ column_number sb = n /\ forall c, c < n -> get_column sb c = Ok (column c S).
Proof.
  intros n rows Hn Hr. destruct (write_rows_ok n rows (buffer_new n) [] Hn (binv_new n Hn) eq_refl Hr) as (b & E & B & _).
  destruct (finalize_ok n b _ Hn B) as (sb & S & E2 & H). exists b, sb, S. auto.
Qed.
