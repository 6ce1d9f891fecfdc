(** Tables: all rows, the limit, malformed records. *)
From Coq Require Import List ZArith Lia Bool String.
From Verif Require Import LexModel LexSpec LexProofs1 DsvModel DsvSpec DsvProofs1 DsvProofs2.
Import ListNotations.
Open Scope Z_scope.
Open Scope list_scope.

Definition take_limit {A} (k : Z) (l : list A) : list A := if k <=? 0 then l else firstn (Z.to_nat k) l.
Lemma take_limit_cons {A} k (x : A) l : take_limit k (x :: l) = if k =? 1 then [x] else x :: take_limit (k - 1) l.
Proof.
  unfold take_limit. destruct (Z.leb_spec k 0), (Z.eqb_spec k 1); try lia.
  - destruct (Z.leb_spec (k - 1) 0); [reflexivity|lia].
  - subst. reflexivity.
  - destruct (Z.leb_spec (k - 1) 0); [lia|]. replace (Z.to_nat k) with (S (Z.to_nat (k - 1))) by lia. reflexivity.
Qed.
Lemma take_limit_nil {A} k : take_limit k (@nil A) = [].
Proof. unfold take_limit. destruct (k <=? 0); [reflexivity|apply firstn_nil]. Qed.
Lemma Forall2_take {A B} (R : A -> B -> Prop) k l1 l2 : Forall2 R l1 l2 -> Forall2 R (take_limit k l1) (take_limit k l2).
Proof.
  unfold take_limit. destruct (k <=? 0); auto. generalize (Z.to_nat k). intros n H. revert n.
  induction H; intros [|n]; cbn; constructor; auto.
Qed.

Section P.
Context {F : float_ops}.
Notation dval := (dval F).

Lemma write_rows_ok fs stop : forall rows rs count, Forall2 (fun row r => write_row fs row = ROk r) rows rs ->
  write_rows (F := F) fs stop count rows = Some (take_limit (stop - count) rs).
Proof.
  intros rows rs count H. revert count. induction H as [|row r rows rs E _ IH]; intros count.
  - cbn. now rewrite take_limit_nil.
  - cbn [write_rows]. rewrite E, take_limit_cons. destruct (Z.eqb_spec (count + 1) stop) as [<-|N].
    + replace (count + 1 - count) with 1 by lia. reflexivity.
    + destruct (Z.eqb_spec (stop - count) 1); [lia|]. rewrite IH. do 3 f_equal. lia.
Qed.

Lemma read_rows_ok fs stop : forall rows rs count,
  Forall2 (fun row r => read_cells fs r = ROk row /\ row <> [] /\ List.length r = List.length fs) rows rs ->
  read_rows (F := F) fs stop count rs = Some (take_limit (stop - count) rows).
Proof.
  intros rows rs count H. revert count. induction H as [|row r rows rs (E & N & L) _ IH]; intros count.
  - cbn. now rewrite take_limit_nil.
  - cbn [read_rows]. rewrite L, Nat.eqb_refl, E, take_limit_cons. cbn [negb]. destruct row as [|v row]; [congruence|].
    destruct (Z.eqb_spec (count + 1) stop) as [<-|M].
    + replace (count + 1 - count) with 1 by lia. reflexivity.
    + destruct (Z.eqb_spec (stop - count) 1); [lia|]. rewrite IH. do 3 f_equal. lia.
Qed.

Lemma rows_roundtrip fs (rows : list (list dval)) : good_floats F -> fs <> [] -> Forall (exportable_row fs) rows ->
  exists rs, Forall2 (fun row r => write_row fs row = ROk r /\ read_cells fs r = ROk row /\ row <> [] /\ List.length r = List.length fs) rows rs.
Proof.
  intros G N H. induction H as [|row rows E _ (rs & IH)]; [exists []; constructor|].
  destruct (row_roundtrip fs row G E) as (r & A & B & C). exists (r :: rs). constructor; auto. repeat split; auto.
  intros ->. inversion E; subst. congruence.
Qed.

Theorem table_roundtrip d fs l1 l2 (rows : list (list dval)) text : good_floats F -> good_delimiter d -> fs <> [] ->
  Forall (exportable_row fs) rows -> export_table d fs l1 rows = Some text -> no_bom text ->
  import_table true false d fs l2 text = Some (take_limit (stop_limit l2) (take_limit (stop_limit l1) rows)).
Proof.
  intros G D N H E B. destruct (rows_roundtrip fs rows G N H) as (rs & R). unfold export_table in E.
  rewrite (write_rows_ok fs _ rows rs) in E.
  2: { clear -R. induction R; constructor; intuition. }
  rewrite Z.sub_0_r in E. injection E as <-. unfold import_table. rewrite csv_roundtrip; auto.
  - rewrite (read_rows_ok fs _ (take_limit (stop_limit l1) rows)).
    + now rewrite Z.sub_0_r.
    + apply Forall2_take. clear -R. induction R; constructor; intuition.
  - assert (Forall (fun r => r <> []) rs) as A.
    { clear -R N. induction R; constructor; auto. destruct H as (_ & _ & _ & L). intros ->. destruct fs; [congruence|discriminate]. }
    unfold take_limit. destruct (stop_limit l1 <=? 0); auto. apply Forall_forall. intros x I. rewrite Forall_forall in A. apply A.
    rewrite <- (firstn_skipn (Z.to_nat (stop_limit l1)) rs). apply in_or_app. now left.
Qed.

Lemma export_total d fs l (rows : list (list dval)) : good_floats F -> fs <> [] -> Forall (exportable_row fs) rows ->
  exists text, export_table d fs l rows = Some text.
Proof.
  intros G N H. destruct (rows_roundtrip fs rows G N H) as (rs & R). unfold export_table.
  rewrite (write_rows_ok fs _ rows rs); [eauto|]. clear -R. induction R; constructor; intuition.
Qed.

(** Without a limit, every record is treated on its own. *)
Lemma read_rows_app fs : forall a b count, 0 <= count -> read_rows (F := F) fs 0 count (a ++ b) =
  match read_rows fs 0 0 a, read_rows fs 0 0 b with Some x, Some y => Some (x ++ y) | _, _ => None end.
Proof.
  assert (forall a count, 0 <= count -> read_rows (F := F) fs 0 count a = read_rows fs 0 0 a) as C.
  { induction a as [|r a IH]; intros count H; [reflexivity|]. cbn [read_rows].
    destruct (negb _); [now apply IH|]. destruct (Z.eqb_spec (count + 1) 0); [lia|]. change (0 + 1 =? 0) with false.
    rewrite (IH (count + 1)), (IH (0 + 1)) by lia. reflexivity. }
  induction a as [|r a IH]; intros b count H.
  - cbn [app read_rows]. rewrite C by auto. now destruct (read_rows fs 0 0 b).
  - cbn [app read_rows]. destruct (negb _); [now apply IH|]. destruct (Z.eqb_spec (count + 1) 0); [lia|].
    change (0 + 1 =? 0) with false. rewrite IH by lia. rewrite (C a (0 + 1)) by lia.
    destruct (read_cells fs r) as [[|v vs]| |]; auto; destruct (read_rows fs 0 0 a); auto; destruct (read_rows fs 0 0 b); auto.
Qed.

(** Escaping makes strings longer. *)
Lemma replace_len c x y s : (List.length s <= List.length (replace c [x; y] s))%nat /\
  (In c s -> (List.length s < List.length (replace c [x; y] s))%nat).
Proof.
  induction s as [|a s [A B]]; cbn [replace flat_map]; [split; [auto|intros []]|]. fold (replace c [x; y] s).
  destruct (Z.eqb_spec a c) as [->|N]; cbn [app List.length]; split; try lia. intros [E|I]; [congruence|]. specialize (B I). lia.
Qed.
Lemma replace_in c x y s a : a <> c -> In a s -> In a (replace c [x; y] s).
Proof.
  intros N I. apply in_flat_map. exists a. split; auto. destruct (Z.eqb_spec a c); [congruence|now left].
Qed.
Definition escaped (s : str) : str :=
  replace lf [92; 110] (replace cr [92; 114] (replace quote [92; quote] (replace 92 [92; 92] s))).
Lemma escaped_neq s : ~ clean s -> escaped s <> s.
Proof.
  intros H E. assert (List.length (escaped s) = List.length s) as L by now rewrite E.
  unfold escaped in L.
  set (s1 := replace 92 [92; 92] s) in *. set (s2 := replace quote [92; quote] s1) in *. set (s3 := replace cr [92; 114] s2) in *.
  pose proof (replace_len 92 92 92 s) as [A1 B1]. fold s1 in A1, B1.
  pose proof (replace_len quote 92 quote s1) as [A2 B2]. fold s2 in A2, B2.
  pose proof (replace_len cr 92 114 s2) as [A3 B3]. fold s3 in A3, B3.
  pose proof (replace_len lf 92 110 s3) as [A4 B4].
  apply H. repeat split; intros I.
  - specialize (B1 I). lia.
  - assert (In quote s1) as J by (apply replace_in; [unfold quote; lia|exact I]). specialize (B2 J). lia.
  - assert (In cr s2) as J by (apply replace_in; [unfold quote, cr; lia|]; apply replace_in; [unfold cr; lia|exact I]). specialize (B3 J). lia.
  - assert (In lf s3) as J.
    { apply replace_in; [unfold lf, cr; lia|]. apply replace_in; [unfold quote, lf; lia|]. apply replace_in; [unfold lf; lia|exact I]. }
    specialize (B4 J). lia.
Qed.

(** One row of one column. *)
Lemma one_cell d f (v w : dval) s : good_delimiter d -> serialize f v = Some s -> parse_cell f s = POk w -> is_skip f = false ->
  hd_error s <> Some 65279 ->
  exists text, export_table d [f] None [[v]] = Some text /\ import_table true false d [f] None text = Some [[w]].
Proof.
  intros D S P K B. exists (csv_write d [[s]]). split.
  - unfold export_table, write_rows, write_row. rewrite K, S. reflexivity.
  - unfold import_table. rewrite csv_roundtrip; auto.
    + cbn [read_rows List.length Nat.eqb negb read_cells]. rewrite K, P. reflexivity.
    + constructor; [discriminate|constructor].
    + unfold no_bom, csv_write. cbn [flat_map]. rewrite app_nil_r. unfold write_record. cbn [write_fields]. unfold write_field.
      destruct (existsb _ s); [discriminate|]. destruct s as [|c s]; [discriminate|exact B].
Qed.

(** Columns that are skipped are not written. *)
Lemma write_row_len fs : forall row r, write_row (F := F) fs row = ROk r -> List.length row = List.length fs ->
  List.length r = List.length (filter (fun f => negb (is_skip f)) fs).
Proof.
  induction fs as [|f fs IH]; intros [|v row] r E L; try discriminate.
  - injection E as <-. reflexivity.
  - cbn [write_row filter] in *. injection L as L. destruct (is_skip f); cbn [negb]; [eapply IH; eauto|].
    destruct (serialize f v); [|discriminate]. destruct (write_row fs row) as [r'| |] eqn:E'; try discriminate. injection E as <-.
    cbn. f_equal. eapply IH; eauto.
Qed.
Lemma filter_skip fs : In FSkip fs -> (List.length (filter (fun f => negb (is_skip f)) fs) < List.length fs)%nat.
Proof.
  assert (forall fs, (List.length (filter (fun f => negb (is_skip f)) fs) <= List.length fs)%nat) as L.
  { induction fs0 as [|f fs0 IH]; cbn; [lia|]. destruct (is_skip f); cbn; lia. }
  induction fs as [|f fs IH]; [intros []|]. intros [->|I].
  - cbn. specialize (L fs). lia.
  - specialize (IH I). cbn. destruct (is_skip f); cbn; lia.
Qed.
Lemma write_row_bad : forall (row : list dval) fs, List.length row = List.length fs ->
  (exists f v, In (f, v) (combine fs row) /\ is_skip f = false /\ serialize f v = None) -> write_row fs row = RDrop.
Proof.
  induction row as [|v row IH]; intros [|f fs] L (f' & v' & H & K & S); cbn in L; try discriminate; [destruct H|].
  injection L as L. cbn [combine] in H. cbn [write_row]. destruct H as [H|H].
  - injection H as -> ->. now rewrite K, S.
  - assert (E : write_row fs row = RDrop) by (apply IH; eauto). rewrite E. destruct (is_skip f); [reflexivity|]. now destruct (serialize f v).
Qed.
Lemma write_rows_app fs stop bad : write_row fs bad = RDrop -> forall rows1 rows2 count,
  write_rows (F := F) fs stop count (rows1 ++ bad :: rows2) = write_rows fs stop count (rows1 ++ rows2).
Proof.
  intros E. induction rows1 as [|row rows1 IH]; intros rows2 count; cbn [app write_rows].
  - now rewrite E.
  - destruct (write_row fs row); auto. now rewrite IH.
Qed.
Lemma write_rows_in fs stop : forall rows count rs, write_rows (F := F) fs stop count rows = Some rs ->
  Forall (fun r => exists row, In row rows /\ write_row fs row = ROk r) rs.
Proof.
  induction rows as [|row rows IH]; intros count rs E; cbn [write_rows] in E; [injection E as <-; constructor|].
  destruct (write_row fs row) as [r| |] eqn:W; [| |discriminate].
  - destruct (count + 1 =? stop).
    + injection E as <-. constructor; [|constructor]. exists row. split; [now left|auto].
    + destruct (write_rows fs stop (count + 1) rows) as [rs'|] eqn:E'; [|discriminate]. injection E as <-. constructor.
      * exists row. split; [now left|auto].
      * eapply Forall_impl; [|eapply IH; exact E']. intros r' (row' & I & R). exists row'. split; [now right|auto].
  - eapply Forall_impl; [|eapply IH; exact E]. intros r' (row' & I & R). exists row'. split; [now right|auto].
Qed.
Lemma read_rows_wrong fs stop : forall rs count, Forall (fun r => List.length r <> List.length fs) rs -> read_rows (F := F) fs stop count rs = Some [].
Proof.
  induction rs as [|r rs IH]; intros count H; [reflexivity|]. inversion H; subst. cbn [read_rows].
  apply Nat.eqb_neq in H2. rewrite H2. cbn. auto.
Qed.
End P.
