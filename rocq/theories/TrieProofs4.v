(* Building the columns of a trie from a sorted buffer. *)
From Coq Require Import List ZArith Bool Lia Arith Permutation Sorted.
From Verif Require Import ColumnModel ScanModel TrieModel TrieSpec TrieProofs1 TrieProofs2 TrieProofs3.
Import ListNotations.
Local Open Scope nat_scope.

(* the type of the last value of a prefix *)
Definition ptype (p : row) : stype := fst (last p dflt).
Definition group : Type := (row * list value)%type.

(* The groups of a layer: for each prefix of length k the values following it; the last group and the
   last value of a group come first. *)
Definition gpush (k : nat) (E : list group) (r : row) : list group :=
  match E with
  | (p, v :: vs) :: E' =>
      if row_eq_dec (firstn k r) p then
        if value_eq_dec v (nth k r dflt) then E else (p, nth k r dflt :: v :: vs) :: E'
      else (firstn k r, [nth k r dflt]) :: E
  | _ => [(firstn k r, [nth k r dflt])]
  end.
Definition rgroups (k : nat) (S : list row) : list group := fold_left (gpush k) S [].

(* what the column builder contains *)
Definition opened (b : builderT) (vs : list value) : builderT := fold_right add_valueT b vs.
Definition closed (E : list group) : builderT :=
  fold_right (fun (g : group) b => finishT (ptype (fst g)) (opened b (snd g))) (fun _ => ibuilder_new) E.

Lemma firstn_snoc : forall A k (r : list A) d, k < length r -> firstn (S k) r = firstn k r ++ [nth k r d].
Proof.
  intros A. induction k as [|k IH]; intros [|x r] d H; cbn in *; try lia; [reflexivity|]. f_equal. apply IH. lia.
Qed.
Lemma ptype_firstn : forall k (r : row), k < length r -> ptype (firstn (S k) r) = fst (nth k r dflt).
Proof. intros k r H. unfold ptype. rewrite (firstn_snoc _ k r dflt H), last_last. reflexivity. Qed.
Lemma prefix_S : forall k (r s : row), k < length r -> k < length s ->
  (firstn (S k) r = firstn (S k) s <-> firstn k r = firstn k s /\ nth k r dflt = nth k s dflt).
Proof.
  intros k r s Hr Hs. rewrite (firstn_snoc _ k r dflt Hr), (firstn_snoc _ k s dflt Hs). split.
  - intros H. apply app_inj_tail in H. exact H.
  - intros [-> ->]. reflexivity.
Qed.

(* the positions at which a new prefix of length k starts, and the types of the last values of the
   prefixes before *)
Fixpoint breaks (k i : nat) (prev : row) (rest : list row) : list nat :=
  match rest with
  | [] => []
  | r :: rest' => if row_eq_dec (firstn k r) (firstn k prev) then breaks k (S i) r rest' else i :: breaks k (S i) r rest'
  end.
Fixpoint btypes (k : nat) (prev : row) (rest : list row) : list stype :=
  match rest with
  | [] => []
  | r :: rest' => if row_eq_dec (firstn k r) (firstn k prev) then btypes k r rest' else ptype (firstn k prev) :: btypes k r rest'
  end.

Lemma breaks_ge : forall k rest i prev j, In j (breaks k i prev rest) -> i <= j.
Proof.
  intros k. induction rest as [|r rest IH]; intros i prev j H; cbn [breaks] in H; [destruct H|].
  destruct (row_eq_dec (firstn k r) (firstn k prev)); [apply IH in H; lia|]. destruct H as [<-|H]; [lia|]. apply IH in H. lia.
Qed.
Lemma skipn_cons : forall A (l : list A) i x m, skipn i l = x :: m -> nth_error l i = Some x /\ skipn (S i) l = m.
Proof. intros A. induction l as [|y l IH]; intros [|i] x m H; cbn in *; try discriminate; [injection H as -> ->; auto|]. apply IH in H. exact H. Qed.
Lemma skipn_nth_error : forall A (l : list A) i, nth_error l i = hd_error (skipn i l).
Proof. intros A. induction l as [|y l IH]; intros [|i]; cbn; try reflexivity. apply IH. Qed.
Lemma last_default : forall A (l : list A) x d, last (x :: l) d = last l x.
Proof. intros A. induction l as [|y l IH]; intros x d; [reflexivity|]. change (last (x :: y :: l) d) with (last (y :: l) d). rewrite IH. symmetry. apply IH. Qed.

Definition mstate (m : matrix) (E : list group) (k : nat) (r : row) : Prop :=
  exists vs E', E = (firstn k r, nth k r dflt :: vs) :: E' /\ mx_builder m = opened (closed E') vs /\ mx_current m = Some (nth k r dflt).

Lemma gpush_step : forall k r prev vs E', gpush k ((firstn k prev, nth k prev dflt :: vs) :: E') r =
  if row_eq_dec (firstn k r) (firstn k prev) then
    if value_eq_dec (nth k prev dflt) (nth k r dflt) then (firstn k prev, nth k prev dflt :: vs) :: E'
    else (firstn k prev, nth k r dflt :: nth k prev dflt :: vs) :: E'
  else (firstn k r, [nth k r dflt]) :: (firstn k prev, nth k prev dflt :: vs) :: E'.
Proof. reflexivity. Qed.

Lemma fill_ok_rest : forall k (lc : bool) starts_ types_ n, k < n -> forall rest prev pred i m ints types E,
  0 < i -> length prev = n -> Forall (fun r => length r = n) rest -> mstate m E k prev ->
  skipn pred starts_ = breaks k i prev rest ->
  (k = 0 \/ exists t, skipn pred types_ = btypes k prev rest ++ [t]) ->
  exists m', fill_column lc starts_ types_ pred i (column k rest) m (fst (nth k prev dflt)) ints types =
    Ok (m', fst (nth k (last rest prev) dflt), if lc then ints else ints ++ breaks (S k) i prev rest,
        if lc then types else types ++ btypes (S k) prev rest) /\
    mstate m' (fold_left (gpush k) rest E) k (last rest prev).
Proof.
  intros k lc starts_ types_ n Hk. induction rest as [|r rest IH]; intros prev pred i m ints types E Hi Hp Hr Hm Hs Ht.
  - exists m. cbn [column map fill_column last breaks btypes fold_left]. rewrite !app_nil_r. split; [destruct lc; reflexivity|exact Hm].
  - inversion Hr as [|? ? Hlr Hr']; subst. rewrite last_default. cbn [column map fill_column fold_left].
    destruct Hm as (vs & E' & -> & Hb & Hc). rewrite gpush_step.
    assert (Hbr : firstn (S k) r = firstn (S k) prev <-> firstn k r = firstn k prev /\ nth k r dflt = nth k prev dflt)
      by (apply prefix_S; lia).
    cbn [breaks btypes] in Hs, Ht.
    assert (E0 : (0 <? i) = true) by (apply Nat.ltb_lt; exact Hi).
    destruct (row_eq_dec (firstn k r) (firstn k prev)) as [Ep|Np].
    + (* the same group *)
      assert (Hfin : match nth_error starts_ pred with
                     | Some j => if j =? i then bind (index types_ pred) (fun t => Ok (matrix_finish t m, pred + 1)) else Ok (m, pred)
                     | None => Ok (m, pred)
                     end = Ok (m, pred)).
      { rewrite skipn_nth_error, Hs. destruct (breaks k (S i) r rest) as [|j bs] eqn:Eb; [reflexivity|]. cbn [hd_error].
        pose proof (breaks_ge k rest (S i) r j) as Hj. rewrite Eb in Hj. specialize (Hj (or_introl eq_refl)).
        destruct (Nat.eqb_spec j i); [lia|reflexivity]. }
      rewrite Hfin. cbn [bind fst snd]. unfold matrix_add. rewrite Hc.
      destruct (value_eqb_spec (nth k prev dflt) (nth k r dflt)) as [Ev|Nv]; cbn [negb].
      * destruct (value_eq_dec (nth k prev dflt) (nth k r dflt)) as [_|Nv]; [|congruence]. cbn [andb].
        destruct (IH r pred (i + 1) m ints types ((firstn k prev, nth k prev dflt :: vs) :: E')) as (m' & Em & Hm'); try assumption; try lia.
        -- exists vs, E'. rewrite <- Ep, <- Ev. auto.
        -- rewrite Nat.add_1_r. exact Hs.
        -- exists m'. split; [|exact Hm']. cbn [breaks btypes].
           destruct (row_eq_dec (firstn (S k) r) (firstn (S k) prev)) as [_|Nn].
           ++ rewrite Nat.add_1_r in Em |- *. exact Em.
           ++ exfalso. apply Nn. apply Hbr. split; [exact Ep|symmetry; exact Ev].
      * destruct (value_eq_dec (nth k prev dflt) (nth k r dflt)) as [Ev|_]; [congruence|]. rewrite E0. cbn [andb].
        assert (Nn : firstn (S k) r <> firstn (S k) prev) by (intros H; apply Hbr in H; destruct H; congruence).
        destruct (IH r pred (i + 1) (mk_matrix (mx_builder (commit_value m)) (Some (nth k r dflt)))
                   (if lc then ints else ints ++ [i]) (if lc then types else types ++ [fst (nth k prev dflt)])
                   ((firstn k prev, nth k r dflt :: nth k prev dflt :: vs) :: E')) as (m' & Em & Hm'); try assumption; try lia.
        -- exists (nth k prev dflt :: vs), E'. rewrite <- Ep. split; [reflexivity|]. split; [|reflexivity]. unfold commit_value. rewrite Hc. cbn [mx_builder].
           rewrite Hb. reflexivity.
        -- rewrite Nat.add_1_r. exact Hs.
        -- exists m'. split; [|exact Hm']. cbn [breaks btypes].
           destruct (row_eq_dec (firstn (S k) r) (firstn (S k) prev)) as [En|_]; [congruence|].
           rewrite ptype_firstn by lia. unfold column in Em. destruct lc; cbn [negb]; rewrite Em; [reflexivity|]. rewrite <- !app_assoc, Nat.add_1_r. reflexivity.
    + (* a new group *)
      destruct Ht as [->|[t Ht]]; [exfalso; apply Np; reflexivity|]. cbn [app] in Ht.
      destruct (skipn_cons _ _ _ _ _ Hs) as [S1 S2]. destruct (skipn_cons _ _ _ _ _ Ht) as [T1 T2].
      rewrite S1, Nat.eqb_refl. rewrite (index_some _ _ _ _ T1). cbn [bind fst snd].
      assert (Nn : firstn (S k) r <> firstn (S k) prev) by (intros H; apply Hbr in H; destruct H; congruence).
      unfold matrix_add. cbn [matrix_finish mx_current mx_builder]. rewrite E0. cbn [andb].
      destruct (IH r (pred + 1) (i + 1) (mk_matrix (finishT (ptype (firstn k prev)) (mx_builder (commit_value m))) (Some (nth k r dflt)))
                 (if lc then ints else ints ++ [i]) (if lc then types else types ++ [fst (nth k prev dflt)])
                 ((firstn k r, [nth k r dflt]) :: (firstn k prev, nth k prev dflt :: vs) :: E')) as (m' & Em & Hm'); try assumption; try lia.
      * exists [], ((firstn k prev, nth k prev dflt :: vs) :: E'). split; [reflexivity|]. split; [|reflexivity]. cbn [mx_builder opened fold_right].
        unfold commit_value. rewrite Hc. cbn [mx_builder]. rewrite Hb. reflexivity.
      * rewrite !Nat.add_1_r. exact S2.
      * right. exists t. rewrite Nat.add_1_r. exact T2.
      * exists m'. split; [|exact Hm']. cbn [breaks btypes].
        destruct (row_eq_dec (firstn (S k) r) (firstn (S k) prev)) as [En|_]; [congruence|].
        rewrite ptype_firstn by lia. unfold column in Em. destruct lc; cbn [negb]; rewrite Em; [reflexivity|]. rewrite <- !app_assoc, Nat.add_1_r. reflexivity.
Qed.

(* the column of layer k *)
Definition layer_column (k : nat) (S : list row) : icolT :=
  match k with
  | O => finalizeT (match rgroups 0 S with (_, vs) :: E => opened (closed E) vs | [] => fun _ => ibuilder_new end)
  | _ => finalizeT (closed (rgroups k S))
  end.

Lemma breaks_0 : forall rest i prev, breaks 0 i prev rest = [].
Proof. induction rest as [|r rest IH]; intros i prev; [reflexivity|]. cbn [breaks firstn]. destruct (row_eq_dec [] []); [apply IH|congruence]. Qed.

Lemma fill_columns_ok : forall n s r0 rest, length r0 = n -> Forall (fun r => length r = n) rest -> column_number s = n ->
  (forall c, c < n -> get_column s c = Ok (column c (r0 :: rest))) ->
  forall m k starts_ types_, k + m = n -> starts_ = breaks k 1 r0 rest ->
  (k = 0 \/ types_ = btypes k r0 rest ++ [ptype (firstn k (last rest r0))]) ->
  fill_columns s starts_ types_ k m = Ok (map (fun j => layer_column j (r0 :: rest)) (seq k m)).
Proof.
  intros n s r0 rest H0 Hr Hn Hcol. induction m as [|m IH]; intros k starts_ types_ Hk Hs Ht; [reflexivity|].
  cbn [fill_columns seq map]. rewrite (Hcol k) by lia. cbn [bind column map fill_column].
  assert (Hfin : match nth_error starts_ 0 with
                 | Some j => if j =? 0 then bind (index types_ 0) (fun t => Ok (matrix_finish t matrix_new, 0 + 1)) else Ok (matrix_new, 0)
                 | None => Ok (matrix_new, 0)
                 end = Ok (matrix_new, 0)).
  { destruct starts_ as [|j st]; [reflexivity|]. cbn [nth_error]. pose proof (breaks_ge k rest 1 r0 j) as Hj. rewrite <- Hs in Hj. specialize (Hj (or_introl eq_refl)).
    destruct (Nat.eqb_spec j 0); [lia|reflexivity]. }
  rewrite Hfin. cbn [bind fst snd]. unfold matrix_add. cbn [matrix_new mx_current mx_builder]. change (0 <? 0) with false. cbn [andb].
  set (lc := k =? column_number s - 1).
  destruct (fill_ok_rest k lc starts_ types_ n ltac:(lia) rest r0 0 1 (mk_matrix (fun _ => ibuilder_new) (Some (nth k r0 dflt))) [] []
             [(firstn k r0, [nth k r0 dflt])]) as (m' & Em & Hm'); try assumption; try lia.
  - exists [], []. auto.
  - destruct Ht as [-> | ->]; [left; reflexivity|right]. eexists. reflexivity.
  - change (0 + 1) with 1. unfold column in Em. rewrite Em. cbn [bind].
    assert (HE : fold_left (gpush k) rest [(firstn k r0, [nth k r0 dflt])] = rgroups k (r0 :: rest)) by reflexivity. rewrite HE in Hm'.
    destruct Hm' as (vs & E' & EE & Hb & Hc).
    assert (Hcommit : mx_builder (commit_value m') = opened (closed E') (nth k (last rest r0) dflt :: vs)).
    { unfold commit_value. rewrite Hc. cbn [mx_builder]. rewrite Hb. reflexivity. }
    assert (Hcolk : (if 0 <? k then match rev types_ with t :: _ => Ok (matrix_finish t m') | [] => Panicked end else Ok (commit_value m')) =
      Ok (if 0 <? k then matrix_finish (ptype (firstn k (last rest r0))) m' else commit_value m')).
    { destruct Ht as [->| ->]; [reflexivity|]. rewrite rev_app_distr. cbn [rev app]. destruct (0 <? k); reflexivity. }
    rewrite Hcolk. cbn [bind].
    assert (Hrest : fill_columns s (if lc then [] else [] ++ breaks (S k) 1 r0 rest)
              (if lc then (if lc then [] else [] ++ btypes (S k) r0 rest) else (if lc then [] else [] ++ btypes (S k) r0 rest) ++ [fst (nth k (last rest r0) dflt)])
              (k + 1) m = Ok (map (fun j => layer_column j (r0 :: rest)) (seq (S k) m))).
    { destruct m as [|m]; [reflexivity|].
      assert (El : lc = false) by (apply Nat.eqb_neq; lia). rewrite El. rewrite Nat.add_1_r. cbn [app]. apply IH; [lia|reflexivity|]. right. f_equal. f_equal.
      symmetry. apply ptype_firstn. assert (Hl : length (last rest r0) = n); [|lia].
      destruct (exists_last (l := r0 :: rest)) as (l' & x & El'); [discriminate|]. rewrite <- (last_default _ rest r0 r0), El', last_last.
      assert (Hin : In x (r0 :: rest)) by (rewrite El'; apply in_or_app; right; left; reflexivity).
      destruct Hin as [<-|Hin]; [exact H0|]. apply (proj1 (Forall_forall _ _) Hr x Hin). }
    rewrite Hrest. cbn [bind]. f_equal. f_equal. unfold layer_column, matrix_finalize. destruct k as [|k].
    + cbn [Nat.ltb Nat.leb]. rewrite EE. rewrite Hcommit. reflexivity.
    + cbn [Nat.ltb Nat.leb matrix_finish mx_builder]. rewrite EE, Hcommit. reflexivity.
Qed.
