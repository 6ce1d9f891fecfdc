(* RowScan enumerates the rows of a tree: the loop. *)
From Coq Require Import List ZArith Bool Lia Arith Sorted.
From Verif Require Import ColumnModel ScanModel ScanSpec TrieModel TrieSpec TrieScanSpec TrieProofs1 TrieProofs2 TrieProofs3 TrieProofs4 TrieProofs6 TrieProofs7 TrieProofs8 TrieProofs10.
Import ListNotations.
Local Open Scope nat_scope.

Lemma removelast_in : forall (fs : list frame) f, In f (removelast fs) -> In f fs.
Proof.
  intros fs f Hf. destruct fs as [|g fs _] using rev_ind; [destruct Hf|]. rewrite removelast_last in Hf. apply in_or_app. left. exact Hf.
Qed.
Section Loop.
Variable n : nat.
Variable types : nat -> list stype.
Variable tau : tree.
Hypothesis Hproper : proper n types tau.
Variable sc : triescan.
Variable strict : bool.
Variable R : tstate sc -> list frame -> Prop.
Hypothesis Hsim : simulates n types tau sc strict R.
Variable e : nat.
Hypothesis He : e < n.
Hypothesis Hne : forall k, k < n -> types k <> [].

(* ---------- the number of steps ---------- *)

Fixpoint cost (m : nat) (p : row) : nat :=
  match m with
  | O => 0
  | S m' => list_sum (map (fun t => S (list_sum (map (fun z => S (cost m' (p ++ [(t, z)]))) (tau p t)))) (types (length p)))
  end.
Definition costv (p : row) (t : stype) (l : list Z) : nat := S (list_sum (map (fun z => S (cost (n - length p - 1) (p ++ [(t, z)]))) l)).
Definition costt (p : row) (ts : list stype) : nat := list_sum (map (fun t => costv p t (tau p t)) ts).
Fixpoint rmu (rfs : list frame) : nat :=
  match rfs with
  | [] => 0
  | (t, c, l) :: rfs' => let p := path (rev rfs') in costv p t l + costt p (later types (length rfs') t) + rmu rfs'
  end.
Definition mu (fs : list frame) : nat := rmu (rev fs).
Lemma mu_snoc : forall (fs : list frame) t c l, mu (fs ++ [(t, c, l)]) = costv (path fs) t l + costt (path fs) (later types (length fs) t) + mu fs.
Proof. intros fs t c l. unfold mu. rewrite rev_app_distr. cbn [rev app rmu]. rewrite rev_involutive, rev_length. reflexivity. Qed.
Lemma cost_unfold : forall p, length p < n -> cost (n - length p) p = costt p (types (length p)).
Proof.
  intros p Hl. unfold costt, costv. destruct (n - length p) as [|m] eqn:Em; [lia|]. replace (S m - 1) with m by lia. reflexivity.
Qed.

(* ---------- the types of a layer ---------- *)

Lemma later_nth : forall l i t, StronglySorted (fun s t => order s < order t) l -> nth_error l i = Some t ->
  filter (fun s => order t <? order s) l = skipn (S i) l.
Proof.
  induction l as [|s l IH]; intros i t Hs Hi; [destruct i; discriminate|]. inversion Hs as [|? ? Hs' Hf]; subst. destruct i as [|i]; cbn in Hi.
  - injection Hi as ->. cbn [filter skipn]. rewrite Nat.ltb_irrefl. clear -Hf. induction l as [|x l IH]; [reflexivity|]. pose proof (Forall_inv Hf) as H1. pose proof (Forall_inv_tail Hf) as H2. cbn beta in H1. cbn [filter].
    destruct (Nat.ltb_spec (order t) (order x)); [|lia]. rewrite IH by assumption. reflexivity.
  - cbn [filter]. pose proof (proj1 (Forall_forall _ _) Hf t (nth_error_In _ _ Hi)) as Hlt. cbn beta in Hlt. destruct (Nat.ltb_spec (order t) (order s)); [lia|].
    rewrite (IH i t Hs' Hi). reflexivity.
Qed.
Lemma later_at : forall k i t, k < n -> nth_error (types k) i = Some t -> later types k t = skipn (S i) (types k).
Proof. intros k i t Hk Hi. apply later_nth; [apply (p_sorted _ _ _ Hproper), Hk|exact Hi]. Qed.
Lemma types_first : forall k, k < n -> exists t, nth_error (types k) 0 = Some t /\ types k = t :: later types k t.
Proof.
  intros k Hk. pose proof (Hne k Hk) as H. destruct (types k) as [|t ts] eqn:E; [congruence|]. exists t. split; [reflexivity|].
  rewrite (later_at k 0 t Hk) by (rewrite E; reflexivity). rewrite E. reflexivity.
Qed.
Lemma later_step : forall k i t, k < n -> nth_error (types k) i = Some t ->
  if i + 1 =? length (types k) then later types k t = []
  else exists t', nth_error (types k) (i + 1) = Some t' /\ later types k t = t' :: later types k t'.
Proof.
  intros k i t Hk Hi. rewrite (later_at k i t Hk Hi). pose proof (nth_Some_lt _ _ _ _ Hi) as Hlt. destruct (Nat.eqb_spec (i + 1) (length (types k))) as [E|N].
  - apply skipn_nil. lia.
  - destruct (nth_lt _ (types k) (i + 1) ltac:(lia)) as [t' Ht']. exists t'. split; [exact Ht'|]. rewrite (later_at k (i + 1) t' Hk Ht').
    rewrite (skipn_nth _ (S i) (types k) t) by lia. rewrite Nat.add_1_r in *. rewrite (nth_error_nth _ _ t Ht'). reflexivity.
Qed.

(* ---------- states ---------- *)

Record rinv (r : rowscan sc) (fs : list frame) : Prop := {
  ri_rel : R (rs_scan _ r) fs;
  ri_good : good n types tau fs;
  ri_types : rs_types _ r = map types (seq 0 n);
  ri_used_len : length (rs_used _ r) = n;
  ri_used : forall k f, nth_error fs k = Some f -> exists i, nth_error (rs_used _ r) k = Some i /\ nth_error (types k) i = Some (f_type f);
  ri_empty : rs_empty _ r = false;
  ri_ex : rs_existential _ r = e;
  ri_row : length (rs_row _ r) = n - e }.

Lemma types_at : forall r fs k, rinv r fs -> k < n -> nth_error (rs_types _ r) k = Some (types k).
Proof.
  intros r fs k I Hk. rewrite (ri_types _ _ I), nth_error_map. rewrite (nth_error_nth' _ 0) by (rewrite seq_length; exact Hk). rewrite seq_nth by exact Hk. reflexivity.
Qed.
Lemma current_type_ok : forall r fs k f, rinv r fs -> nth_error fs k = Some f -> current_type sc r k = Ok (f_type f).
Proof.
  intros r fs k f I Hk. destruct (ri_used _ _ I k f Hk) as (i & Hu & Ht). unfold current_type, type_at. rewrite (index_some _ _ _ _ Hu). cbn [bind].
  pose proof (proj1 (ri_good _ _ I)) as Hl. pose proof (nth_Some_lt _ _ _ _ Hk) as Hlt.
  rewrite (index_some _ _ _ _ (types_at r fs k I ltac:(lia))). cbn [bind]. apply index_some, Ht.
Qed.

(* changing what is scanned *)
Lemma rinv_move : forall r fs t c l s' c' l', rinv r (fs ++ [(t, c, l)]) -> R s' (fs ++ [(t, c', l')]) ->
  good n types tau (fs ++ [(t, c', l')]) -> rinv (with_scan sc r s') (fs ++ [(t, c', l')]).
Proof.
  intros r fs t c l s' c' l' I HR G. constructor; cbn [with_scan rs_scan rs_types rs_used rs_empty rs_existential rs_row]; try apply I; try assumption.
  intros k f Hk. destruct (Nat.lt_ge_cases k (length fs)) as [Hlt|Hge].
  - rewrite nth_error_app1 in Hk by exact Hlt. apply (ri_used _ _ I). rewrite nth_error_app1 by exact Hlt. exact Hk.
  - pose proof (nth_Some_lt _ _ _ _ Hk) as Hk'. rewrite app_length in Hk'. cbn in Hk'. assert (k = length fs) by flia. subst k.
    rewrite nth_snoc in Hk. injection Hk as <-. apply (ri_used _ _ I (length fs) (t, c, l)). apply nth_snoc.
Qed.
Lemma rinv_up : forall r fs f s', rinv r (fs ++ [f]) -> R s' fs -> rinv (with_scan sc r s') fs.
Proof.
  intros r fs f s' I HR. constructor; cbn [with_scan rs_scan rs_types rs_used rs_empty rs_existential rs_row]; try apply I; try assumption.
  - apply (proj1 (good_snoc n types tau fs f) (ri_good _ _ I)).
  - intros k g Hk. apply (ri_used _ _ I). rewrite nth_error_app1; [exact Hk|eapply nth_Some_lt, Hk].
Qed.
Lemma rinv_used : forall r fs u, rinv r fs -> length u = n -> (forall k, k < length fs -> nth_error u k = nth_error (rs_used _ r) k) -> rinv (with_used sc r u) fs.
Proof.
  intros r fs u I Hu H. constructor; cbn [with_used rs_scan rs_types rs_used rs_empty rs_existential rs_row]; try apply I; try assumption.
  intros k f Hk. rewrite H by (eapply nth_Some_lt, Hk). apply (ri_used _ _ I), Hk.
Qed.
(* a new frame with the i-th type *)
Lemma rinv_down : forall r fs i t, rinv r fs -> on_values fs -> length fs < n -> nth_error (types (length fs)) i = Some t ->
  exists s', ts_down sc t (rs_scan _ r) = Ok s' /\
    rinv (with_scan sc (with_used sc r (set_nth (length fs) i (rs_used _ r))) s') (fs ++ [(t, None, tau (path fs) t)]).
Proof.
  intros r fs i t I Hv Hl Ht. destruct (e_down _ _ _ _ _ _ Hsim (rs_scan _ r) fs t (ri_rel _ _ I) Hv Hl) as (s' & E & HR).
  exists s'. split; [exact E|]. constructor; cbn [with_scan with_used rs_scan rs_types rs_used rs_empty rs_existential rs_row]; try apply I; try assumption.
  - apply good_snoc. split; [apply I|]. split; [exact Hl|]. split; [eapply nth_error_In, Ht|]. exists []. reflexivity.
  - rewrite set_nth_length. apply I.
  - intros k f Hk. destruct (Nat.lt_ge_cases k (length fs)) as [Hlt|Hge].
    + rewrite nth_error_app1 in Hk by exact Hlt. rewrite set_nth_other by flia. apply (ri_used _ _ I), Hk.
    + pose proof (nth_Some_lt _ _ _ _ Hk) as Hk'. rewrite app_length in Hk'. cbn in Hk'. assert (k = length fs) by flia. subst k.
      rewrite nth_snoc in Hk. injection Hk as <-. exists i. split; [apply set_nth_same; rewrite (ri_used_len _ _ I); exact Hl|exact Ht].
Qed.

(* going up from a complete row *)
Lemma up_ok : forall j fs gs s, R s (fs ++ gs) -> length gs = j -> exists s', up_times sc j s = Ok s' /\ R s' fs.
Proof.
  induction j as [|j IH]; intros fs gs s HR Hl.
  - destruct gs; [|discriminate]. rewrite app_nil_r in HR. exists s. auto.
  - destruct gs as [|g gs _] using rev_ind; [discriminate|]. rewrite app_length in Hl. cbn in Hl. rewrite app_assoc in HR.
    destruct (e_up _ _ _ _ _ _ Hsim s (fs ++ gs) g HR) as (s1 & E & HR1). cbn [up_times]. rewrite E. cbn [bind]. apply (IH fs gs s1 HR1). lia.
Qed.
Lemma remaining_drop : forall gs fs, good n types tau (fs ++ gs) -> on_values (fs ++ gs) ->
  exists sib, remaining n types tau (fs ++ gs) = sib ++ remaining n types tau fs /\
    forall y, In y sib -> length y = n /\ firstn (length fs) y = path fs.
Proof.
  induction gs as [|g gs IH] using rev_ind; intros fs G Hv.
  - exists []. rewrite app_nil_r. split; [reflexivity|intros y []].
  - rewrite app_assoc in *. apply good_snoc in G. destruct G as (G & Hl & _). 
    destruct (IH fs G) as (sib & E & Hsib); [intros f Hf; apply Hv, in_or_app; left; exact Hf|].
    destruct g as [[t c] l]. rewrite remaining_snoc, E.
    exists (under_values n types tau (path (fs ++ gs)) t l ++ under_types n types tau (path (fs ++ gs)) (later types (length (fs ++ gs)) t) ++ sib).
    split; [rewrite <- !app_assoc; reflexivity|]. intros y Hy.
    assert (Hp : forall w q, firstn (length fs) (path (fs ++ gs) ++ w :: q) = path fs).
    { intros w q. unfold path. rewrite map_app, <- app_assoc. rewrite <- (map_length f_value fs). rewrite firstn_app, firstn_all, Nat.sub_diag, firstn_O, app_nil_r. reflexivity. }
    apply in_app_or in Hy. destruct Hy as [Hy|Hy]; [|apply in_app_or in Hy; destruct Hy as [Hy|Hy]].
    + apply (under_values_in n types tau Hproper) in Hy; [|rewrite path_length; exact Hl]. destruct Hy as (z & q & _ & -> & Hy). auto.
    + apply (under_types_in n types tau Hproper) in Hy; [|rewrite path_length; exact Hl]. destruct Hy as (s & z & q & _ & _ & -> & Hy). auto.
    + apply Hsib, Hy.
Qed.

(* the values of a complete row *)
Lemma on_values_prefix : forall fs gs, on_values (fs ++ gs) -> on_values fs.
Proof. intros fs gs H f Hf. apply H, in_or_app. left. exact Hf. Qed.
Lemma values_ok : forall r fs m, rinv r fs -> on_values fs -> m <= length fs ->
  map_res (fun l => bind (current_type sc r l) (fun t => bind (ts_current sc l t (rs_scan _ r)) (fun o =>
             match o with Some v => Ok (t, v) | None => Panicked end))) (seq 0 m) = Ok (firstn m (path fs)).
Proof.
  intros r fs m I Hv Hm.
  rewrite (map_res_ok _ _ _ (fun k => nth k (path fs) dflt)).
  - f_equal. clear -Hm. rewrite <- (path_length fs) in Hm. revert m Hm. generalize (path fs). intros p m Hm. revert m Hm. induction p as [|v p IH]; intros [|m] Hm; try reflexivity.
    + cbn in Hm. lia.
    + cbn [seq map nth firstn]. f_equal. rewrite <- seq_shift, map_map. apply IH. cbn in Hm. lia.
  - intros k Hk. apply in_seq in Hk. destruct (nth_lt _ fs k ltac:(lia)) as [[[t c] l] Hf].
    rewrite (current_type_ok r fs k _ I Hf). cbn [bind f_type fst]. apply nth_error_split in Hf. destruct Hf as (f1 & f2 & Ef & Hl).
    assert (Hc : c <> None) by (apply (Hv (t, c, l)); rewrite Ef; apply in_or_app; right; left; reflexivity).
    pose proof (ri_rel _ _ I) as HR. rewrite Ef in HR. rewrite <- Hl. rewrite (e_current _ _ _ _ _ _ Hsim _ f1 t c l f2 HR) by (right; exact Hc).
    cbn [bind]. destruct c as [v|]; [|congruence]. f_equal. unfold path. rewrite Ef, map_app. rewrite app_nth2 by (rewrite map_length; flia).
    rewrite map_length, Nat.sub_diag. reflexivity.
Qed.

(* p0 is the row reported last: the columns before the first changed one are as in p0 *)
Record changes (c : nat) (fs : list frame) (p0 : row) : Prop := {
  ch_prefix : firstn (Nat.min c (length fs)) (path fs) = firstn (Nat.min c (length fs)) p0;
  ch_low : length fs <= c -> on_values fs;
  ch_new : forall y, In y (remaining n types tau fs) -> firstn (S c) y <> firstn (S c) p0 }.

Definition outcome (r r' : rowscan sc) (fs : list frame) : Prop :=
  match remaining n types tau fs with
  | [] => ts_layer sc (rs_scan _ r') = None /\ rs_existential _ r' = e /\ ts_arity sc (rs_scan _ r') = n
  | x :: rest =>
      exists fs' sib, rinv r' fs' /\ on_values fs' /\ length fs' = n - e /\ length x = n /\ path fs' = firstn (n - e) x /\
        rs_row _ r' = firstn (n - e) x /\ rest = sib ++ remaining n types tau fs' /\
        (forall y, In y sib -> firstn (n - e) y = firstn (n - e) x) /\
        rs_change _ r' <= rs_change _ r /\
        forall p0, changes (rs_change _ r) fs p0 ->
          firstn (rs_change _ r') x = firstn (rs_change _ r') p0 /\ firstn (S (rs_change _ r')) x <> firstn (S (rs_change _ r')) p0
  end.

Lemma layer_snoc : forall (fs : list frame) f, layer_of (fs ++ [f]) = Some (length fs).
Proof. intros fs f. unfold layer_of. destruct (fs ++ [f]) eqn:E; [destruct fs; discriminate|]. rewrite <- E, app_length. cbn. f_equal. lia. Qed.

Lemma outcome_cong : forall r r3 r' fs fs2, remaining n types tau fs = remaining n types tau fs2 -> rs_change _ r3 <= rs_change _ r ->
  (forall p0, changes (rs_change _ r) fs p0 -> changes (rs_change _ r3) fs2 p0) -> outcome r3 r' fs2 -> outcome r r' fs.
Proof.
  intros r r3 r' fs fs2 Hrem Hle Hc Ho. unfold outcome in *. rewrite Hrem. destruct (remaining n types tau fs2) as [|x rest] eqn:Er; [exact Ho|].
  destruct Ho as (fs' & sib & O1 & O2 & O3 & O4 & O5 & O6 & O7 & O8 & O9 & O10). exists fs', sib. do 8 (split; [assumption|]).
  split; [lia|]. intros p0 Hp0. apply O10, Hc, Hp0.
Qed.

Theorem loop_ok : forall N r fs, mu fs < N -> rinv r fs -> on_values (removelast fs) ->
  exists enough r', (forall fuel, enough <= fuel -> advance_loop sc fuel r = Ok r') /\ outcome r r' fs.
Proof.
  induction N as [|N IH]; intros r fs Hmu I Hv; [lia|].
  destruct fs as [|[[t c] l] fs _] using rev_ind.
  - exists 0, r. split.
    + intros fuel _. destruct (e_layer _ _ _ _ _ _ Hsim _ _ (ri_rel _ _ I)) as [_ El]. destruct fuel; cbn [advance_loop]; rewrite El; reflexivity.
    + unfold outcome. cbn. split; [apply (e_layer _ _ _ _ _ _ Hsim _ _ (ri_rel _ _ I))|]. split; [apply (ri_ex _ _ I)|]. apply (e_arity _ _ _ _ _ _ Hsim _ _ (ri_rel _ _ I)).
  - rewrite removelast_last in Hv. pose proof (ri_good _ _ I) as G. apply good_snoc in G. destruct G as (G & Hl & Gt & gone & Gg). cbn [f_type f_current fst snd] in Gt, Gg.
    set (k := length fs) in *. set (ch := if k <? rs_change _ r then k else rs_change _ r).
    assert (Hch : ch = Nat.min k (rs_change _ r)) by (unfold ch; destruct (Nat.ltb_spec k (rs_change _ r)); lia).
    set (r1 := mk_rowscan sc (rs_scan _ r) (rs_empty _ r) (rs_types _ r) (rs_used _ r) (rs_single _ r) (rs_existential _ r) (rs_row _ r) ch).
    assert (I1 : rinv r1 (fs ++ [(t, c, l)])) by (constructor; apply I).
    destruct (e_ask _ _ _ _ _ _ Hsim RNext (rs_scan _ r1) fs t c l (ri_rel _ _ I1)) as (en1 & s1 & Enext & HR1). cbn [after ts_ask] in Enext, HR1. fold k in Enext.
    destruct (e_layer _ _ _ _ _ _ Hsim _ _ (ri_rel _ _ I)) as [_ El]. rewrite layer_snoc in El. fold k in El.
    (* the changes relation survives the visit of layer k *)
    assert (Hchange : forall p0, changes (rs_change _ r) (fs ++ [(t, c, l)]) p0 ->
      firstn ch (path fs) = firstn ch p0 /\ forall y, In y (remaining n types tau (fs ++ [(t, c, l)])) -> firstn (S ch) y <> firstn (S ch) p0).
    { intros p0 [C1 C2 C3]. rewrite app_length in C1, C2. cbn [length] in C1, C2. fold k in C1, C2.
      assert (Hpre : firstn ch (path fs) = firstn ch p0).
      { apply (f_equal (firstn ch)) in C1. rewrite !firstn_firstn in C1. rewrite path_snoc in C1. replace (Nat.min ch (Nat.min (rs_change sc r) (k + 1))) with ch in C1 by lia.
        rewrite firstn_app in C1. rewrite path_length in C1. fold k in C1. replace (ch - k) with 0 in C1 by lia. rewrite firstn_O, app_nil_r in C1. exact C1. }
      split; [exact Hpre|]. destruct (Nat.lt_ge_cases k (rs_change _ r)) as [Hlt|Hge].
      - intros y Hy. specialize (C2 ltac:(lia)). replace ch with k in * by lia.
        destruct (remaining_after n types tau Hproper _ (ri_good _ _ I) C2 y Hy) as [_ Hlty]. rewrite app_length in Hlty. cbn [length] in Hlty. fold k in Hlty.
        rewrite Nat.min_r in C1 by lia. rewrite firstn_all2 in C1 by (rewrite path_length, app_length; cbn; flia). 
        intros Heq. rewrite <- Nat.add_1_r in Heq.
        pose proof (eq_ind _ (fun q => row_lt q (firstn (k + 1) y)) Hlty _ C1) as Hlt2. exact (row_lt_irrefl _ (eq_ind _ (fun q => row_lt (firstn (k + 1) p0) q) Hlt2 _ Heq)).
      - intros y Hy. replace ch with (rs_change _ r) by lia. apply C3, Hy. }
    assert (Hunder : forall z, under_values n types tau (path fs) t (z :: tl l) = under n types tau (path fs ++ [(t, z)]) ++ under_values n types tau (path fs) t (tl l)) by reflexivity.
    destruct l as [|z l]; cbn [hd_error tl] in *.
    + (* the layer is exhausted for this type *)
      destruct (e_up _ _ _ _ _ _ Hsim s1 fs _ HR1) as (s2 & Eup & HR2).
      set (r2 := with_scan sc (with_scan sc r1 s1) s2).
      assert (I2 : rinv r2 fs).
      { change r2 with (with_scan sc r1 s2). eapply rinv_up; [exact I1|exact HR2]. }
      destruct (ri_used _ _ I (length fs) (t, c, []) (nth_snoc _ _ _)) as (i & Hu & Hi). cbn [f_type fst] in Hi. fold k in Hu, Hi.
      pose proof (later_step k i t Hl Hi) as Hlater.
      assert (Hnt : next_type sc r2 k = if i + 1 =? length (types k) then Ok (with_used sc r2 (set_nth k 0 (rs_used _ r)), None)
        else bind (index (types k) (i + 1)) (fun t' => Ok (with_used sc r2 (set_nth k (i + 1) (rs_used _ r)), Some t'))).
      { unfold next_type. change (rs_used sc r2) with (rs_used _ r). rewrite (index_some _ _ _ _ Hu). cbn [bind].
        rewrite (index_some _ _ _ _ (types_at r2 fs k I2 Hl)). cbn [bind]. rewrite !put_ok by (rewrite (ri_used_len _ _ I); exact Hl). reflexivity. }
      assert (Hloop : forall fuel, en1 <= fuel -> advance_loop sc (S fuel) r =
        bind (next_type sc r2 k) (fun rt => match snd rt with
              | Some t => bind (ts_down sc t (rs_scan _ (fst rt))) (fun s => advance_loop sc fuel (with_scan sc (fst rt) s))
              | None => advance_loop sc fuel (fst rt) end)).
      { intros fuel Hf. cbn [advance_loop]. rewrite El. rewrite (current_type_ok r _ k _ I (nth_snoc _ _ _)). cbn [bind f_type fst]. fold ch. fold r1.
        rewrite (Enext fuel Hf). cbn [bind fst snd]. change (rs_scan sc (with_scan sc r1 s1)) with s1. rewrite Eup. cbn [bind]. reflexivity. }
      rewrite Hnt in Hloop. destruct (i + 1 =? length (types k)) eqn:Elast.
      * (* no more types: go up *)
        set (r3 := with_used sc r2 (set_nth k 0 (rs_used _ r))) in *.
        assert (I3 : rinv r3 fs).
        { apply rinv_used; [exact I2|rewrite set_nth_length; apply I|]. intros j Hj. apply set_nth_other. fold k in Hj. lia. }
        assert (Hrem : remaining n types tau (fs ++ [(t, c, [])]) = remaining n types tau fs).
        { rewrite remaining_snoc. fold k. rewrite Hlater. reflexivity. }
        assert (Hmu' : mu fs < N). { rewrite mu_snoc in Hmu. unfold costv in Hmu. lia. }
        destruct (IH r3 fs Hmu' I3) as (en & r' & E & Ho).
        { intros f Hf. apply Hv. exact (removelast_in fs f Hf). }
        exists (S (en1 + en)), r'. split.
        -- intros [|fuel] Hf; [lia|]. rewrite Hloop by lia. cbn [bind fst snd]. apply E. lia.
        -- apply (outcome_cong r r3 r' _ _ Hrem); [change (rs_change sc r3) with ch; lia| |exact Ho].
           intros p0 Hp0. change (rs_change sc r3) with ch. destruct (Hchange p0 Hp0) as [H1 H2]. constructor.
           ++ replace (Nat.min ch (length fs)) with ch by lia. exact H1.
           ++ intros _. exact Hv.
           ++ intros y Hy. apply H2. exact (eq_ind_r (fun q => In y q) Hy Hrem).
      * (* the next type *)
        destruct Hlater as (t' & Ht' & Elater). rewrite (index_some _ _ _ _ Ht') in Hloop. cbn [bind fst snd] in Hloop.
        destruct (rinv_down r2 fs (i + 1) t' I2 Hv Hl Ht') as (s3 & Edown & I3). fold k in I3. change (rs_used sc r2) with (rs_used _ r) in I3.
        change (rs_scan sc (with_used sc r2 (set_nth k (i + 1) (rs_used sc r)))) with (rs_scan _ r2) in Hloop. rewrite Edown in Hloop. cbn [bind] in Hloop.
        set (r3 := with_scan sc (with_used sc r2 (set_nth k (i + 1) (rs_used sc r))) s3) in *.
        assert (Hrem : remaining n types tau (fs ++ [(t, c, [])]) = remaining n types tau (fs ++ [(t', None, tau (path fs) t')])).
        { rewrite !remaining_snoc. fold k. rewrite Elater. unfold under_types at 1. cbn [map concat]. rewrite <- app_assoc. reflexivity. }
        assert (Hmu' : mu (fs ++ [(t', None, tau (path fs) t')]) < N).
        { rewrite mu_snoc in Hmu |- *. fold k in Hmu |- *. rewrite Elater in Hmu. unfold costt in Hmu. cbn [map list_sum fold_right] in Hmu. unfold costv at 1 in Hmu. cbn [map] in Hmu.
          change (fold_right Nat.add 0) with list_sum in *. cbn [list_sum fold_right] in Hmu. unfold costt. lia. }
        destruct (IH r3 _ Hmu' I3) as (en & r' & E & Ho); [rewrite removelast_last; exact Hv|].
        exists (S (en1 + en)), r'. split.
        -- intros [|fuel] Hf; [lia|]. rewrite Hloop by lia. apply E. lia.
        -- apply (outcome_cong r r3 r' _ _ Hrem); [change (rs_change sc r3) with ch; lia| |exact Ho].
           intros p0 Hp0. change (rs_change sc r3) with ch. destruct (Hchange p0 Hp0) as [H1 H2]. constructor.
           ++ rewrite app_length. cbn [length]. fold k. replace (Nat.min ch (k + 1)) with ch by lia. rewrite path_snoc, firstn_app, path_length. fold k.
              replace (ch - k) with 0 by lia. rewrite firstn_O, app_nil_r. exact H1.
           ++ rewrite app_length. cbn [length]. fold k. lia.
           ++ intros y Hy. apply H2. exact (eq_ind_r (fun q => In y q) Hy Hrem).
    + (* a value *)
      assert (G1 : good n types tau (fs ++ [(t, Some z, l)])).
      { apply good_snoc. split; [exact G|]. split; [exact Hl|]. split; [exact Gt|]. cbn [f_type f_current fst snd ahead].
        exists (gone ++ match c with Some x => [x] | None => [] end). rewrite Gg, <- app_assoc. destruct c; reflexivity. }
      set (r2 := with_scan sc r1 s1). assert (I2 : rinv r2 (fs ++ [(t, Some z, l)])) by (eapply rinv_move; eassumption).
      assert (Hv2 : on_values (fs ++ [(t, Some z, l)])).
      { intros f Hf. apply in_app_or in Hf. destruct Hf as [Hf|[<-|[]]]; [apply Hv, Hf|discriminate]. }
      assert (Hloop : forall fuel, en1 <= fuel -> advance_loop sc (S fuel) r =
        if k =? n - 1 then
          bind (map_res (fun l => bind (current_type sc r2 l) (fun t => bind (ts_current sc l t (rs_scan _ r2)) (fun o =>
             match o with Some v => Ok (t, v) | None => Panicked end))) (seq 0 (length (rs_row _ r2)))) (fun values =>
          bind (up_times sc (rs_existential _ r2) (rs_scan _ r2)) (fun s =>
          Ok (mk_rowscan sc s (rs_empty _ r2) (rs_types _ r2) (rs_used _ r2) Value (rs_existential _ r2) values (rs_change _ r2))))
        else
          bind (first_type sc r2 (k + 1)) (fun rt => bind (ts_down sc (snd rt) (rs_scan _ (fst rt))) (fun s => advance_loop sc fuel (with_scan sc (fst rt) s)))).
      { intros fuel Hf. cbn [advance_loop]. rewrite El. rewrite (current_type_ok r _ k _ I (nth_snoc _ _ _)). cbn [bind f_type fst]. fold ch. fold r1.
        rewrite (Enext fuel Hf). cbn [bind fst snd]. fold r2. rewrite (e_arity _ _ _ _ _ _ Hsim _ _ (ri_rel _ _ I2)). reflexivity. }
      assert (Hp1 : path (fs ++ [(t, Some z, l)]) = path fs ++ [(t, z)]) by (rewrite path_snoc; reflexivity).
      assert (Hrem : remaining n types tau (fs ++ [(t, c, z :: l)]) = under n types tau (path fs ++ [(t, z)]) ++ remaining n types tau (fs ++ [(t, Some z, l)])).
      { rewrite !remaining_snoc. change (under_values n types tau (path fs) t (z :: l)) with (under n types tau (path fs ++ [(t, z)]) ++ under_values n types tau (path fs) t l).
        rewrite <- app_assoc. reflexivity. }
      assert (Hlp : length (path fs ++ [(t, z)]) = k + 1) by (rewrite app_length, path_length; reflexivity).
      destruct (Nat.eqb_spec k (n - 1)) as [Ek|Nk].
      * (* a complete row *)
        rewrite (ri_row _ _ I2) in Hloop. rewrite (values_ok r2 _ (n - e) I2 Hv2) in Hloop by (rewrite app_length; cbn [length]; fold k; lia).
        cbn [bind] in Hloop. rewrite (ri_ex _ _ I2) in Hloop.
        set (F := firstn (n - e) (fs ++ [(t, Some z, l)])). set (H_ := skipn (n - e) (fs ++ [(t, Some z, l)])).
        assert (EF : fs ++ [(t, Some z, l)] = F ++ H_) by (symmetry; apply firstn_skipn).
        assert (LF : length F = n - e) by (unfold F; apply firstn_length_le; rewrite app_length; cbn [length]; fold k; lia).
        assert (LH : length H_ = e) by (unfold H_; rewrite skipn_length, app_length; cbn [length]; fold k; lia).
        pose proof (ri_rel _ _ I2) as HRf. rewrite EF in HRf.
        destruct (up_ok e F H_ (rs_scan _ r2) HRf LH) as (s3 & Eup & HR3). rewrite Eup in Hloop. cbn [bind] in Hloop.
        eexists (S en1), _. split; [intros [|fuel] Hf; [lia|]; apply Hloop; lia|].
        unfold outcome. rewrite under_full in Hrem by lia. cbn [app] in Hrem.
        match goal with |- match ?X with _ => _ end => replace X with ((path fs ++ [(t, z)]) :: remaining n types tau (fs ++ [(t, Some z, l)])) by (symmetry; exact Hrem) end.
        rewrite EF in G1, Hv2. destruct (remaining_drop H_ F G1 Hv2) as (sib & Esib & Hsib).
        assert (HpF : path F = firstn (n - e) (path fs ++ [(t, z)])).
        { rewrite <- Hp1. unfold F, path. rewrite firstn_map. reflexivity. }
        exists F, sib. split; [|split; [|split; [|split; [|split; [|split; [|split; [|split; [|split]]]]]]]].
        -- constructor; cbn [rs_scan rs_types rs_used rs_empty rs_existential rs_row].
           ++ exact HR3.
           ++ assert (Hg : forall gs hs, good n types tau (gs ++ hs) -> good n types tau gs).
              { intros gs hs. induction hs as [|h hs IHh] using rev_ind; [rewrite app_nil_r; auto|]. rewrite app_assoc. intros Hg. apply good_snoc in Hg. apply IHh, Hg. }
              eapply Hg, G1.
           ++ apply I.
           ++ apply I.
           ++ intros j f Hj. apply (ri_used _ _ I2). rewrite EF. rewrite nth_error_app1; [exact Hj|eapply nth_Some_lt, Hj].
           ++ apply I.
           ++ reflexivity.
           ++ rewrite firstn_length_le; [reflexivity|]. rewrite path_length, app_length. cbn [length]. fold k. lia.
        -- apply on_values_prefix in Hv2. exact Hv2.
        -- exact LF.
        -- lia.
        -- exact HpF.
        -- cbn [rs_row]. rewrite Hp1. reflexivity.
        -- rewrite EF. exact Esib.
        -- intros y Hy. destruct (Hsib y Hy) as [_ Hy']. rewrite LF in Hy'. rewrite Hy'. exact HpF.
        -- cbn [rs_change with_scan r2 r1]. lia.
        -- cbn [rs_change with_scan r2 r1]. intros p0 Hp0. destruct (Hchange p0 Hp0) as [H1 H2]. split.
           ++ rewrite firstn_app, path_length. fold k. replace (ch - k) with 0 by lia. rewrite firstn_O, app_nil_r. exact H1.
           ++ apply H2. eapply (eq_ind_r (fun q => In _ q)); [|exact Hrem]. left. reflexivity.
      * (* down to the next layer *)
        assert (Hl2 : length (fs ++ [(t, Some z, l)]) = k + 1) by (rewrite app_length; reflexivity).
        destruct (types_first (k + 1) ltac:(lia)) as (t' & Ht' & Et').
        assert (Hft : first_type sc r2 (k + 1) = Ok (with_used sc r2 (set_nth (k + 1) 0 (rs_used _ r)), t')).
        { unfold first_type, type_at. rewrite (index_some _ _ _ _ (types_at r2 _ (k + 1) I2 ltac:(lia))). cbn [bind]. rewrite (index_some _ _ _ _ Ht'). cbn [bind].
          change (rs_used sc r2) with (rs_used _ r). rewrite put_ok by (rewrite (ri_used_len _ _ I); lia). reflexivity. }
        rewrite Hft in Hloop. cbn [bind fst snd] in Hloop.
        destruct (rinv_down r2 (fs ++ [(t, Some z, l)]) 0 t' I2 Hv2 ltac:(flia)) as (s3 & Edown & I3); [rewrite Hl2; exact Ht'|].
        change (rs_scan sc (with_used sc r2 (set_nth (k + 1) 0 (rs_used sc r)))) with (rs_scan _ r2) in Hloop. rewrite Edown in Hloop. cbn [bind] in Hloop.
        rewrite Hl2 in I3. change (rs_used sc r2) with (rs_used _ r) in I3.
        set (r3 := with_scan sc (with_used sc r2 (set_nth (k + 1) 0 (rs_used sc r))) s3) in *.
        set (fs2 := (fs ++ [(t, Some z, l)]) ++ [(t', None, tau (path (fs ++ [(t, Some z, l)])) t')]) in *.
        assert (Hrem2 : remaining n types tau (fs ++ [(t, c, z :: l)]) = remaining n types tau fs2).
        { rewrite Hrem. unfold fs2. rewrite (remaining_snoc n types tau (fs ++ [(t, Some z, l)])). rewrite Hl2, Hp1. rewrite under_unfold by lia. rewrite Hlp.
          rewrite Et' at 1. unfold under_types at 1. cbn [map concat]. rewrite <- app_assoc. reflexivity. }
        assert (Hmu' : mu fs2 < N).
        { unfold fs2. rewrite mu_snoc. rewrite Hl2, Hp1. rewrite mu_snoc in Hmu |- *. fold k in Hmu |- *. unfold costv at 1 in Hmu. cbn [map list_sum fold_right] in Hmu.
          rewrite path_length in Hmu. fold k in Hmu. replace (n - k - 1) with (n - length (path fs ++ [(t, z)])) in Hmu at 1 by lia. rewrite cost_unfold in Hmu by lia.
          rewrite Hlp in Hmu. rewrite Et' in Hmu at 1. unfold costt at 1 in Hmu. cbn [map list_sum fold_right] in Hmu. unfold costt at 1.
          replace (costv (path fs) t l) with (S (list_sum (map (fun z : Z => S (cost (n - k - 1) (path fs ++ [(t, z)]))) l))) by (unfold costv; rewrite path_length; reflexivity).
          unfold list_sum in *. lia. }
        destruct (IH r3 fs2 Hmu' I3) as (en & r' & E & Ho); [unfold fs2; rewrite removelast_last; exact Hv2|].
        exists (S (en1 + en)), r'. split.
        -- intros [|fuel] Hf; [lia|]. rewrite Hloop by lia. apply E. lia.
        -- apply (outcome_cong r r3 r' _ _ Hrem2); [change (rs_change sc r3) with ch; lia| |exact Ho].
           intros p0 Hp0. change (rs_change sc r3) with ch. destruct (Hchange p0 Hp0) as [H1 H2]. constructor.
           ++ assert (Hlen2 : length fs2 = k + 2) by (unfold fs2; rewrite app_length, Hl2; cbn; lia). rewrite Hlen2.
              replace (Nat.min ch (k + 2)) with ch by lia. unfold fs2. rewrite path_snoc, Hp1. rewrite <- app_assoc, firstn_app, path_length. fold k.
              replace (ch - k) with 0 by lia. rewrite firstn_O, app_nil_r. exact H1.
           ++ unfold fs2. rewrite app_length, Hl2. cbn [length]. lia.
           ++ intros y Hy. apply H2. exact (eq_ind_r (fun q => In y q) Hy Hrem2).
Qed.
End Loop.
