(* Run-length encoded columns: blocks, positions, binary search, and the builder. *)
From Coq Require Import List ZArith Bool Lia Sorted.
From Verif Require Import ColumnModel ColumnSpec ColumnProofs.
Import ListNotations.
Local Open Scope nat_scope.

(* ---------- slice::binary_search ---------- *)

Section Search.
Variable A : Type.
Variable cmp : A -> comparison.
Variable l : list A.

Lemma bs_loop_spec : forall fuel base size, 1 <= size -> base + size <= length l -> size <= S fuel ->
  (base = 0 \/ exists x, nth_error l base = Some x /\ cmp x <> Gt) ->
  exists base', bs_loop cmp l fuel base size = Ok base' /\ base' < length l /\
    (base' = 0 \/ exists x, nth_error l base' = Some x /\ cmp x <> Gt) /\
    ((forall i j x y, i <= j -> nth_error l i = Some x -> nth_error l j = Some y -> cmp x = Gt -> cmp y = Gt) ->
     (forall i x, base + size <= i -> nth_error l i = Some x -> cmp x = Gt) ->
     forall i x, base' < i -> nth_error l i = Some x -> cmp x = Gt).
Proof.
  induction fuel as [|fuel IH]; intros base size H1 H2 Hf Hb.
  - assert (size = 1) by lia. subst size. cbn. exists base. repeat split; try lia; [exact Hb|].
    intros _ H i x Hi Hx. apply (H i x); [lia|exact Hx].
  - cbn [bs_loop]. destruct (Nat.ltb_spec 1 size) as [Hs|Hs].
    2:{ exists base. repeat split; try lia; [exact Hb|]. intros _ H i x Hi Hx. apply (H i x); [lia|exact Hx]. }
    pose proof (Nat.div_mod size 2 ltac:(lia)) as Hd. pose proof (Nat.mod_upper_bound size 2 ltac:(lia)).
    set (half := size / 2) in *. destruct (index_lt _ l (base + half)) as (x & Ex & Hx); [lia|].
    rewrite Ex. cbn [bind]. destruct (cmp x) eqn:Hc.
    + destruct (IH (base + half) (size - half)) as (b' & E & Hlt & Hb' & Hg); [lia|lia|lia|right; exists x; split; [exact Hx|congruence]|].
      exists b'. repeat split; [exact E|exact Hlt|exact Hb'|]. intros Hm H'. apply Hg; [exact Hm|].
      intros i y Hi. apply H'. lia.
    + destruct (IH (base + half) (size - half)) as (b' & E & Hlt & Hb' & Hg); [lia|lia|lia|right; exists x; split; [exact Hx|congruence]|].
      exists b'. repeat split; [exact E|exact Hlt|exact Hb'|]. intros Hm H'. apply Hg; [exact Hm|].
      intros i y Hi. apply H'. lia.
    + destruct (IH base (size - half)) as (b' & E & Hlt & Hb' & Hg); [lia|lia|lia|exact Hb|].
      exists b'. repeat split; [exact E|exact Hlt|exact Hb'|]. intros Hm H'. apply Hg; [exact Hm|].
      intros i y Hi Hy. apply (Hm (base + half) i x y); [lia|exact Hx|exact Hy|exact Hc].
Qed.

Lemma binary_search_spec : exists r, binary_search cmp l = Ok r /\
  match r with
  | Found j => exists x, nth_error l j = Some x /\ cmp x = Eq
  | Insert j =>
      j <= length l /\
      (1 <= j -> exists x, nth_error l (j - 1) = Some x /\ cmp x = Lt) /\
      ((forall i j x y, i <= j -> nth_error l i = Some x -> nth_error l j = Some y -> cmp x = Gt -> cmp y = Gt) ->
       forall i x, j <= i -> nth_error l i = Some x -> cmp x = Gt)
  end.
Proof.
  unfold binary_search. destruct l as [|a l'] eqn:El.
  - eexists. split; [reflexivity|]. cbn. repeat split; try lia. intros _ i x _ Hx. destruct i; discriminate.
  - rewrite <- El. assert (Hl : 1 <= length l) by (rewrite El; cbn; lia). destruct (bs_loop_spec (length l) 0 (length l)) as (b & E & Hb & H0 & Hg); [lia|lia|lia|left; reflexivity|].
    rewrite E. cbn [bind]. destruct (index_lt _ l b Hb) as (x & Ex & Hx). rewrite Ex. cbn [bind].
    assert (Hgt : (forall i j x y, i <= j -> nth_error l i = Some x -> nth_error l j = Some y -> cmp x = Gt -> cmp y = Gt) ->
       forall i x, b < i -> nth_error l i = Some x -> cmp x = Gt).
    { intros Hm. apply Hg; [exact Hm|]. intros i y Hi Hy. assert (nth_error l i <> None) as Hn by congruence. apply nth_error_Some in Hn. lia. }
    eexists. split; [reflexivity|]. destruct (cmp x) eqn:Hc.
    + exists x. auto.
    + split; [lia|]. split.
      * intros _. exists x. replace (b + 1 - 1) with b by lia. auto.
      * intros Hm i y Hi. apply Hgt; [exact Hm|lia].
    + destruct H0 as [->|(y & Hy & Hcy)]; [|exfalso; congruence]. split; [lia|]. split; [lia|].
      intros Hm i y Hi Hy. destruct i as [|i]; [congruence|]. apply (Hgt Hm (S i)); [lia|exact Hy].
Qed.
End Search.

(* ---------- blocks ---------- *)

Definition block (e : element) : list Z :=
  map (fun i => (evalue e + eincrement e * Z.of_nat i)%Z) (seq 0 (elength e)).
Definition expand (es : list element) : list Z := flat_map block es.

Definition total (es : list element) : nat := list_sum (map elength es).
Definition start (es : list element) (e : nat) : nat := total (firstn e es).

Lemma total_cons : forall x es, total (x :: es) = elength x + total es.
Proof. reflexivity. Qed.
Lemma start_cons : forall x es e, start (x :: es) (S e) = elength x + start es e.
Proof. reflexivity. Qed.
Lemma start_0 : forall es, start es 0 = 0.
Proof. reflexivity. Qed.

Lemma block_length : forall e, length (block e) = elength e.
Proof. intros e. unfold block. rewrite map_length, seq_length. reflexivity. Qed.

Lemma expand_length : forall es, length (expand es) = total es.
Proof.
  induction es as [|e es IH]; [reflexivity|]. unfold expand, total in *. cbn. rewrite app_length, block_length, IH. reflexivity.
Qed.

Lemma start_S : forall es e x, nth_error es e = Some x -> start es (S e) = start es e + elength x.
Proof.
  induction es as [|y es IH]; intros e x H; [destruct e; discriminate|].
  rewrite start_cons. destruct e as [|e]; cbn in H.
  - injection H as ->. rewrite !start_0. lia.
  - rewrite start_cons, (IH e x H). lia.
Qed.

Lemma start_total : forall es e, length es <= e -> start es e = total es.
Proof. intros es e H. unfold start. rewrite firstn_all2 by exact H. reflexivity. Qed.

Lemma block_nth : forall e i, i < elength e -> nth_error (block e) i = Some (evalue e + eincrement e * Z.of_nat i)%Z.
Proof.
  intros e i H. unfold block.
  assert (G : nth_error (seq 0 (elength e)) i = Some i).
  { rewrite (nth_error_nth' _ 0) by (rewrite seq_length; exact H). rewrite seq_nth by exact H. reflexivity. }
  rewrite (map_nth_error _ _ _ G). reflexivity.
Qed.

Lemma expand_nth : forall es e x i, nth_error es e = Some x -> i < elength x ->
  nth_error (expand es) (start es e + i) = Some (evalue x + eincrement x * Z.of_nat i)%Z.
Proof.
  induction es as [|y es IH]; intros e x i H Hi; [destruct e; discriminate|].
  unfold expand. cbn [flat_map]. destruct e as [|e]; cbn in H.
  - injection H as ->. cbn. rewrite nth_error_app1 by (rewrite block_length; exact Hi). apply block_nth, Hi.
  - rewrite start_cons. rewrite nth_error_app2 by (rewrite block_length; lia). rewrite block_length.
    replace (elength y + start es e + i - elength y) with (start es e + i) by lia.
    apply IH; assumption.
Qed.

Lemma end_indices_nth : forall es acc e, e < length es -> nth_error (end_indices acc es) e = Some (acc + start es (S e)).
Proof.
  induction es as [|y es IH]; intros acc e H; cbn in H; [lia|]. destruct e as [|e]; cbn [end_indices nth_error].
  - rewrite start_cons, start_0. f_equal. lia.
  - rewrite IH by lia. rewrite (start_cons y). f_equal. lia.
Qed.

Lemma end_indices_length : forall es acc, length (end_indices acc es) = length es.
Proof. induction es as [|y es IH]; intros acc; [reflexivity|]. cbn. rewrite IH. reflexivity. Qed.

Lemma ends_index : forall es e, e < length es -> index (ends (from_elements es)) e = Ok (start es (S e)).
Proof. intros es e H. apply index_Ok. unfold from_elements. cbn [ends]. rewrite end_indices_nth by exact H. reflexivity. Qed.

Lemma block_start_ok : forall es e, e <= length es -> block_start (from_elements es) e = Ok (start es e).
Proof. intros es [|e] H; [reflexivity|]. cbn [block_start]. apply ends_index. lia. Qed.

Lemma rlen_total : forall es, rlen (from_elements es) = total es.
Proof.
  intros es. unfold rlen, from_elements. cbn [ends].
  assert (G : forall l acc, last (end_indices acc l) 0 = match l with [] => 0 | _ => acc + total l end).
  { induction l as [|y l IH]; intros acc; [reflexivity|]. cbn [end_indices last].
    destruct l as [|z l]; [rewrite total_cons; unfold total; cbn; lia|]. cbn [end_indices] in IH |- *. rewrite IH. rewrite !total_cons. lia. }
  rewrite G. destruct es; [reflexivity|]. lia.
Qed.

(* blocks are not empty *)
Definition filled (es : list element) : Prop := Forall (fun e => 1 <= elength e) es.

Lemma filled_nth : forall es e x, filled es -> nth_error es e = Some x -> 1 <= elength x.
Proof. intros es e x H Hx. unfold filled in H. rewrite Forall_forall in H. apply H. eapply nth_error_In; eassumption. Qed.

Lemma start_lt : forall es, filled es -> forall d e, e + d < length es -> start es e < start es (e + S d).
Proof.
  intros es Hf. induction d as [|d IH]; intros e H.
  - destruct (nth_error es e) as [x|] eqn:E; [|apply nth_error_None in E; lia].
    rewrite Nat.add_1_r, (start_S _ _ _ E). pose proof (filled_nth _ _ _ Hf E). lia.
  - destruct (nth_error es (e + S d)) as [x|] eqn:E; [|apply nth_error_None in E; lia].
    replace (e + S (S d)) with (S (e + S d)) by lia. rewrite (start_S _ _ _ E). specialize (IH e ltac:(lia)). lia.
Qed.

Lemma start_mono : forall es, filled es -> forall e f, e < f -> f <= length es -> start es e < start es f.
Proof. intros es Hf e f H1 H2. replace f with (e + S (f - e - 1)) by lia. apply start_lt; [exact Hf|lia]. Qed.

(* (e, i) is the location of position p; the end of the column is the start of a block that does not exist *)
Definition loc (es : list element) (p e i : nat) : Prop :=
  p = start es e + i /\ ((exists x, nth_error es e = Some x /\ i < elength x) \/ (e = length es /\ i = 0)).

Lemma loc_le : forall es p e i, loc es p e i -> e <= length es.
Proof. intros es p e i [_ [(x & Hx & _)|[-> _]]]; [|lia]. assert (nth_error es e <> None) as H by congruence. apply nth_error_Some in H. lia. Qed.

Lemma loc_start : forall es e, filled es -> e <= length es -> loc es (start es e) e 0.
Proof.
  intros es e Hf He. split; [lia|]. destruct (Nat.eq_dec e (length es)) as [->|Hn]; [right; auto|left].
  destruct (nth_error es e) as [x|] eqn:E; [|apply nth_error_None in E; lia]. exists x. split; [reflexivity|]. apply (filled_nth _ _ _ Hf E).
Qed.

Lemma loc_before : forall es p e i, filled es -> loc es p e i -> forall f, e < f -> f <= length es -> p < start es f.
Proof.
  intros es p e i Hf [Hp Hc] f H1 H2. destruct Hc as [(x & Hx & Hi)|[-> _]]; [|lia].
  pose proof (start_S _ _ _ Hx) as Hs. destruct (Nat.eq_dec f (S e)) as [->|Hn]; [lia|].
  pose proof (start_mono es Hf (S e) f ltac:(lia) H2). lia.
Qed.

Lemma loc_order : forall es p e i q f j, filled es -> loc es p e i -> loc es q f j ->
  (p < q <-> (e < f \/ (e = f /\ i < j))).
Proof.
  intros es p e i q f j Hf Hp Hq. pose proof (loc_le _ _ _ _ Hp). pose proof (loc_le _ _ _ _ Hq). split.
  - intros Hlt. destruct (Nat.lt_trichotomy e f) as [H1|[H1|H1]]; [auto| |].
    + right. split; [exact H1|]. subst f. destruct Hp as [-> _], Hq as [-> _]. lia.
    + pose proof (loc_before _ _ _ _ Hf Hq e H1 ltac:(lia)). destruct Hp as [-> _]. lia.
  - intros [H1|[-> H1]].
    + pose proof (loc_before _ _ _ _ Hf Hp f H1 ltac:(lia)). destruct Hq as [-> _]. lia.
    + destruct Hp as [-> _], Hq as [-> _]. lia.
Qed.

Lemma loc_inside : forall es p e i, filled es -> loc es p e i -> p < total es ->
  exists x, nth_error es e = Some x /\ i < elength x.
Proof.
  intros es p e i Hf [Hp [H|[-> ->]]] Hlt; [exact H|]. rewrite start_total in Hp by lia. lia.
Qed.

Lemma loc_bound : forall es p e i, filled es -> loc es p e i -> p <= total es.
Proof.
  intros es p e i Hf H. pose proof (loc_le _ _ _ _ H) as Hle. destruct (Nat.eq_dec e (length es)) as [->|Hn].
  - destruct H as [-> [(x & Hx & _)|[_ ->]]]; [|rewrite start_total; lia].
    assert (nth_error es (length es) <> None) as G by congruence. apply nth_error_Some in G. lia.
  - pose proof (loc_before _ _ _ _ Hf H (length es) ltac:(lia) ltac:(lia)). rewrite start_total in H0 by lia. lia.
Qed.

Lemma loc_value : forall es p e i x, nth_error es e = Some x -> i < elength x -> loc es p e i ->
  nth_error (expand es) p = Some (evalue x + eincrement x * Z.of_nat i)%Z.
Proof. intros es p e i x Hx Hi [-> _]. apply expand_nth; assumption. Qed.

Lemma locate_ok : forall es p, filled es -> p <= total es -> exists e i, locate (from_elements es) p = Ok (e, i) /\ loc es p e i.
Proof.
  intros es p Hf Hp. unfold locate.
  assert (G : exists e, (if p =? 0 then Ok 0 else bind (binary_search (fun x => Nat.compare x p) (ends (from_elements es))) (fun r =>
             Ok (match r with Found j => j + 1 | Insert j => j end))) = Ok e /\ e <= length es /\ start es e <= p /\
             (e < length es -> p < start es (S e))).
  { destruct (Nat.eqb_spec p 0) as [->|Hn].
    - exists 0. split; [reflexivity|]. split; [lia|]. split; [cbn; lia|]. intros H. apply (start_mono es Hf 0 1); lia.
    - destruct (binary_search_spec nat (fun x => Nat.compare x p) (ends (from_elements es))) as (r & E & Hr).
      rewrite E. cbn [bind]. destruct r as [j|j].
      + destruct Hr as (x & Hx & Hc). apply Nat.compare_eq in Hc. subst x.
        assert (Hj : j < length es).
        { rewrite <- (end_indices_length es 0). apply nth_error_Some. unfold from_elements in Hx; cbn [ends] in Hx. congruence. }
        pose proof (ends_index es j Hj) as Hi. apply index_Ok in Hi. assert (p = start es (S j)) by congruence.
        exists (j + 1). split; [reflexivity|]. rewrite Nat.add_1_r. split; [lia|]. split; [lia|]. intros H2. subst p. apply (start_mono es Hf (S j) (S (S j))); lia.
      + destruct Hr as (Hj & Hlow & Hhigh). unfold from_elements in Hj; cbn [ends] in Hj. rewrite end_indices_length in Hj.
        exists j. split; [reflexivity|]. split; [exact Hj|]. split.
        * destruct j as [|j]; [cbn; lia|]. destruct (Hlow ltac:(lia)) as (x & Hx & Hc). apply Nat.compare_lt_iff in Hc.
          replace (S j - 1) with j in Hx by lia. pose proof (ends_index es j ltac:(lia)) as Hi. apply index_Ok in Hi. assert (x = start es (S j)) by congruence. lia.
        * intros H2. pose proof (ends_index es j H2) as Hi. apply index_Ok in Hi.
          assert (Hc : Nat.compare (start es (S j)) p = Gt).
          { apply (Hhigh) with (i := j); [|lia|exact Hi]. intros a b x y Hab Hx Hy Hc. apply Nat.compare_gt_iff in Hc. apply Nat.compare_gt_iff.
            assert (Hb : b < length es).
            { rewrite <- (end_indices_length es 0). apply nth_error_Some. unfold from_elements in Hy; cbn [ends] in Hy. congruence. }
            pose proof (ends_index es a ltac:(lia)) as Ha'. pose proof (ends_index es b Hb) as Hb'. apply index_Ok in Ha', Hb'.
            assert (x = start es (S a)) by congruence. assert (y = start es (S b)) by congruence.
            destruct (Nat.eq_dec a b) as [->|Hne]; [lia|]. pose proof (start_mono es Hf (S a) (S b) ltac:(lia) ltac:(lia)). lia. }
          apply Nat.compare_gt_iff in Hc. lia. }
  destruct G as (e & E & He & Hs & Hend). rewrite E. cbn [bind]. rewrite block_start_ok by exact He. cbn [bind].
  destruct (Nat.ltb_spec p (start es e)); [lia|]. exists e, (p - start es e). split; [reflexivity|]. split; [lia|].
  destruct (Nat.eq_dec e (length es)) as [->|Hn].
  - right. split; [reflexivity|]. rewrite start_total in * by lia. lia.
  - left. destruct (nth_error es e) as [x|] eqn:Ex; [|apply nth_error_None in Ex; lia]. exists x. split; [reflexivity|].
    specialize (Hend ltac:(lia)). rewrite (start_S _ _ _ Ex) in Hend. lia.
Qed.

(* ---------- values of a block ---------- *)

(* products of steps and positions do not overflow (only relevant for signed types) *)
Definition fits (k : kind) (n : nat) : Prop :=
  vmin k = 0%Z \/ forall i s, i < n -> (smin k <= s <= smax k)%Z -> in_kind k (s * Z.of_nat i) = true.

Definition steps (k : kind) (es : list element) : Prop :=
  Forall (fun e => (smin k <= eincrement e <= smax k)%Z) es.
Definition typed (k : kind) (l : list Z) : Prop := Forall (fun v => in_kind k v = true) l.

Lemma typed_nth : forall k l i x, typed k l -> nth_error l i = Some x -> (vmin k <= x <= vmax k)%Z.
Proof.
  intros k l i x H Hx. unfold typed in H. rewrite Forall_forall in H. apply nth_error_In in Hx. specialize (H x Hx).
  unfold in_kind in H. apply andb_prop in H. destruct H. lia.
Qed.

Lemma in_kind_iff : forall k z, in_kind k z = true <-> (vmin k <= z <= vmax k)%Z.
Proof. intros k z. unfold in_kind. rewrite andb_true_iff, !Z.leb_le. reflexivity. Qed.

Lemma offset_ok : forall k n v inc i, fits k n -> i < n -> (smin k <= inc <= smax k)%Z ->
  in_kind k v = true -> in_kind k (v + inc * Z.of_nat i) = true -> offset k v inc i = Ok (v + inc * Z.of_nat i)%Z.
Proof.
  intros k n v inc i Hf Hi Hs Hv Hr. unfold offset.
  assert (G : in_kind k (inc * Z.of_nat i) || ((vmin k =? 0)%Z && in_kind k (- (inc * Z.of_nat i))%Z) = true).
  { destruct Hf as [H0|Hf]; [|rewrite (Hf i inc Hi Hs); reflexivity].
    rewrite H0, Z.eqb_refl. cbn [andb]. apply in_kind_iff in Hv, Hr. apply orb_true_iff. rewrite !in_kind_iff. lia. }
  rewrite G, Hr. reflexivity.
Qed.

Lemma get_internal_ok : forall k es p e i, filled es -> steps k es -> typed k (expand es) -> fits k (total es) ->
  loc es p e i -> p < total es -> exists v, get_internal k (from_elements es) e i = Ok v /\ nth_error (expand es) p = Some v.
Proof.
  intros k es p e i Hf Hs Ht Hfit Hl Hp. destruct (loc_inside _ _ _ _ Hf Hl Hp) as (x & Hx & Hi).
  pose proof (loc_value _ _ _ _ _ Hx Hi Hl) as Hv. unfold get_internal, from_elements. cbn [values increments].
  assert (E1 : index (map evalue es) e = Ok (evalue x)) by (apply index_Ok, map_nth_error, Hx).
  assert (E2 : index (map eincrement es) e = Ok (eincrement x)) by (apply index_Ok, map_nth_error, Hx).
  rewrite E1, E2. cbn [bind]. destruct (Z.eqb_spec (eincrement x) 0) as [E0|E0].
  - exists (evalue x). split; [reflexivity|]. rewrite Hv, E0. f_equal. lia.
  - exists (evalue x + eincrement x * Z.of_nat i)%Z. split; [|exact Hv].
    apply (offset_ok k (total es)); [exact Hfit| | | |].
    + destruct Hl as [-> _]. lia.
    + unfold steps in Hs. rewrite Forall_forall in Hs. apply Hs. eapply nth_error_In; eassumption.
    + apply in_kind_iff. apply (typed_nth k (expand es) (start es e + 0)); [exact Ht|].
      rewrite (expand_nth _ _ _ 0 Hx) by lia. f_equal. lia.
    + apply in_kind_iff. eapply typed_nth; eassumption.
Qed.

(* ---------- the builder ---------- *)

(* Consecutive blocks that were not merged: the next block starts with a value that the block
   before could not absorb. *)
Definition separate (k : kind) (x y : element) : Prop :=
  match diff_step k (evalue x + eincrement x * Z.of_nat (elength x - 1)) (evalue y) with
  | Some inc => elength x <> 1 /\ eincrement x <> inc
  | None => True
  end.
Fixpoint maximal (k : kind) (es : list element) : Prop :=
  match es with
  | x :: ((y :: _) as es') => separate k x y /\ maximal k es'
  | _ => True
  end.

Lemma maximal_nth : forall k es e x y, maximal k es -> nth_error es e = Some x -> nth_error es (S e) = Some y -> separate k x y.
Proof.
  intros k. induction es as [|a es IH]; intros e x y H Hx Hy; [destruct e; discriminate|].
  destruct es as [|b es]; [destruct e; discriminate|]. destruct H as [H1 H2]. destruct e as [|e].
  - cbn in Hx, Hy. injection Hx as <-. injection Hy as <-. exact H1.
  - eapply IH; eassumption.
Qed.

Lemma maximal_snoc : forall k es x y, maximal k (es ++ [x]) -> separate k x y -> maximal k ((es ++ [x]) ++ [y]).
Proof.
  intros k. induction es as [|a es IH]; intros x y H Hs; [cbn; auto|].
  destruct es as [|b es]; cbn in H |- *.
  - destruct H as [H _]. auto.
  - destruct H as [H1 H2]. split; [exact H1|]. apply (IH x y H2 Hs).
Qed.
Lemma maximal_last : forall k es x x', maximal k (es ++ [x]) -> evalue x = evalue x' -> maximal k (es ++ [x']).
Proof.
  intros k. induction es as [|a es IH]; intros x x' H He; [exact I|].
  destruct es as [|b es]; cbn in H |- *.
  - destruct H as [H _]. split; [|exact I]. unfold separate in *. rewrite <- He. exact H.
  - destruct H as [H1 H2]. split; [exact H1|]. apply (IH x x' H2 He).
Qed.

Definition built (k : kind) (b : rbuilder) (data : list Z) : Prop :=
  let es := rev (relements b) in
  expand es = data /\ filled es /\ steps k es /\ maximal k es /\ rcount b = length data /\
  (relements b <> [] -> rprevious b = Some (last data 0%Z)) /\
  (forall e, In e es -> elength e = 1 -> eincrement e = 0%Z).

Lemma expand_snoc : forall es e, expand (es ++ [e]) = expand es ++ block e.
Proof. intros es e. unfold expand. rewrite flat_map_app. cbn. rewrite app_nil_r. reflexivity. Qed.

Lemma block_snoc : forall v n inc, block (mk_element v (S n) inc) = block (mk_element v n inc) ++ [(v + inc * Z.of_nat n)%Z].
Proof. intros v n inc. unfold block. cbn [evalue elength eincrement]. rewrite seq_S, map_app. reflexivity. Qed.

Lemma last_block : forall d e x, 1 <= elength x -> last (d ++ block x) e = (evalue x + eincrement x * Z.of_nat (elength x - 1))%Z.
Proof.
  intros d e [v n inc] H. cbn [elength evalue eincrement] in *. destruct n as [|n]; [lia|]. rewrite block_snoc, app_assoc, last_last.
  replace (S n - 1) with n by lia. reflexivity.
Qed.

Lemma radd_built : forall k b data v, (smin k <= 0 <= smax k)%Z -> built k b data ->
  exists b', radd k v b = Ok b' /\ built k b' (data ++ [v]).
Proof.
  intros k b data v Hk (Hex & Hf & Hs & Hm & Hc & Hp & H1). unfold radd. destruct (relements b) as [|la before] eqn:Er.
  - cbn in Hex. subst data. eexists. split; [reflexivity|]. unfold built. cbn. repeat split.
    + f_equal. lia.
    + constructor; [cbn; lia|constructor].
    + constructor; [cbn; lia|constructor].
    + cbn in Hc. lia.
    + intros e [<-|[]] _. reflexivity.
  - rewrite (Hp ltac:(congruence)). cbn [rev] in *.
    set (es := rev before) in *.
    assert (Hfla : 1 <= elength la) by (apply (filled_nth _ (length es) la Hf); rewrite nth_error_app2, Nat.sub_diag by lia; reflexivity).
    assert (Hlast : last data 0%Z = (evalue la + eincrement la * Z.of_nat (elength la - 1))%Z).
    { rewrite <- Hex, expand_snoc. apply last_block, Hfla. }
    rewrite Hlast.
    assert (Hfresh : separate k la (mk_element v 1 0%Z) ->
       built k (mk_rbuilder (mk_element v 1 0%Z :: la :: before) (Some v) (rcount b + 1)) (data ++ [v])).
    { intros Hsep. unfold built. cbn [relements rprevious rcount rev]. fold es. repeat split.
      - rewrite expand_snoc, Hex. cbn. f_equal. f_equal. lia.
      - apply Forall_app. split; [exact Hf|]. constructor; [cbn; lia|constructor].
      - apply Forall_app. split; [exact Hs|]. constructor; [cbn; lia|constructor].
      - apply maximal_snoc; assumption.
      - rewrite app_length. cbn. lia.
      - intros _. rewrite last_last. reflexivity.
      - intros e He Hl. apply in_app_or in He. destruct He as [He|[<-|[]]]; [apply H1; assumption|reflexivity]. }
    unfold separate in Hfresh. cbn [evalue] in Hfresh.
    assert (Habs : forall inc n, elength la = n -> (n = 1 \/ eincrement la = inc) -> (smin k <= inc <= smax k)%Z ->
        v = (evalue la + eincrement la * Z.of_nat (n - 1) + inc)%Z ->
        built k (mk_rbuilder (mk_element (evalue la) (S n) inc :: before) (Some v) (rcount b + 1)) (data ++ [v])).
    { intros inc n Hn Hor Hinc Hv. unfold built. cbn [relements rprevious rcount rev]. fold es.
      assert (Eb : block (mk_element (evalue la) n inc) = block la).
      { destruct la as [v0 n0 i0]. cbn in *. subst n0. destruct Hor as [->| ->]; [|reflexivity]. cbn. f_equal. f_equal. lia. }
      assert (Ev : v = (evalue la + inc * Z.of_nat n)%Z).
      { rewrite Hv. destruct Hor as [->|Hi]; [lia|]. rewrite Hi. rewrite Nat2Z.inj_sub by lia. rewrite Z.mul_sub_distr_l. lia. }
      repeat split.
      - rewrite expand_snoc, block_snoc, Eb, app_assoc, <- expand_snoc, Hex, <- Ev. reflexivity.
      - apply Forall_app. apply Forall_app in Hf. destruct Hf as [Hf _]. split; [exact Hf|]. constructor; [cbn; lia|constructor].
      - apply Forall_app. apply Forall_app in Hs. destruct Hs as [Hs _]. split; [exact Hs|]. constructor; [cbn; lia|constructor].
      - apply (maximal_last k es la); [exact Hm|reflexivity].
      - rewrite app_length. cbn. lia.
      - intros _. rewrite last_last. reflexivity.
      - intros e He Hl. apply in_app_or in He. destruct He as [He|[<-|[]]]; [apply H1; [apply in_or_app; left; exact He|exact Hl]|]. cbn in Hl. lia. }
    unfold diff_step in *. set (prev := (evalue la + eincrement la * Z.of_nat (elength la - 1))%Z) in *.
    destruct ((smin k <=? v - prev) && (v - prev <=? smax k))%Z eqn:Hd.
    + apply andb_prop in Hd. destruct Hd as [Hd1 Hd2]. apply Z.leb_le in Hd1, Hd2.
      destruct (Nat.eqb_spec (elength la) 1) as [E1|E1].
      * eexists. split; [reflexivity|]. apply (Habs (v - prev)%Z 1 E1); [left; reflexivity|lia|]. unfold prev. rewrite E1. lia.
      * destruct (Z.eqb_spec (eincrement la) (v - prev)) as [E2|E2].
        -- eexists. split; [reflexivity|]. rewrite Nat.add_1_r, E2. apply (Habs (v - prev)%Z (elength la) eq_refl); [right; exact E2|lia|]. unfold prev. lia.
        -- eexists. split; [reflexivity|]. apply Hfresh. auto.
    + eexists. split; [reflexivity|]. apply Hfresh. exact I.
Qed.
