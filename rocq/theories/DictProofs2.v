(* Invariants of the dictionaries: arrays are never removed, and the blocks of ids of the dictionaries
   are disjoint. *)
From Coq Require Import List ZArith Bool Lia.
From Verif Require Import ColumnModel BufferModel BytesDictModel BytesDictSpec BufferProofs BytesDictProofs DictModel DictSpec DictProofs1.
Import ListNotations.
Local Open Scope Z_scope.

(* ---- dictionaries of byte arrays ---- *)
Definition known_ok (k : known) : Prop := NoDup (arrays k) /\ marks k = [].
Definition known_le (k k' : known) : Prop := exists l, arrays k' = arrays k ++ l.
Definition count (k : known) : Z := Z.of_nat (length (arrays k)).
Lemma known_le_refl : forall k, known_le k k.
Proof. intros k. exists []. rewrite app_nil_r. reflexivity. Qed.
Lemma known_le_trans : forall a b c, known_le a b -> known_le b c -> known_le a c.
Proof. intros a b c [l E] [l' E']. exists (l ++ l'). rewrite E', E, app_assoc. reflexivity. Qed.
Lemma lookup_some : forall k x id, known_ok k -> (lookup k x = Some id <-> 0 <= id /\ array_at k id = Some x).
Proof.
  intros k x id [N M]. unfold lookup. rewrite M. destruct (in_dec (list_eq_dec Z.eq_dec) x []) as [[]|_]. unfold array_at. split.
  - destruct (position x (arrays k)) as [i|] eqn:E; [|discriminate]. cbn. intros Ei. assert (id = Z.of_nat i) by congruence. subst id. split; [lia|]. rewrite Nat2Z.id. exact (position_some _ _ _ E).
  - intros [H0 E]. rewrite (position_nth _ _ _ N E). cbn. f_equal. lia.
Qed.
Lemma array_at_bound : forall k id x, 0 <= id -> array_at k id = Some x -> id < count k.
Proof. intros k id x H E. unfold array_at in E. assert (nth_error (arrays k) (Z.to_nat id) <> None) as Hn by congruence. apply nth_error_Some in Hn. unfold count. lia. Qed.
Lemma array_at_le : forall k k' id x, known_le k k' -> array_at k id = Some x -> array_at k' id = Some x.
Proof. intros k k' id x [l E] H. unfold array_at in *. rewrite E. apply nth_app_old. exact H. Qed.
Lemma lookup_le : forall k k' x id, known_ok k -> known_ok k' -> known_le k k' -> lookup k x = Some id -> lookup k' x = Some id.
Proof. intros k k' x id O O' L E. apply (lookup_some _ _ _ O) in E. apply (lookup_some _ _ _ O'). destruct E as [H0 E]. split; [exact H0|]. exact (array_at_le _ _ _ _ L E). Qed.
Lemma count_le : forall k k', known_le k k' -> count k <= count k'.
Proof. intros k k' [l E]. unfold count. rewrite E, app_length. lia. Qed.
Lemma spec_add_ok : forall k x k' r, known_ok k -> spec_add k x = (k', r) ->
  known_ok k' /\ known_le k k' /\ lookup k' x = Some (result_value r) /\ 0 <= result_value r < count k' /\ count k' <= Z.max (count k) (result_value r + 1) /\ result_value r <= count k /\ r <> Rejected.
Proof.
  intros k x k' r O E. unfold spec_add in E. destruct (lookup k x) as [id|] eqn:El.
  - inversion E; subst k' r. cbn [result_value]. apply (lookup_some _ _ _ O) in El as El'. destruct El' as [H0 Ea]. pose proof (array_at_bound _ _ _ H0 Ea).
    split; [exact O|]. split; [apply known_le_refl|]. split; [exact El|]. split; [lia|]. split; [lia|]. split; [lia|discriminate].
  - destruct O as [N M]. destruct (lookup_none _ _ El) as [Ha _]. assert (k' = mk_known (arrays k ++ [x]) (marks k) /\ r = Fresh (Z.of_nat (length (arrays k)))) as [-> ->] by (split; congruence). cbn [result_value].
    assert (O' : known_ok (mk_known (arrays k ++ [x]) (marks k))) by (split; [cbn; apply NoDup_snoc; assumption|exact M]).
    split; [exact O'|]. split; [exists [x]; reflexivity|]. split; [apply (lookup_some _ _ _ O')|].
    + split; [lia|]. unfold array_at. cbn [arrays]. rewrite Nat2Z.id, nth_error_app2, Nat.sub_diag by lia. reflexivity.
    + unfold count. cbn [arrays]. rewrite app_length. cbn [length]. split; [lia|]. split; [lia|]. split; [lia|discriminate].
Qed.

(* ---- pairs ---- *)
Definition pd_ok (d : pair_dict) : Prop := known_ok (frequent_dict d) /\ known_ok (pairs d).
Definition pd_le (d d' : pair_dict) : Prop := known_le (frequent_dict d) (frequent_dict d') /\ known_le (pairs d) (pairs d').
Lemma pd_le_refl : forall d, pd_le d d.
Proof. intros. split; apply known_le_refl. Qed.
Lemma pd_le_trans : forall a b c, pd_le a b -> pd_le b c -> pd_le a c.
Proof. intros a b c [] []. split; eapply known_le_trans; eassumption. Qed.
Lemma lru_get_miss : forall l data, lru_get l data = (l, NONEXISTING_ID_MARK).
Proof. intros l data. unfold lru_get, range. assert (E : (top l - (top l + lru_len l) = 0)%nat) by lia. rewrite E. reflexivity. Qed.
Lemma pair_to_id_some : forall d f r id, pd_ok d -> pair_to_id d f r = Ok (Some id) -> 0 <= id < count (pairs d) /\ id_to_pair d id = Ok (Some (f, r)).
Proof.
  intros d f r id [O1 O2] E. unfold pair_to_id in E. destruct (lookup (frequent_dict d) f) as [fid|] eqn:El; [|discriminate]. apply bind_ok in E. destruct E as (pb & Ep & E).
  assert (E' : lookup (pairs d) pb = Some id) by congruence. apply (lookup_some _ _ _ O2) in E'. destruct E' as [H0 Ea]. apply (lookup_some _ _ _ O1) in El. destruct El as [H1 Ef].
  split; [split; [exact H0|exact (array_at_bound _ _ _ H0 Ea)]|]. unfold id_to_pair. rewrite Ea, (split_pair_bytes _ _ _ H1 Ep). cbn [bind fst snd]. rewrite Ef. reflexivity.
Qed.
Lemma pair_to_id_le : forall d d' f r id, pd_ok d -> pd_ok d' -> pd_le d d' -> pair_to_id d f r = Ok (Some id) -> pair_to_id d' f r = Ok (Some id).
Proof.
  intros d d' f r id [O1 O2] [O1' O2'] [L1 L2] E. unfold pair_to_id in *. destruct (lookup (frequent_dict d) f) as [fid|] eqn:El; [|discriminate]. rewrite (lookup_le _ _ _ _ O1 O1' L1 El).
  apply bind_ok in E. destruct E as (pb & Ep & E). rewrite Ep. cbn [bind]. rewrite (lookup_le _ _ pb id O2 O2' L2) by congruence. reflexivity.
Qed.
Lemma add_pair_ok : forall d f r d' s, pd_ok d -> add_pair d f r = Ok (d', s) ->
  pd_ok d' /\ pd_le d d' /\ pair_to_id d' f r = Ok (Some (result_value s)) /\ 0 <= result_value s < count (pairs d') /\ count (pairs d') <= Z.max (count (pairs d)) (result_value s + 1) /\ result_value s <= count (pairs d) /\ s <> Rejected.
Proof.
  intros d f r d' s [O1 O2] E. unfold add_pair in E. rewrite lru_get_miss, Z.eqb_refl in E. destruct (spec_add (frequent_dict d) f) as [fdict q] eqn:Ef. cbv beta iota in E.
  apply bind_ok in E. destruct E as (pb & Ep & E). destruct (spec_add (pairs d) pb) as [pdict t] eqn:Es. inversion E; subst d' t; clear E.
  destruct (spec_add_ok _ _ _ _ O1 Ef) as (P1 & P2 & P3 & P4 & P5 & P6 & P7). destruct (spec_add_ok _ _ _ _ O2 Es) as (Q1 & Q2 & Q3 & Q4 & Q5 & Q6 & Q7).
  unfold pd_ok, pd_le, pair_to_id. cbn [frequent_dict pairs]. rewrite P3, Ep. cbn [bind]. rewrite Q3. auto 10.
Qed.

(* ---- blocks ---- *)
Definition block (D : meta) (k j : nat) : option nat :=
  match nth_error (gblocks D) k with Some gb => match nth_error gb j with Some o => o | None => None end | None => None end.
Definition blocks_ok (D : meta) : Prop :=
  length (gblocks D) = 6%nat /\ forall k j g, block D k j = Some g <-> nth_error (dictblocks D) g = Some (Some (k, j)).
Definition blocks_le (D D' : meta) : Prop :=
  (forall k j g, block D k j = Some g -> block D' k j = Some g) /\ (length (dictblocks D) <= length (dictblocks D'))%nat.
Lemma blocks_le_refl : forall D, blocks_le D D.
Proof. intros D. split; auto. Qed.
Lemma blocks_le_trans : forall a b c, blocks_le a b -> blocks_le b c -> blocks_le a c.
Proof. intros a b c [H1 H2] [H3 H4]. split; [auto|lia]. Qed.
Lemma nth_resize : forall A (l : list A) n a i, nth_error (resize l n a) i = match nth_error l i with Some x => Some x | None => if (i <? n)%nat then Some a else None end.
Proof.
  intros A l n a i. unfold resize. destruct (Nat.ltb_spec i (length l)) as [H|H].
  - rewrite nth_error_app1 by lia. destruct (nth_error l i) as [x|] eqn:E; [reflexivity|]. apply nth_error_None in E. lia.
  - rewrite nth_error_app2 by lia. rewrite (proj2 (nth_error_None l i) H). destruct (Nat.ltb_spec i n) as [Hn|Hn].
    + apply nth_error_repeat. lia.
    + apply nth_error_None. rewrite repeat_length. lia.
Qed.
Lemma length_resize : forall A (l : list A) n a, length (resize l n a) = Nat.max (length l) n.
Proof. intros. unfold resize. rewrite app_length, repeat_length. lia. Qed.
Lemma free_loop_ok : forall fuel blocks p, (length blocks - p < fuel)%nat -> exists q, free_loop fuel blocks p = Ok q /\ forall e, nth_error blocks q <> Some (Some e).
Proof.
  induction fuel as [|fuel IH]; intros blocks p H; [lia|]. cbn [free_loop]. destruct (nth_error blocks p) as [[e|]|] eqn:E.
  - assert (nth_error blocks p <> None) as Hp by congruence. apply nth_error_Some in Hp. apply IH. lia.
  - exists p. split; [reflexivity|]. intros e He. congruence.
  - exists p. split; [reflexivity|]. intros e He. congruence.
Qed.
Lemma allocate_ok : forall D k j, blocks_ok D -> (k < 6)%nat ->
  exists gs bs g, allocate_block D k j = Ok (with_blocks D gs bs, g) /\ blocks_ok (with_blocks D gs bs) /\ blocks_le D (with_blocks D gs bs) /\ block (with_blocks D gs bs) k j = Some g.
Proof.
  intros D k j [HL HB] Hk. unfold allocate_block. unfold index. destruct (nth_error (gblocks D) k) as [gb0|] eqn:Egb; [|apply nth_error_None in Egb; lia]. cbn [bind].
  set (gb := if (length gb0 <=? j)%nat then resize gb0 (j + 1) None else gb0).
  assert (Hj : (j < length gb)%nat) by (unfold gb; destruct (Nat.leb_spec (length gb0) j); [rewrite length_resize|]; lia).
  assert (Hgb : forall i o, nth_error gb i = Some o -> o = None \/ nth_error gb0 i = Some o).
  { intros i o. unfold gb. destruct (length gb0 <=? j)%nat; [|auto]. rewrite nth_resize. destruct (nth_error gb0 i); [auto|]. destruct (i <? j + 1)%nat; [|discriminate]. intros E. left. congruence. }
  assert (Hgb2 : forall i o, nth_error gb0 i = Some o -> nth_error gb i = Some o).
  { intros i o E. unfold gb. destruct (length gb0 <=? j)%nat; [|exact E]. rewrite nth_resize, E. reflexivity. }
  assert (Hblock : forall i, match nth_error gb i with Some o => o | None => None end = block D k i).
  { intros i. unfold block. rewrite Egb. destruct (nth_error gb i) as [o|] eqn:E.
    - destruct (Hgb _ _ E) as [->|E']; [|rewrite E'; reflexivity]. destruct (nth_error gb0 i) as [o|] eqn:E'; [|reflexivity]. rewrite (Hgb2 _ _ E') in E. congruence.
    - destruct (nth_error gb0 i) as [o|] eqn:E'; [|reflexivity]. rewrite (Hgb2 _ _ E') in E. discriminate. }
  assert (Hk' : (k < length (gblocks D))%nat) by lia.
  destruct (nth_error gb j) as [o|] eqn:Ej; [|apply nth_error_None in Ej; lia]. cbn [bind]. destruct o as [g|].
  - exists (set_nth (gblocks D) k gb), (dictblocks D), g. split; [reflexivity|].
    assert (Heq : forall k' i, block (with_blocks D (set_nth (gblocks D) k gb) (dictblocks D)) k' i = block D k' i).
    { intros k' i. destruct (Nat.eq_dec k k') as [<-|Hne].
      - unfold block at 1. cbn [gblocks with_blocks]. rewrite nth_set by exact Hk'. apply Hblock.
      - unfold block. cbn [gblocks with_blocks]. rewrite nth_set_other by exact Hne. reflexivity. }
    split; [|split].
    + split; [cbn; rewrite length_set; exact HL|]. intros k' i g'. rewrite Heq. apply HB.
    + split; [intros k' i g' E; rewrite Heq; exact E|cbn; lia].
    + rewrite Heq, <- Hblock, Ej. reflexivity.
  - set (start := match btl_loop gb (j + 1) with O => O | S i => match nth_error gb i with Some (Some g) => (g + S i - 1)%nat | _ => O end end).
    replace (match btl_loop gb (j + 1) with O => O | S i => match nth_error gb i with Some (Some g) => (g + btl_loop gb (j + 1) - 1)%nat | _ => O end end) with start by (unfold start; destruct (btl_loop gb (j + 1)); reflexivity).
    destruct (free_loop_ok (S (length (dictblocks D))) (dictblocks D) start) as (p & Ep & Hp); [lia|]. rewrite Ep. cbn [bind].
    set (bs0 := if (length (dictblocks D) <=? p)%nat then resize (dictblocks D) (p + 1) None else dictblocks D).
    assert (Hp' : (p < length bs0)%nat) by (unfold bs0; destruct (Nat.leb_spec (length (dictblocks D)) p); [rewrite length_resize|]; lia).
    assert (Hbs0 : forall i e, nth_error bs0 i = Some (Some e) <-> nth_error (dictblocks D) i = Some (Some e)).
    { intros i e. unfold bs0. destruct (length (dictblocks D) <=? p)%nat; [|reflexivity]. rewrite nth_resize. destruct (nth_error (dictblocks D) i); [reflexivity|]. destruct (i <? p + 1)%nat; split; discriminate. }
    exists (set_nth (gblocks D) k (set_nth gb j (Some p))), (set_nth bs0 p (Some (k, j))), p. split; [reflexivity|].
    set (D' := with_blocks D (set_nth (gblocks D) k (set_nth gb j (Some p))) (set_nth bs0 p (Some (k, j)))).
    assert (Hnone : block D k j = None) by (rewrite <- Hblock, Ej; reflexivity).
    assert (Hnew : block D' k j = Some p).
    { unfold block, D'. cbn [gblocks with_blocks]. rewrite nth_set by exact Hk'. rewrite nth_set by exact Hj. reflexivity. }
    assert (Hold : forall k' i, (k', i) <> (k, j) -> block D' k' i = block D k' i).
    { intros k' i Hne. destruct (Nat.eq_dec k k') as [<-|Hnk].
      - unfold block at 1, D'. cbn [gblocks with_blocks]. rewrite nth_set by exact Hk'. rewrite nth_set_other by congruence. apply Hblock.
      - unfold block, D'. cbn [gblocks with_blocks]. rewrite nth_set_other by exact Hnk. reflexivity. }
    split; [|split; [|exact Hnew]].
    + split; [cbn; rewrite length_set; exact HL|]. intros k' i g'. cbn [D' with_blocks dictblocks].
      destruct (Nat.eq_dec p g') as [<-|Hnp].
      * change (dictblocks D') with (set_nth bs0 p (Some (k, j))). rewrite nth_set by exact Hp'. split; intros E.
        -- destruct (Nat.eq_dec k' k) as [->|Hnk]; [destruct (Nat.eq_dec i j) as [->|Hni]; [reflexivity|]|].
           ++ rewrite Hold in E by congruence. apply HB in E. destruct (Hp _ E).
           ++ rewrite Hold in E by congruence. apply HB in E. destruct (Hp _ E).
        -- assert (k = k' /\ j = i) as [<- <-] by (split; congruence). exact Hnew.
      * change (dictblocks D') with (set_nth bs0 p (Some (k, j))). rewrite nth_set_other by exact Hnp. rewrite Hbs0, <- HB.
        destruct (Nat.eq_dec k' k) as [->|Hnk]; [destruct (Nat.eq_dec i j) as [->|Hni]|]; [rewrite Hnew, Hnone; split; congruence| |]; rewrite Hold by congruence; reflexivity.
    + split; [|change (dictblocks D') with (set_nth bs0 p (Some (k, j))); rewrite length_set; unfold bs0; destruct (length (dictblocks D) <=? p)%nat; [rewrite length_resize|]; lia].
      intros k' i g' E. rewrite Hold; [exact E|]. intros Heq. assert (k' = k /\ i = j) as [-> ->] by (split; congruence). congruence.
Qed.

(* ---- local and global ids ---- *)
Definition B24 : Z := 2 ^ 24.
Definition local_block (id : Z) : nat := Z.to_nat (id / B24).
Definition global (b : nat) (id : Z) : Z := Z.of_nat b * B24 + id mod B24.
Lemma shiftr24 : forall id, Z.shiftr id BLOCKSIZE = id / B24.
Proof. intros. unfold BLOCKSIZE, B24. apply Z.shiftr_div_pow2. lia. Qed.
Lemma shiftl24 : forall b, Z.shiftl b BLOCKSIZE = b * B24.
Proof. intros. unfold BLOCKSIZE, B24. apply Z.shiftl_mul_pow2. lia. Qed.
Lemma one24 : Z.shiftl 1 BLOCKSIZE = B24.
Proof. reflexivity. Qed.
Lemma unchecked_eq : forall D k id, (k < length (gblocks D))%nat ->
  local_to_global_unchecked D k id = match block D k (local_block id) with Some b => Ok (global b id) | None => Panicked end.
Proof.
  intros D k id Hk. unfold local_to_global_unchecked, index. unfold block. destruct (nth_error (gblocks D) k) as [gb|] eqn:E; [|apply nth_error_None in E; lia]. cbn [bind].
  rewrite shiftr24, one24. fold (local_block id). destruct (nth_error gb (local_block id)) as [[b|]|]; cbn [bind]; [|reflexivity|reflexivity]. rewrite shiftl24. reflexivity.
Qed.
Lemma global_back : forall D k id b, blocks_ok D -> 0 <= id -> block D k (local_block id) = Some b -> global_to_local D (global b id) = Some (k, id).
Proof.
  intros D k id b [_ HB] H0 E. apply HB in E. unfold global_to_local. rewrite shiftr24, one24. assert (HB24 : 0 < B24) by (unfold B24; lia).
  assert (Ed : global b id / B24 = Z.of_nat b) by (unfold global; rewrite Z.div_add_l by lia; rewrite Z.div_small by (apply Z.mod_pos_bound; lia); lia).
  assert (Em : global b id mod B24 = id mod B24) by (unfold global; rewrite Z.add_comm, Z.mod_add by lia; apply Z.mod_mod; lia).
  assert (Hlt : nth_error (dictblocks D) b <> None) by congruence. apply nth_error_Some in Hlt. cbv zeta. rewrite Ed. unfold lenz. destruct (Z.leb_spec (Z.of_nat (length (dictblocks D))) (Z.of_nat b)) as [Hle|_]; [lia|]. rewrite Nat2Z.id, E, Em, shiftl24. unfold local_block. rewrite Z2Nat.id by (apply Z.div_pos; lia). f_equal. f_equal. rewrite Z.mul_comm. symmetry. apply Z.div_mod. lia.
Qed.

(* ---- the whole dictionary ---- *)
Definition size (D : meta) (k : nat) : Z :=
  match k with O => count (pairs (iri_dict D)) | 1%nat => count (string_dict D) | 2%nat => count (langstring_dict D) | 3%nat => count (pairs (other_dict D)) | 4%nat => nulls D | 5%nat => count (pairs (tuple_dict D)) | _ => 0 end.
Record subs_ok (D : meta) : Prop := mk_subs_ok {
  ok_iri : pd_ok (iri_dict D); ok_string : known_ok (string_dict D); ok_lang : known_ok (langstring_dict D); ok_other : pd_ok (other_dict D); ok_null : 0 <= nulls D; ok_tuple : pd_ok (tuple_dict D) }.
Record subs_le (D D' : meta) : Prop := mk_subs_le {
  le_iri : pd_le (iri_dict D) (iri_dict D'); le_string : known_le (string_dict D) (string_dict D'); le_lang : known_le (langstring_dict D) (langstring_dict D');
  le_other : pd_le (other_dict D) (other_dict D'); le_null : nulls D <= nulls D'; le_tuple : pd_le (tuple_dict D) (tuple_dict D') }.
Definition reserved (D : meta) : Prop := forall k id, 0 <= id < size D k -> block D k (local_block id) <> None.
Record meta_ok (D : meta) : Prop := mk_meta_ok { ok_subs : subs_ok D; ok_blocks : blocks_ok D; ok_reserved : reserved D }.
Record meta_le (D D' : meta) : Prop := mk_meta_le { le_subs : subs_le D D'; le_blocks : blocks_le D D' }.
Lemma subs_le_refl : forall D, subs_le D D.
Proof. intros D. constructor; try apply pd_le_refl; try apply known_le_refl. lia. Qed.
Lemma subs_le_trans : forall a b c, subs_le a b -> subs_le b c -> subs_le a c.
Proof. intros a b c [] []. constructor; try (eapply pd_le_trans; eassumption); try (eapply known_le_trans; eassumption). lia. Qed.
Lemma meta_le_refl : forall D, meta_le D D.
Proof. intros D. constructor; [apply subs_le_refl|apply blocks_le_refl]. Qed.
Lemma meta_le_trans : forall a b c, meta_le a b -> meta_le b c -> meta_le a c.
Proof. intros a b c [] []. constructor; [eapply subs_le_trans|eapply blocks_le_trans]; eassumption. Qed.
Lemma meta_le_fits : forall D D', meta_le D D' -> fits D' -> fits D.
Proof. intros D D' [_ [_ L]] F. unfold fits in *. lia. Qed.

(* the number of entries is bounded by the number of blocks *)
Lemma size_bound : forall D k, meta_ok D -> fits D -> size D k <= 2 ^ 63.
Proof.
  intros D k M F. destruct (Z.le_gt_cases (size D k) (2 ^ 63)) as [H|H]; [exact H|]. exfalso.
  set (n := (S (length (dictblocks D)))). assert (Hn : Z.of_nat n <= 2 ^ 39 + 1) by (unfold n, fits in *; lia).
  assert (Hall : forall j, (j < n)%nat -> exists g, block D k j = Some g).
  { intros j Hj. pose proof (ok_reserved _ M k (Z.of_nat j * B24)) as Hr. assert (Hb : local_block (Z.of_nat j * B24) = j) by (unfold local_block; rewrite Z.div_mul by (unfold B24; lia); apply Nat2Z.id). rewrite Hb in Hr.
    destruct (block D k j) as [g|]; [eauto|]. exfalso. apply Hr; [|reflexivity]. unfold B24. change (2 ^ 63) with (2 ^ 39 * 2 ^ 24) in H. nia. }
  set (gs := map (fun j => match block D k j with Some g => g | None => O end) (seq 0 n)).
  assert (Hincl : incl gs (seq 0 (length (dictblocks D)))).
  { intros g Hg. unfold gs in Hg. apply in_map_iff in Hg. destruct Hg as (j & Eg & Hj). apply in_seq in Hj. destruct (Hall j) as [g' E']; [lia|]. rewrite E' in Eg. subst g'. apply (proj2 (ok_blocks _ M)) in E'. apply in_seq. assert (nth_error (dictblocks D) g <> None) as Hx by congruence. apply nth_error_Some in Hx. lia. }
  assert (Hnd : NoDup gs).
  { unfold gs. clear Hincl gs. assert (Hinj : forall i j g, block D k i = Some g -> block D k j = Some g -> i = j).
    { intros i j g Ei Ej. apply (proj2 (ok_blocks _ M)) in Ei, Ej. congruence. }
    assert (Hg : forall l, NoDup l -> (forall j, In j l -> (j < n)%nat) -> NoDup (map (fun j => match block D k j with Some g => g | None => O end) l)).
    { induction l as [|a l IH]; intros Hl Hlt; [constructor|]. cbn. inversion Hl; subst. constructor; [|apply IH; [assumption|intros j Hj; apply Hlt; right; exact Hj]].
      intros Hi. apply in_map_iff in Hi. destruct Hi as (j & E & Hj). destruct (Hall a (Hlt a (or_introl eq_refl))) as [ga Ea]. destruct (Hall j (Hlt j (or_intror Hj))) as [gj Ej]. rewrite Ea, Ej in E. subst gj. pose proof (Hinj _ _ _ Ea Ej). subst j. contradiction. }
    apply Hg; [apply seq_NoDup|]. intros j Hj. apply in_seq in Hj. lia. }
  pose proof (NoDup_incl_length Hnd Hincl) as Hlen. unfold gs in Hlen. rewrite map_length, !seq_length in Hlen. unfold n in Hlen. lia.
Qed.
Lemma global_bound : forall D k j b id, meta_ok D -> fits D -> block D k j = Some b -> 0 <= global b id < 2 ^ 63.
Proof.
  intros D k j b id M F E. apply (proj2 (ok_blocks _ M)) in E. assert (nth_error (dictblocks D) b <> None) as Hx by congruence. apply nth_error_Some in Hx. unfold fits in F.
  unfold global. pose proof (Z.mod_pos_bound id B24). unfold B24 in *. change (2 ^ 63) with (2 ^ 39 * 2 ^ 24). nia.
Qed.

(* after one dictionary has changed, at most one id needs a block *)
Definition pending (D : meta) (k : nat) (id : Z) : Prop :=
  subs_ok D /\ blocks_ok D /\ forall k' i, 0 <= i < size D k' -> (k' <> k \/ local_block i <> local_block id) -> block D k' (local_block i) <> None.
Lemma finish_ok : forall D k r D' s, (k < 6)%nat -> pending D k (result_value r) -> result_value r <> NONEXISTING_ID_MARK -> finish_add k (D, r) = Ok (D', s) ->
  meta_ok D' /\ meta_le D D' /\ subs_le D' D /\ exists g, s = Fresh g /\ local_to_global_unchecked D' k (result_value r) = Ok g /\ (forall gs bs, with_blocks D gs bs = with_blocks D' gs bs).
Proof.
  intros D k r D' s Hk (S & B & P) Hn E. unfold finish_add in E. cbn [fst snd] in E. destruct (Z.eqb_spec (result_value r) NONEXISTING_ID_MARK) as [Hx|_]; [contradiction|].
  unfold local_to_global in E. rewrite shiftr24 in E. fold (local_block (result_value r)) in E.
  destruct (allocate_ok D k (local_block (result_value r)) B Hk) as (gs & bs & g & Ea & B' & L & Eg). rewrite Ea in E. cbn [bind fst snd] in E. rewrite shiftl24, one24 in E. fold (global g (result_value r)) in E.
  inversion E; subst D' s; clear E. split; [|split; [|split]].
  - constructor; [destruct S; constructor; assumption|exact B'|]. intros k' i Hi. change (size (with_blocks D gs bs) k') with (size D k') in Hi.
    destruct (Nat.eq_dec k' k) as [->|Hnk]; [destruct (Nat.eq_dec (local_block i) (local_block (result_value r))) as [->|Hni]|].
    + rewrite Eg. discriminate.
    + pose proof (P k i Hi (or_intror Hni)) as Hb. destruct (block D k (local_block i)) as [b|] eqn:Eb; [|contradiction]. rewrite (proj1 L _ _ _ Eb). discriminate.
    + pose proof (P k' i Hi (or_introl Hnk)) as Hb. destruct (block D k' (local_block i)) as [b|] eqn:Eb; [|contradiction]. rewrite (proj1 L _ _ _ Eb). discriminate.
  - constructor; [|exact L]. destruct S. constructor; cbn; try apply pd_le_refl; try apply known_le_refl. lia.
  - destruct S. constructor; cbn; try apply pd_le_refl; try apply known_le_refl. lia.
  - eexists. split; [reflexivity|]. split; [|reflexivity]. rewrite unchecked_eq by (rewrite (proj1 B'); exact Hk). rewrite Eg. reflexivity.
Qed.
Lemma pending_of_ok : forall D D1 k id, meta_ok D -> subs_ok D1 -> gblocks D1 = gblocks D -> dictblocks D1 = dictblocks D -> (forall k', k' <> k -> size D1 k' <= size D k') -> size D1 k <= Z.max (size D k) (id + 1) -> id <= size D k -> pending D1 k id.
Proof.
  intros D D1 k id M S Eg Ed Hs Hk Hid. assert (Eb : forall k j, block D1 k j = block D k j) by (intros; unfold block; rewrite Eg; reflexivity). split; [exact S|]. split.
  - destruct (ok_blocks _ M) as [HL HB]. split; [rewrite Eg; exact HL|]. intros k' j g. rewrite Eb, Ed. apply HB.
  - intros k' i Hi Hne. rewrite Eb. apply (ok_reserved _ M). destruct (Nat.eq_dec k' k) as [->|Hnk]; [|specialize (Hs k' Hnk); lia].
    destruct Hne as [Hne|Hne]; [contradiction|]. assert (i <> id) by congruence. split; [lia|].
    destruct (Z.lt_ge_cases i (size D k)) as [?|Hge]; [assumption|]. exfalso. lia.
Qed.
