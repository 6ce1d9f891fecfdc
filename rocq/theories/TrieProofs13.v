(* Materializing the rows of a trie scan. *)
From Coq Require Import List ZArith Bool Lia Arith Sorted.
From Verif Require Import ColumnModel ScanModel ScanSpec TrieModel TrieSpec TrieScanSpec TrieProofs1 TrieProofs2 TrieProofs3 TrieProofs4 TrieProofs5 TrieProofs6 TrieProofs7 TrieProofs8 TrieProofs9 TrieProofs10 TrieProofs11 TrieProofs12.
Import ListNotations.
Local Open Scope nat_scope.

(* the builder of layer k after the rows L, the last of which is r *)
Definition bstate (k : nat) (L : list row) (r : row) (b : tbuilder) : Prop :=
  exists vs E, rgroups k L = (firstn k r, nth k r dflt :: vs) :: E /\
    bt_builder b = opened (closed E) (nth k r dflt :: vs) /\ bt_previous b = ptype (firstn k r).

Lemma skipn_first : forall A (r : list A) k v s d, skipn k r = v :: s -> nth k r d = v /\ skipn (k + 1) r = s /\ k < length r.
Proof.
  intros A r k v s d H. destruct (skipn_cons _ _ _ _ _ H) as [H1 H2]. split; [apply nth_error_nth, H1|]. split; [rewrite Nat.add_1_r; exact H2|].
  apply nth_error_Some. congruence.
Qed.

Lemma first_ok : forall (r : row) s k lt, skipn k r = s -> (match lt with Some t => t | None => Id32 end) = ptype (firstn k r) ->
  length (first_builders lt s) = length s /\ forall j b, nth_error (first_builders lt s) j = Some b -> bstate (k + j) [r] r b.
Proof.
  intros r. induction s as [|v s IH]; intros k lt Hs Hlt; cbn [first_builders length].
  - split; [reflexivity|]. intros [|j] b H; discriminate.
  - destruct (skipn_first _ _ _ _ _ dflt Hs) as (Hv & Hs' & Hk).
    destruct (IH (k + 1) (Some (fst v)) Hs') as [H1 H2].
    { rewrite Nat.add_1_r, ptype_firstn by exact Hk. rewrite Hv. reflexivity. }
    split; [f_equal; exact H1|]. intros [|j] b H; cbn [nth_error] in H.
    + injection H as <-. rewrite Nat.add_0_r. exists [], []. rewrite <- Hv. split; [reflexivity|]. split; [reflexivity|]. cbn [tbuilder_add tbuilder_new bt_previous]. exact Hlt.
    + replace (k + S j) with (k + 1 + j) by lia. apply H2, H.
Qed.

Lemma next_ok : forall L (r r' : row) c n, length r = n -> length r' = n -> firstn c r' = firstn c r -> firstn (S c) r' <> firstn (S c) r ->
  forall bs s k lt, length bs = length s -> skipn k r' = s -> (c < k -> lt = ptype (firstn k r')) ->
  (forall j b, nth_error bs j = Some b -> bstate (k + j) L r b) ->
  length (next_builders c k lt bs s) = length s /\
  forall j b, nth_error (next_builders c k lt bs s) j = Some b -> bstate (k + j) (L ++ [r']) r' b.
Proof.
  intros L r r' c n Hr Hr' Hc Hc'. induction bs as [|b0 bs IH]; intros s k lt Hl Hs Hlt Hb; destruct s as [|v s]; try discriminate Hl; cbn [next_builders].
  - split; [reflexivity|]. intros [|j] b H; discriminate.
  - destruct (skipn_first _ _ _ _ _ dflt Hs) as (Hv & Hs' & Hk). rewrite Hr' in Hk.
    assert (Hb' : forall j b, nth_error bs j = Some b -> bstate (k + 1 + j) L r b).
    { intros j b H. replace (k + 1 + j) with (k + S j) by lia. apply Hb. exact H. }
    cbn [length] in Hl.
    destruct (Hb 0 b0 eq_refl) as (vs & E & HE & Hbb & Hbp). rewrite Nat.add_0_r in HE, Hbb, Hbp.
    assert (Hsplit : forall rest b1, length rest = length s -> bstate k (L ++ [r']) r' b1 -> (forall j b, nth_error rest j = Some b -> bstate (k + 1 + j) (L ++ [r']) r' b) ->
      length (b1 :: rest) = length (v :: s) /\ forall j b, nth_error (b1 :: rest) j = Some b -> bstate (k + j) (L ++ [r']) r' b).
    { intros rest b1 H1 H2 H3. split; [cbn; f_equal; exact H1|]. intros [|j] b H; cbn [nth_error] in H; [injection H as <-; rewrite Nat.add_0_r; exact H2|].
      replace (k + S j) with (k + 1 + j) by lia. apply H3, H. }
    assert (Hsame : forall m, m <= c -> firstn m r' = firstn m r).
    { intros m Hm. apply (f_equal (firstn m)) in Hc. rewrite !firstn_firstn in Hc. replace (Nat.min m c) with m in Hc by lia. exact Hc. }
    destruct (Nat.ltb_spec k c) as [Hlt'|Hge].
    + (* the columns before *)
      destruct (IH s (k + 1) lt ltac:(lia) Hs') as [H1 H2]; [lia|exact Hb'|]. apply Hsplit; [exact H1| |exact H2].
      pose proof (Hsame (S k) ltac:(lia)) as HS. apply prefix_S in HS; [|lia|lia]. destruct HS as [P1 P2].
      exists vs, E. rewrite rgroups_snoc, HE, gpush_step. rewrite P1, P2.
      destruct (row_eq_dec (firstn k r) (firstn k r)); [|congruence]. destruct (value_eq_dec (nth k r dflt) (nth k r dflt)); [|congruence]. auto.
    + destruct (IH s (k + 1) (fst v) ltac:(lia) Hs') as [H1 H2].
      { intros _. rewrite Nat.add_1_r, ptype_firstn by lia. rewrite Hv. reflexivity. }
      { exact Hb'. }
      apply Hsplit; [exact H1| |exact H2]. clear H1 H2 Hsplit IH Hb' Hb. rewrite <- Hv.
      destruct (Nat.eqb_spec k c) as [->|Nk].
      * (* the changed column *)
        assert (Nv : nth c r' dflt <> nth c r dflt) by (intros E1; apply Hc'; apply prefix_S; [lia|lia|auto]).
        exists (nth c r dflt :: vs), E. rewrite rgroups_snoc, HE, gpush_step. rewrite Hc.
        destruct (row_eq_dec (firstn c r) (firstn c r)); [|congruence]. destruct (value_eq_dec (nth c r dflt) (nth c r' dflt)); [congruence|].
        split; [reflexivity|]. cbn [tbuilder_add bt_builder bt_previous]. rewrite Hbb. split; [reflexivity|exact Hbp].
      * (* the columns after *)
        assert (Np : firstn k r' <> firstn k r).
        { intros E1. apply Hc'. apply (f_equal (firstn (S c))) in E1. rewrite !firstn_firstn in E1. replace (Nat.min (S c) k) with (S c) in E1 by lia. exact E1. }
        exists [], ((firstn k r, nth k r dflt :: vs) :: E). rewrite rgroups_snoc, HE, gpush_step. destruct (row_eq_dec (firstn k r') (firstn k r)); [congruence|].
        split; [reflexivity|]. cbn [tbuilder_add tbuilder_finish bt_builder bt_previous]. rewrite Hbb, Hbp. split; [reflexivity|]. apply Hlt. lia.
Qed.

Lemma fold_ok : forall n out L r bs, length r = n -> Forall (fun x => length (fst x) = n) out -> linked (Some r) out ->
  length bs = n -> (forall j b, nth_error bs j = Some b -> bstate j (L ++ [r]) r b) ->
  exists r', last (L ++ r :: map fst out) [] = r' /\
    let bs' := fold_left (fun bs rc => next_builders (snd rc) 0 Id32 bs (fst rc)) out bs in
    length bs' = n /\ forall j b, nth_error bs' j = Some b -> bstate j (L ++ r :: map fst out) r' b.
Proof.
  intros n. induction out as [|[p c] out IH]; intros L r bs Hr Hf Hlk Hl Hb; cbn [map fold_left fst snd].
  - exists r. split; [apply last_last|]. split; assumption.
  - cbn [linked] in Hlk. destruct Hlk as ((Hc & H1 & H2) & Hlk). pose proof (Forall_inv Hf) as Hp. pose proof (Forall_inv_tail Hf) as Hf'. cbn [fst] in Hp.
    destruct (next_ok (L ++ [r]) r p c n Hr Hp H1 H2 bs p 0 Id32) as [G1 G2].
    + unfold row in *; lia.
    + reflexivity.
    + lia.
    + exact Hb.
    + destruct (IH (L ++ [r]) p (next_builders c 0 Id32 bs p) Hp Hf' Hlk) as (r' & E1 & E2).
      * unfold row in *; lia.
      * exact G2.
      * exists r'. rewrite <- app_assoc in E1, E2. cbn [app] in E1, E2. split; [exact E1|exact E2].
Qed.

Lemma finalize_data : forall k L s, ic_data (finalizeT (closed (rgroups k L)) s) = tvals s (values (groups k L)).
Proof.
  intros k L s. unfold finalizeT, ifinalize. cbn [ic_data]. rewrite (ci_data _ _ (closed_cinv s _)). apply ds_parts.
Qed.

Theorem build_rows_stores : forall n out, 0 < n -> Forall (fun r => length r = n) (map fst out) -> StronglySorted row_lt (map fst out) -> linked None out ->
  stores n (build_rows n out) (map fst out).
Proof.
  intros n out Hn Hf Hs Hlk.
  assert (Hle : StronglySorted row_le (map fst out)).
  { clear -Hs. induction Hs as [|r l _ IH Hf]; constructor; [exact IH|]. eapply Forall_impl; [|exact Hf]. intros s H. left. exact H. }
  destruct out as [|[r0 c0] out].
  - constructor; cbn [build_rows trie_empty tr_columns map].
    + apply repeat_length.
    + constructor.
    + constructor.
    + intros k c Hk. apply nth_error_In, repeat_spec in Hk. subst c. constructor; [intros s; reflexivity|]. intros s g1 p vs g2 _ H. destruct g1; discriminate.
  - cbn [map fst] in *. pose proof (Forall_inv Hf) as H0. pose proof (Forall_inv_tail Hf) as Hf'. cbn beta in H0. cbn [linked] in Hlk. destruct Hlk as [_ Hlk].
    destruct (first_ok r0 r0 0 None eq_refl eq_refl) as [F1 F2].
    destruct (fold_ok n out [] r0 (first_builders None r0) H0) as (r' & _ & G1 & G2); try assumption.
    + apply Forall_forall. intros x Hx. apply (proj1 (Forall_forall _ _) Hf'). apply in_map, Hx.
    + unfold row in *; lia.
    + cbn [app] in *. constructor; cbn [build_rows tr_columns].
      * rewrite map_length. exact G1.
      * exact Hf.
      * exact Hle.
      * intros k c Hk. apply nth_map_inv in Hk. destruct Hk as (b & Hb & <-). destruct (G2 k b Hb) as (vs & E & HE & Hbb & Hbp).
        assert (Hfin : tbuilder_finalize b = finalizeT (closed (rgroups k (r0 :: map fst out)))).
        { unfold tbuilder_finalize, tbuilder_finish. cbn [bt_builder]. rewrite Hbb, Hbp. f_equal. etransitivity; [|apply f_equal; symmetry; exact HE]. reflexivity. }
        rewrite Hfin. constructor; [intros s; apply finalize_data|].
        intros s g1 p ws g2 Hk0 Eg. destruct k as [|k]; [lia|]. apply (layer_bounds k (r0 :: map fst out) s g1 p ws g2 Eg).
Qed.

(* what from_partial_trie_scan stores *)
Theorem materialize_stores : forall n types tau sc strict s e, e < n -> explores n types tau sc strict s ->
  exists enough tr L, (forall fuel, enough <= fuel -> from_partial_trie_scan sc fuel s e = Ok tr) /\
    stores (n - e) tr L /\ table_of (n - e) (fun p => exists q, length q = e /\ in_tree tau [] (p ++ q)) L.
Proof.
  intros n types tau sc strict s e He (Hp & R & Hsim & HR).
  destruct (collect_rows n types tau Hp sc strict R Hsim e He s HR) as (en & out & E & HT & Hlk).
  exists en, (build_rows (n - e) out), (map fst out). split; [|split; [|exact HT]].
  - intros fuel Hf. unfold from_partial_trie_scan. rewrite (e_arity _ _ _ _ _ _ Hsim _ _ HR).
    destruct (Nat.ltb_spec n e); [lia|]. destruct (Nat.eqb_spec (n - e) 0); [lia|]. rewrite (E fuel Hf). reflexivity.
  - destruct HT as [T1 T2]. apply build_rows_stores; [lia| |exact T1|exact Hlk]. apply Forall_forall. intros r Hr. apply T2 in Hr. apply Hr.
Qed.
