(* C28: ids are stable, and values come back. *)
From Coq Require Import List ZArith Bool Lia.
From Verif Require Import ColumnModel BufferModel BytesDictModel BytesDictSpec BufferProofs BytesDictProofs DictModel DictSpec DictProofs1 DictProofs2.
Import ListNotations.
Local Open Scope Z_scope.

Section Ind.
  Variable P : datavalue -> Prop.
  Hypothesis Htuple : forall label es, Forall P es -> P (TupleValue label es).
  Hypothesis Hother : forall v, (forall label es, v <> TupleValue label es) -> P v.
  Fixpoint datavalue_ind' (v : datavalue) : P v :=
    match v with
    | TupleValue label es => Htuple label es ((fix go (es : list datavalue) : Forall P es := match es with [] => Forall_nil _ | e :: es => Forall_cons e (datavalue_ind' e) (go es) end) es)
    | PlainString s => Hother (PlainString s) ltac:(discriminate)
    | LangString s t => Hother (LangString s t) ltac:(discriminate)
    | Iri s => Hother (Iri s) ltac:(discriminate)
    | FloatValue b => Hother (FloatValue b) ltac:(discriminate)
    | DoubleValue b => Hother (DoubleValue b) ltac:(discriminate)
    | LongValue b => Hother (LongValue b) ltac:(discriminate)
    | UnsignedLong b => Hother (UnsignedLong b) ltac:(discriminate)
    | BooleanValue b => Hother (BooleanValue b) ltac:(discriminate)
    | MapValue l es => Hother (MapValue l es) ltac:(discriminate)
    | NullValue b => Hother (NullValue b) ltac:(discriminate)
    | OtherValue l d => Hother (OtherValue l d) ltac:(discriminate)
    end.
End Ind.

(* ---- the functions, for tuples and for other values ---- *)
Definition elems_lookup (D : meta) : list datavalue -> tuple_state -> res (option tuple_state) :=
  fix go (es : list datavalue) (s : tuple_state) : res (option tuple_state) :=
  match es with
  | [] => Ok (Some s)
  | e :: es =>
      match inline_element e with
      | Some q => go es (push_element s q)
      | None =>
          bind (datavalue_to_id D e) (fun id =>
          match id with Some id => go es (push_element s (id_bytes id TYPE_DICTID32 TYPE_DICTID64)) | None => Ok None end)
      end
  end.
Lemma elems_lookup_cons : forall D e es s, elems_lookup D (e :: es) s =
  match inline_element e with
  | Some q => elems_lookup D es (push_element s q)
  | None => bind (datavalue_to_id D e) (fun id => match id with Some id => elems_lookup D es (push_element s (id_bytes id TYPE_DICTID32 TYPE_DICTID64)) | None => Ok None end)
  end.
Proof. reflexivity. Qed.
Definition start_lookup (D : meta) (label : option bytes) : res (option tuple_state) :=
  match label with
  | None => Ok (Some (tuple_start []))
  | Some l => bind (datavalue_to_id D (Iri l)) (fun id => Ok (option_map (fun id => tuple_start (label_bytes id)) id))
  end.
Lemma lookup_tuple : forall D label es, datavalue_to_id D (TupleValue label es) =
  bind (start_lookup D label) (fun start => match start with None => Ok None | Some start =>
  bind (elems_lookup D es start) (fun s => match s with None => Ok None | Some s => bind (pair_to_id (tuple_dict D) (fst (tuple_end s)) (snd (tuple_end s))) (to_global D TUPLE_DICT) end) end).
Proof. intros. destruct label; reflexivity. Qed.
Lemma lookup_other : forall D v, (forall label es, v <> TupleValue label es) -> datavalue_to_id D v = match dict_for v with None => Ok None | Some dict => bind (local_lookup D v) (to_global D dict) end.
Proof. intros D v H. destruct v; try reflexivity. destruct (H _ _ eq_refl). Qed.
Fixpoint elems_add (es : list datavalue) (D : meta) (s : tuple_state) : res (meta * tuple_state) :=
  match es with
  | [] => Ok (D, s)
  | e :: es =>
      match inline_element e with
      | Some q => elems_add es D (push_element s q)
      | None => bind (add_datavalue D e) (fun q => elems_add es (fst q) (push_element s (id_bytes (result_value (snd q)) TYPE_DICTID32 TYPE_DICTID64)))
      end
  end.
Definition start_add (D : meta) (label : option bytes) : res (meta * tuple_state) :=
  match label with
  | None => Ok (D, tuple_start [])
  | Some l => bind (add_datavalue D (Iri l)) (fun q => Ok (fst q, tuple_start (label_bytes (result_value (snd q)))))
  end.
Definition tuple_add (s : tuple_state) (D : meta) : res (meta * add_result) :=
  bind (add_pair (tuple_dict D) (fst (tuple_end s)) (snd (tuple_end s))) (fun q => finish_add TUPLE_DICT (with_tuple D (fst q), snd q)).
Lemma add_tuple : forall D label es, add_datavalue D (TupleValue label es) =
  known_or D (TupleValue label es) (bind (start_add D label) (fun q => bind (elems_add es (fst q) (snd q)) (fun q => tuple_add (snd q) (fst q)))).
Proof. intros. destruct label; reflexivity. Qed.
Lemma add_other : forall D v, (forall label es, v <> TupleValue label es) -> add_datavalue D v = match dict_for v with None => Ok (D, Rejected) | Some dict => known_or D v (bind (local_add D v) (finish_add dict)) end.
Proof. intros D v H. destruct v; try reflexivity. destruct (H _ _ eq_refl). Qed.
Lemma known_or_ok : forall D v add D' r, known_or D v add = Ok (D', r) -> (D' = D /\ exists id, r = Known id /\ datavalue_to_id D v = Ok (Some id)) \/ add = Ok (D', r).
Proof. intros D v add D' r E. unfold known_or in E. apply bind_ok in E. destruct E as ([id|] & E1 & E); [left|right; exact E]. inversion E; subst. eauto. Qed.

(* ---- ids do not change ---- *)
Lemma dict_for_lt : forall v k, dict_for v = Some k -> (k < 6)%nat.
Proof.
  intros v k E. assert (H : In k [IRI_DICT; STRING_DICT; LANGSTRING_DICT; OTHER_DICT; NULL_DICT; TUPLE_DICT]).
  { destruct v; cbn [dict_for] in E; try discriminate E; try (destruct (n >? I64_MAX); [|discriminate E]); injection E as E; rewrite <- E; cbn [In]; auto 10. }
  cbn [In] in H. unfold IRI_DICT, STRING_DICT, LANGSTRING_DICT, OTHER_DICT, NULL_DICT, TUPLE_DICT in H. lia.
Qed.
Lemma local_lookup_le : forall D D' v id, subs_ok D -> subs_ok D' -> subs_le D D' -> local_lookup D v = Ok (Some id) -> local_lookup D' v = Ok (Some id).
Proof.
  intros D D' v id S S' L E.
  assert (Ho : forall f r, pair_to_id (other_dict D) f r = Ok (Some id) -> pair_to_id (other_dict D') f r = Ok (Some id)) by (intros f r; apply pair_to_id_le; [apply S|apply S'|apply L]).
  destruct v; cbn [local_lookup] in *; try discriminate E; try (match type of E with match ?x with _ => _ end = _ => destruct x as [[f r]|] end; [apply Ho, E|discriminate E]).
  - rewrite (lookup_le _ _ s id (ok_string _ S) (ok_string _ S') (le_string _ _ L)) by congruence. reflexivity.
  - apply bind_ok in E. destruct E as (x & Ex & E). rewrite Ex. cbn [bind]. rewrite (lookup_le _ _ x id (ok_lang _ S) (ok_lang _ S') (le_lang _ _ L)) by congruence. reflexivity.
  - exact (pair_to_id_le _ _ _ _ _ (ok_iri _ S) (ok_iri _ S') (le_iri _ _ L) E).
  - pose proof (le_null _ _ L). destruct (Z.ltb_spec id0 (nulls D)); [|discriminate]. destruct (Z.ltb_spec id0 (nulls D')); [exact E|lia].
Qed.
Lemma to_global_le : forall D D' k x id, blocks_ok D -> blocks_ok D' -> blocks_le D D' -> (k < 6)%nat -> to_global D k x = Ok (Some id) -> to_global D' k x = Ok (Some id).
Proof.
  intros D D' k x id [HL _] [HL' _] [L _] Hk E. unfold to_global in *. destruct x as [lid|]; [|discriminate]. rewrite unchecked_eq in * by lia.
  destruct (block D k (local_block lid)) as [b|] eqn:Eb; [|discriminate]. rewrite (L _ _ _ Eb). exact E.
Qed.
Definition stable (v : datavalue) : Prop := forall D D' id, meta_ok D -> meta_ok D' -> meta_le D D' -> datavalue_to_id D v = Ok (Some id) -> datavalue_to_id D' v = Ok (Some id).
Lemma stable_other : forall v, (forall label es, v <> TupleValue label es) -> stable v.
Proof.
  intros v H D D' id M M' L E. rewrite lookup_other in * by exact H. destruct (dict_for v) as [k|] eqn:Ek; [|exact E]. pose proof (dict_for_lt _ _ Ek) as Hk.
  apply bind_ok in E. destruct E as (x & Ex & E). destruct x as [lid|]; [|discriminate]. rewrite (local_lookup_le _ _ _ _ (ok_subs _ M) (ok_subs _ M') (le_subs _ _ L) Ex). cbn [bind].
  exact (to_global_le _ _ _ _ _ (ok_blocks _ M) (ok_blocks _ M') (le_blocks _ _ L) Hk E).
Qed.
Lemma start_le : forall D D' label s, meta_ok D -> meta_ok D' -> meta_le D D' -> start_lookup D label = Ok (Some s) -> start_lookup D' label = Ok (Some s).
Proof.
  intros D D' label s M M' L E. destruct label as [l|]; [|exact E]. cbn [start_lookup] in *. apply bind_ok in E. destruct E as ([id|] & Ei & E); [|discriminate].
  rewrite (stable_other (Iri l) ltac:(discriminate) _ _ _ M M' L Ei). exact E.
Qed.
Lemma elems_le : forall es, Forall stable es -> forall D D' s s', meta_ok D -> meta_ok D' -> meta_le D D' -> elems_lookup D es s = Ok (Some s') -> elems_lookup D' es s = Ok (Some s').
Proof.
  intros es H D D' s s' M M' L. revert s. induction H as [|e es He H IH]; intros s E; [exact E|]. rewrite elems_lookup_cons in *. destruct (inline_element e) as [q|]; [exact (IH _ E)|].
  apply bind_ok in E. destruct E as ([id|] & Ei & E); [|discriminate]. rewrite (He _ _ _ M M' L Ei). cbn [bind]. exact (IH _ E).
Qed.
Lemma stable_all : forall v, stable v.
Proof.
  apply datavalue_ind'; [|exact stable_other]. intros label es H D D' id M M' L E. rewrite lookup_tuple in *.
  apply bind_ok in E. destruct E as ([s|] & Es & E); [|discriminate]. rewrite (start_le _ _ _ _ M M' L Es). cbn [bind].
  apply bind_ok in E. destruct E as ([s'|] & Es' & E); [|discriminate]. rewrite (elems_le _ H _ _ _ _ M M' L Es'). cbn [bind].
  apply bind_ok in E. destruct E as ([lid|] & Ep & E); [|discriminate]. rewrite (pair_to_id_le _ _ _ _ _ (ok_tuple _ (ok_subs _ M)) (ok_tuple _ (ok_subs _ M')) (le_tuple _ _ (le_subs _ _ L)) Ep). cbn [bind].
  refine (to_global_le _ _ _ _ _ (ok_blocks _ M) (ok_blocks _ M') (le_blocks _ _ L) _ E). unfold TUPLE_DICT. lia.
Qed.

(* ---- the number of blocks does not decrease ---- *)
Lemma allocate_len : forall D k j D' g, allocate_block D k j = Ok (D', g) -> (length (dictblocks D) <= length (dictblocks D'))%nat.
Proof.
  intros D k j D' g E. unfold allocate_block in E. apply bind_ok in E. destruct E as (gb & _ & E). apply bind_ok in E. destruct E as ([o|] & _ & E).
  - inversion E; subst. cbn. lia.
  - apply bind_ok in E. destruct E as (p & _ & E). apply (f_equal (fun r => match r with Ok q => dictblocks (fst q) | _ => [] end)) in E. cbn [fst dictblocks with_blocks] in E. rewrite <- E. rewrite length_set. destruct (length (dictblocks D) <=? p)%nat; [rewrite length_resize|]; lia.
Qed.
Lemma local_to_global_len : forall D k i D' g, local_to_global D k i = Ok (D', g) -> (length (dictblocks D) <= length (dictblocks D'))%nat.
Proof. intros D k i D' g E. unfold local_to_global in E. apply bind_ok in E. destruct E as ([D1 b] & E1 & E). inversion E; subst. exact (allocate_len _ _ _ _ _ E1). Qed.
Lemma finish_len : forall k D r D' s, finish_add k (D, r) = Ok (D', s) -> (length (dictblocks D) <= length (dictblocks D'))%nat.
Proof.
  intros k D r D' s E. unfold finish_add in E. cbn [fst snd] in E. destruct (_ =? _); [inversion E; subst; lia|]. apply bind_ok in E. destruct E as ([D1 g] & E1 & E). inversion E; subst. exact (local_to_global_len _ _ _ _ _ E1).
Qed.
Lemma local_add_same : forall D v D' r, local_add D v = Ok (D', r) -> gblocks D' = gblocks D /\ dictblocks D' = dictblocks D.
Proof.
  intros D v D' r E.
  assert (Ho : forall f q, bind (add_pair (other_dict D) f q) (fun q => Ok (with_other D (fst q), snd q)) = Ok (D', r) -> gblocks D' = gblocks D /\ dictblocks D' = dictblocks D).
  { intros f q Eo. apply bind_ok in Eo. destruct Eo as (? & _ & Eo). inversion Eo; subst. auto. }
  destruct v; cbn [local_add] in E; try (match type of E with match ?x with _ => _ end = _ => destruct x as [[f q]|] end; [exact (Ho _ _ E)|inversion E; subst; auto]; fail).
  - destruct (spec_add _ _). inversion E; subst; auto.
  - apply bind_ok in E. destruct E as (x & _ & E). destruct (spec_add _ _). inversion E; subst; auto.
  - apply bind_ok in E. destruct E as (x & _ & E). inversion E; subst; auto.
  - inversion E; subst; auto.
Qed.
Definition grows (v : datavalue) : Prop := forall D D' r, add_datavalue D v = Ok (D', r) -> (length (dictblocks D) <= length (dictblocks D'))%nat.
Lemma grows_other : forall v, (forall label es, v <> TupleValue label es) -> grows v.
Proof.
  intros v H D D' r E. rewrite add_other in E by exact H. destruct (dict_for v) as [k|]; [|inversion E; subst; lia]. apply known_or_ok in E. destruct E as [[-> _]|E]; [lia|].
  apply bind_ok in E. destruct E as ([D1 s] & E1 & E). destruct (local_add_same _ _ _ _ E1) as [_ Ed]. rewrite <- Ed. exact (finish_len _ _ _ _ _ E).
Qed.
Lemma start_grows : forall D label D' s, start_add D label = Ok (D', s) -> (length (dictblocks D) <= length (dictblocks D'))%nat.
Proof.
  intros D label D' s E. destruct label as [l|]; cbn [start_add] in E; [|inversion E; subst; lia]. apply bind_ok in E. destruct E as ([D1 r] & E1 & E). inversion E; subst. exact (grows_other (Iri l) ltac:(discriminate) _ _ _ E1).
Qed.
Lemma elems_grows : forall es, Forall grows es -> forall D s D' s', elems_add es D s = Ok (D', s') -> (length (dictblocks D) <= length (dictblocks D'))%nat.
Proof.
  intros es H. induction H as [|e es He H IH]; intros D s D' s' E; cbn [elems_add] in E; [inversion E; subst; lia|]. destruct (inline_element e) as [q|]; [exact (IH _ _ _ _ E)|].
  apply bind_ok in E. destruct E as ([D1 r] & E1 & E). pose proof (He _ _ _ E1). pose proof (IH _ _ _ _ E). cbn [fst] in *. lia.
Qed.
Lemma tuple_add_grows : forall s D D' r, tuple_add s D = Ok (D', r) -> (length (dictblocks D) <= length (dictblocks D'))%nat.
Proof. intros s D D' r E. unfold tuple_add in E. apply bind_ok in E. destruct E as ([d q] & _ & E). exact (finish_len _ _ _ _ _ E). Qed.
Lemma grows_all : forall v, grows v.
Proof.
  apply datavalue_ind'; [|exact grows_other]. intros label es H D D' r E. rewrite add_tuple in E. apply known_or_ok in E. destruct E as [[-> _]|E]; [lia|].
  apply bind_ok in E. destruct E as ([D1 s] & E1 & E). apply bind_ok in E. destruct E as ([D2 s'] & E2 & E). cbn [fst snd] in *.
  pose proof (start_grows _ _ _ _ E1). pose proof (elems_grows _ H _ _ _ _ E2). pose proof (tuple_add_grows _ _ _ _ E). lia.
Qed.

(* ---- adding ---- *)
Lemma local_add_ok : forall D v k D1 r, subs_ok D -> wf v -> dict_for v = Some k -> (forall label es, v <> TupleValue label es) -> local_add D v = Ok (D1, r) ->
  (r = Rejected /\ D1 = D /\ exists id, v = NullValue id /\ nulls D <= id) \/
  (subs_ok D1 /\ subs_le D D1 /\ local_lookup D1 v = Ok (Some (result_value r)) /\ 0 <= result_value r < size D1 k /\
   (forall k', k' <> k -> size D1 k' <= size D k') /\ size D1 k <= Z.max (size D k) (result_value r + 1) /\ result_value r <= size D k).
Proof.
  intros D v k D1 r S W Ek Hnt E. destruct S as [S1 S2 S3 S4 S5 S6].
  assert (Ho : forall f q, k = OTHER_DICT -> (forall D, local_lookup D v = pair_to_id (other_dict D) f q) -> bind (add_pair (other_dict D) f q) (fun q => Ok (with_other D (fst q), snd q)) = Ok (D1, r) ->
    subs_ok D1 /\ subs_le D D1 /\ local_lookup D1 v = Ok (Some (result_value r)) /\ 0 <= result_value r < size D1 k /\
    (forall k', k' <> k -> size D1 k' <= size D k') /\ size D1 k <= Z.max (size D k) (result_value r + 1) /\ result_value r <= size D k).
  { intros f q -> El Eo. apply bind_ok in Eo. destruct Eo as ([d t] & Ea & Eo). inversion Eo; subst D1 t; clear Eo. cbn [fst snd] in *. destruct (add_pair_ok _ _ _ _ _ S4 Ea) as (Q1 & Q2 & Q3 & Q4 & Q5 & Q6 & Q7).
    split; [constructor; assumption|]. split; [constructor; cbn; try apply pd_le_refl; try apply known_le_refl; [exact Q2|lia]|]. split; [rewrite El; exact Q3|]. split; [exact Q4|]. split; [|split; [exact Q5|exact Q6]].
    intros k' Hk'. do 6 (destruct k' as [|k']; [cbn; try lia; try (destruct Hk'; reflexivity)|]). cbn. lia. }
  destruct v; cbn [local_add] in E; cbn [dict_for] in Ek; try discriminate Ek; try (destruct (Hnt _ _ eq_refl)).
  - right. destruct (spec_add (string_dict D) s) as [d t] eqn:Ea. inversion E; subst D1 t; clear E. inversion Ek; subst k. destruct (spec_add_ok _ _ _ _ S2 Ea) as (Q1 & Q2 & Q3 & Q4 & Q5 & Q6 & Q7).
    split; [constructor; assumption|]. split; [constructor; cbn; try apply pd_le_refl; try apply known_le_refl; [exact Q2|lia]|]. split; [cbn; rewrite Q3; reflexivity|]. split; [exact Q4|]. split; [|split; [exact Q5|exact Q6]].
    intros k' Hk'. do 6 (destruct k' as [|k']; [cbn; try lia; try (destruct Hk'; reflexivity)|]). cbn. lia.
  - right. apply bind_ok in E. destruct E as (x & Ex & E). destruct (spec_add (langstring_dict D) x) as [d t] eqn:Ea. inversion E; subst D1 t; clear E. inversion Ek; subst k. destruct (spec_add_ok _ _ _ _ S3 Ea) as (Q1 & Q2 & Q3 & Q4 & Q5 & Q6 & Q7).
    split; [constructor; assumption|]. split; [constructor; cbn; try apply pd_le_refl; try apply known_le_refl; [exact Q2|lia]|]. split; [cbn [local_lookup]; rewrite Ex; cbn; rewrite Q3; reflexivity|]. split; [exact Q4|]. split; [|split; [exact Q5|exact Q6]].
    intros k' Hk'. do 6 (destruct k' as [|k']; [cbn; try lia; try (destruct Hk'; reflexivity)|]). cbn. lia.
  - right. apply bind_ok in E. destruct E as ([d t] & Ea & E). inversion E; subst D1 t; clear E. inversion Ek; subst k. cbn [fst snd] in *. destruct (add_pair_ok _ _ _ _ _ S1 Ea) as (Q1 & Q2 & Q3 & Q4 & Q5 & Q6 & Q7).
    split; [constructor; assumption|]. split; [constructor; cbn; try apply pd_le_refl; try apply known_le_refl; [exact Q2|lia]|]. split; [exact Q3|]. split; [exact Q4|]. split; [|split; [exact Q5|exact Q6]].
    intros k' Hk'. do 6 (destruct k' as [|k']; [cbn; try lia; try (destruct Hk'; reflexivity)|]). cbn. lia.
  - destruct (n >? I64_MAX) eqn:En; [|discriminate]. right. cbn [other_pair] in E. rewrite En in E. refine (Ho _ _ _ _ E); [congruence|]. intros D2. cbn [local_lookup other_pair]. rewrite En. reflexivity.
  - right. refine (Ho _ _ _ _ E); [congruence|]. reflexivity.
  - destruct (Z.ltb_spec id (nulls D)) as [Hlt|Hge]; inversion E; subst D1 r; clear E; [right|left; eauto]. inversion Ek; subst k. inversion W; subst. match goal with H : U64 _ |- _ => destruct H end. split; [constructor; assumption|]. split; [apply subs_le_refl|].
    cbn [result_value local_lookup]. change (size D NULL_DICT) with (nulls D). destruct (Z.ltb_spec id (nulls D)) as [_|?]; [|lia]. split; [reflexivity|]. split; [lia|]. split; [intros; lia|]. lia.
  - right. refine (Ho _ _ _ _ E); [congruence|]. reflexivity.
Qed.
(* what adding does *)
Definition add_spec (v : datavalue) : Prop := forall D D' r, wf v -> meta_ok D -> fits D' -> add_datavalue D v = Ok (D', r) ->
  meta_ok D' /\ meta_le D D' /\ (supported v -> match r with Rejected => exists id, v = NullValue id | Fresh g => datavalue_to_id D' v = Ok (Some g) | Known g => datavalue_to_id D' v = Ok (Some g) end).
Lemma not_mark : forall D k x, meta_ok D -> fits D -> x <= size D k -> x <> NONEXISTING_ID_MARK.
Proof. intros D k x M F H. pose proof (size_bound D k M F). unfold NONEXISTING_ID_MARK. change (2 ^ 64) with (2 ^ 63 * 2) in *. lia. Qed.
Lemma fits_len : forall D D', (length (dictblocks D) <= length (dictblocks D'))%nat -> fits D' -> fits D.
Proof. intros D D' H F. unfold fits in *. lia. Qed.
Lemma add_spec_other : forall v, (forall label es, v <> TupleValue label es) -> add_spec v.
Proof.
  intros v H D D' r W M F E. rewrite add_other in E by exact H. destruct (dict_for v) as [k|] eqn:Ek.
  2: { inversion E; subst. split; [exact M|]. split; [apply meta_le_refl|]. intros Sv. destruct Sv; try discriminate Ek. }
  pose proof (dict_for_lt _ _ Ek) as Hk.
  apply known_or_ok in E. destruct E as [[-> (id & -> & Ei)]|E]; [split; [exact M|]; split; [apply meta_le_refl|]; intros _; exact Ei|].
  apply bind_ok in E. destruct E as ([D1 s] & E1 & E). destruct (local_add_same _ _ _ _ E1) as [Eg Ed]. pose proof (finish_len _ _ _ _ _ E) as Hlen. rewrite Ed in Hlen. pose proof (fits_len _ _ Hlen F) as F0.
  destruct (local_add_ok _ _ _ _ _ (ok_subs _ M) W Ek H E1) as [(-> & -> & id & -> & Hid)|(S1 & L1 & Q1 & Q2 & Q3 & Q4 & Q5)].
  - unfold finish_add in E. cbn in E. inversion E; subst. split; [exact M|]. split; [apply meta_le_refl|]. intros _. eauto.
  - assert (P : pending D1 k (result_value s)) by (apply (pending_of_ok D); assumption). pose proof (not_mark _ _ _ M F0 Q5) as Hn.
    destruct (finish_ok _ _ _ _ _ Hk P Hn E) as (M' & L' & SL & g & -> & Eu & _).
    assert (B1 : blocks_le D D1) by (split; [intros k' j g'; unfold block; rewrite Eg; auto|rewrite Ed; lia]).
    split; [exact M'|]. split; [apply (meta_le_trans _ D1); [constructor; assumption|exact L']|]. intros _. rewrite lookup_other by exact H. rewrite Ek.
    rewrite (local_lookup_le _ _ _ _ S1 (ok_subs _ M') (le_subs _ _ L') Q1). cbn [bind to_global]. rewrite Eu. reflexivity.
Qed.
Lemma supported_wf : forall v, supported v -> wf v.
Proof.
  apply (datavalue_ind' (fun v => supported v -> wf v)).
  - intros label es IH S. inversion S as [| | | | | |? ? Hl Hes]; subst. constructor. rewrite Forall_forall in *. intros e He. destruct (Hes e He) as [Se|Ne]; [exact (IH e He Se)|]. destruct Ne; constructor; assumption.
  - intros v H S. destruct S; try (constructor; assumption). destruct (H _ _ eq_refl).
Qed.
Lemma start_add_ok : forall D label D' s, meta_ok D -> fits D' -> start_add D label = Ok (D', s) -> meta_ok D' /\ meta_le D D' /\ start_lookup D' label = Ok (Some s).
Proof.
  intros D label D' s M F E. destruct label as [l|]; cbn [start_add start_lookup] in *.
  - apply bind_ok in E. destruct E as ([D1 r] & E1 & E). inversion E; subst D1 s; clear E. cbn [fst snd] in *.
    destruct (add_spec_other (Iri l) ltac:(discriminate) _ _ _ (wf_iri l) M F E1) as (M' & L & Hr). specialize (Hr (sup_iri l)). split; [exact M'|]. split; [exact L|].
    destruct r as [g|g|]; [| |destruct Hr as [? Hr]; discriminate Hr]; rewrite Hr; reflexivity.
  - inversion E; subst. split; [exact M|]. split; [apply meta_le_refl|reflexivity].
Qed.
Lemma number_inline : forall e, number e -> inline_element e <> None.
Proof. intros e H. destruct H as [| | |n]; cbn [inline_element]; [discriminate|discriminate|discriminate|]. destruct (n >? I64_MAX); discriminate. Qed.
Lemma elems_add_ok : forall es, Forall add_spec es -> Forall wf es -> forall D s D' s', meta_ok D -> fits D' -> elems_add es D s = Ok (D', s') ->
  meta_ok D' /\ meta_le D D' /\ (Forall (fun e => supported e \/ number e) es -> elems_lookup D' es s = Ok (Some s')).
Proof.
  intros es H. induction H as [|e es He H IH]; intros W D s D' s' M F E; cbn [elems_add] in E.
  - inversion E; subst. split; [exact M|]. split; [apply meta_le_refl|]. reflexivity.
  - inversion W as [|? ? We Wes]; subst. destruct (inline_element e) as [q|] eqn:Eq.
    + destruct (IH Wes _ _ _ _ M F E) as (M' & L & Hl). split; [exact M'|]. split; [exact L|]. intros Hs. rewrite elems_lookup_cons. rewrite Eq. apply Hl. inversion Hs; assumption.
    + apply bind_ok in E. destruct E as ([D1 r] & E1 & E). cbn [fst snd] in E.
      assert (F1 : fits D1). { refine (fits_len _ _ (elems_grows es _ _ _ _ _ E) F). rewrite Forall_forall. intros x _. apply grows_all. }
      destruct (He _ _ _ We M F1 E1) as (M1 & L1 & Hr). destruct (IH Wes _ _ _ _ M1 F E) as (M' & L & Hl). split; [exact M'|]. split; [exact (meta_le_trans _ _ _ L1 L)|].
      intros Hs. inversion Hs as [|? ? Hse Hses]; subst. rewrite elems_lookup_cons. rewrite Eq. destruct Hse as [Se|Ne]; [|destruct (number_inline _ Ne Eq)]. specialize (Hr Se).
      destruct r as [g|g|]; [| |destruct Hr as [? ->]; discriminate Eq]; rewrite (stable_all e _ _ _ M1 M' L Hr); exact (Hl Hses).
Qed.
Lemma tuple_add_ok : forall s D D' r, meta_ok D -> fits D' -> tuple_add s D = Ok (D', r) ->
  meta_ok D' /\ meta_le D D' /\ exists g, r = Fresh g /\ bind (pair_to_id (tuple_dict D') (fst (tuple_end s)) (snd (tuple_end s))) (to_global D' TUPLE_DICT) = Ok (Some g).
Proof.
  intros s D D' r M F E. pose proof (fits_len _ _ (tuple_add_grows _ _ _ _ E) F) as F0. unfold tuple_add in E. apply bind_ok in E. destruct E as ([d q] & Ea & E). cbn [fst snd] in E. destruct M as [S B R]. pose proof (mk_meta_ok _ S B R) as M. destruct S as [S1 S2 S3 S4 S5 S6].
  destruct (add_pair_ok _ _ _ _ _ S6 Ea) as (Q1 & Q2 & Q3 & Q4 & Q5 & Q6 & Q7).
  assert (Hn : result_value q <> NONEXISTING_ID_MARK) by exact (not_mark D TUPLE_DICT _ M F0 Q6).
  assert (P : pending (with_tuple D d) TUPLE_DICT (result_value q)).
  { apply (pending_of_ok D); [exact M|constructor; assumption|reflexivity|reflexivity| |exact Q5|exact Q6]. intros k' Hk'. do 6 (destruct k' as [|k']; [cbn; try lia; try (destruct Hk'; reflexivity)|]). cbn. lia. }
  assert (Hk : (TUPLE_DICT < 6)%nat) by (unfold TUPLE_DICT; lia).
  destruct (finish_ok _ _ _ _ _ Hk P Hn E) as (M' & L' & SL & g & -> & Eu & _).
  split; [exact M'|]. split.
  - apply (meta_le_trans _ (with_tuple D d)); [|exact L']. constructor; [|split; [intros k0 j0 g0 Hg0; exact Hg0|apply le_n]]. constructor; cbn; try apply pd_le_refl; try apply known_le_refl; try lia; exact Q2.
  - exists g. split; [reflexivity|]. rewrite (pair_to_id_le (tuple_dict (with_tuple D d)) _ _ _ _ Q1 (ok_tuple _ (ok_subs _ M')) (le_tuple _ _ (le_subs _ _ L')) Q3). cbn [bind to_global]. rewrite Eu. reflexivity.
Qed.
Lemma add_spec_all : forall v, add_spec v.
Proof.
  apply datavalue_ind'; [|exact add_spec_other]. intros label es H D D' r W M F E. inversion W as [| | | | | | | |? ? Wes| | |]; subst. rewrite add_tuple in E.
  apply known_or_ok in E. destruct E as [[-> (id & -> & Ei)]|E]; [split; [exact M|]; split; [apply meta_le_refl|]; intros _; exact Ei|].
  apply bind_ok in E. destruct E as ([D1 s] & E1 & E). apply bind_ok in E. destruct E as ([D2 s'] & E2 & E). cbn [fst snd] in *.
  pose proof (fits_len _ _ (tuple_add_grows _ _ _ _ E) F) as F2.
  assert (F1 : fits D1). { refine (fits_len _ _ (elems_grows es _ _ _ _ _ E2) F2). rewrite Forall_forall. intros x _. apply grows_all. }
  destruct (start_add_ok _ _ _ _ M F1 E1) as (M1 & L1 & Es). destruct (elems_add_ok _ H Wes _ _ _ _ M1 F2 E2) as (M2 & L2 & Ee). destruct (tuple_add_ok _ _ _ _ M2 F E) as (M' & L3 & g & -> & Et).
  split; [exact M'|]. split; [exact (meta_le_trans _ _ _ L1 (meta_le_trans _ _ _ L2 L3))|]. intros Sv. inversion Sv as [| | | | | |? ? Hl Hes]; subst.
  rewrite lookup_tuple. rewrite (start_le _ _ _ _ M1 M' (meta_le_trans _ _ _ L2 L3) Es). cbn [bind].
  assert (Hst : Forall stable es) by (rewrite Forall_forall; intros x _; apply stable_all). rewrite (elems_le _ Hst _ _ _ _ M2 M' L3 (Ee Hes)). cbn [bind]. exact Et.
Qed.
Lemma fresh_null_ok : forall D D' v id, meta_ok D -> fits D' -> fresh_null D = Ok (D', v, id) -> meta_ok D' /\ meta_le D D' /\ v = NullValue (nulls D) /\ nulls D' = nulls D + 1 /\ datavalue_to_id D' v = Ok (Some id).
Proof.
  intros D D' v id M F E. unfold fresh_null in E. apply bind_ok in E. destruct E as ([D1 g] & E1 & E). assert (D1 = D' /\ v = NullValue (nulls D) /\ g = id) as (-> & -> & ->) by (cbn in E; repeat split; congruence). clear E. destruct M as [S B R]. pose proof (mk_meta_ok _ S B R) as M. destruct S as [S1 S2 S3 S4 S5 S6].
  pose proof (local_to_global_len _ _ _ _ _ E1) as Hlen. cbn in Hlen. pose proof (fits_len _ _ Hlen F) as F0.
  assert (P : pending (with_nulls D (nulls D + 1)) NULL_DICT (nulls D)).
  { apply (pending_of_ok D); [exact M|constructor; cbn; try assumption; lia|reflexivity|reflexivity| |cbn; lia|cbn; lia]. intros k' Hk'. do 6 (destruct k' as [|k']; [cbn; try lia; try (destruct Hk'; reflexivity)|]). cbn. lia. }
  assert (Hn : nulls D <> NONEXISTING_ID_MARK) by (apply (not_mark D NULL_DICT _ M F0); cbn; lia).
  assert (Ef : finish_add NULL_DICT (with_nulls D (nulls D + 1), Fresh (nulls D)) = Ok (D', Fresh id)).
  { unfold finish_add. cbn [fst snd result_value]. destruct (Z.eqb_spec (nulls D) NONEXISTING_ID_MARK) as [?|_]; [contradiction|]. rewrite E1. reflexivity. }
  assert (Hk : (NULL_DICT < 6)%nat) by (unfold NULL_DICT; lia).
  destruct (finish_ok _ _ (Fresh (nulls D)) _ _ Hk P Hn Ef) as (M' & L' & SL & g & Eg & Eu & _). assert (g = id) by congruence. subst g.
  assert (EN : nulls D' = nulls D + 1). { pose proof (le_null _ _ (le_subs _ _ L')) as H1. pose proof (le_null _ _ SL) as H2. cbn in H1, H2. lia. }
  split; [exact M'|]. split.
  - apply (meta_le_trans _ (with_nulls D (nulls D + 1))); [|exact L']. constructor; [|split; [intros k0 j0 g0 Hg0; exact Hg0|apply le_n]]. constructor; cbn; try apply pd_le_refl; try apply known_le_refl. lia.
  - split; [reflexivity|]. split; [exact EN|]. cbn [datavalue_to_id dict_for local_lookup]. rewrite EN. destruct (Z.ltb_spec (nulls D) (nulls D + 1)); [|lia]. cbn [bind to_global]. cbn [result_value] in Eu. rewrite Eu. reflexivity.
Qed.
Lemma meta_new_ok : meta_ok meta_new.
Proof.
  assert (K : known_ok nothing) by (split; [constructor|reflexivity]). constructor.
  - constructor; cbn; try exact K; try (split; exact K). lia.
  - split; [reflexivity|]. intros k j g. cbn. split; [|destruct g; discriminate]. unfold block, meta_new. cbn [gblocks]. do 6 (destruct k as [|k]; [destruct j; discriminate|]). destruct k; discriminate.
  - intros k id H. do 6 (destruct k as [|k]; [cbn in H; lia|]). cbn in H. lia.
Qed.
Lemma reached_len : forall D ids, reached D ids -> forall D' r v, add_datavalue D v = Ok (D', r) -> fits D' -> fits D.
Proof. intros D ids _ D' r v E F. exact (fits_len _ _ (grows_all v _ _ _ E) F). Qed.
Lemma reached_ok : forall D ids, reached D ids -> fits D -> meta_ok D /\ forall v id, In (v, id) ids -> supported v -> datavalue_to_id D v = Ok (Some id).
Proof.
  intros D ids H. induction H as [|D ids v D' r H IH W E|D ids D' v id H IH E]; intros F.
  - split; [exact meta_new_ok|intros ? ? []].
  - destruct (IH (fits_len _ _ (grows_all v _ _ _ E) F)) as [M Hold]. destruct (add_spec_all v _ _ _ W M F E) as (M' & L & Hr). split; [exact M'|].
    intros w i Hi Sw. destruct r as [g|g|].
    + destruct Hi as [Hi|Hi]; [|exact (stable_all w _ _ _ M M' L (Hold _ _ Hi Sw))]. inversion Hi; subst. exact (Hr Sw).
    + destruct Hi as [Hi|Hi]; [|exact (stable_all w _ _ _ M M' L (Hold _ _ Hi Sw))]. inversion Hi; subst. exact (Hr Sw).
    + exact (stable_all w _ _ _ M M' L (Hold _ _ Hi Sw)).
  - assert (F0 : fits D). { unfold fresh_null in E. apply bind_ok in E. destruct E as ([D1 g] & E1 & E). cbn in E. assert (D1 = D') by congruence. subst D1. pose proof (local_to_global_len _ _ _ _ _ E1) as Hlen. cbn in Hlen. exact (fits_len _ _ Hlen F). }
    destruct (IH F0) as [M Hold]. destruct (fresh_null_ok _ _ _ _ M F E) as (M' & L & _ & _ & Hv). split; [exact M'|].
    intros w i [Hi|Hi] Sw; [inversion Hi; subst; exact Hv|exact (stable_all w _ _ _ M M' L (Hold _ _ Hi Sw))].
Qed.
