(* C28: adding and looking up values succeeds. *)
From Coq Require Import List ZArith Bool Lia.
From Verif Require Import ColumnModel BufferModel BytesDictModel BytesDictSpec BufferProofs BytesDictProofs DictModel DictSpec DictProofs1 DictProofs2 DictProofs3 DictProofs4.
Import ListNotations.
Local Open Scope Z_scope.

Record roomy (D : meta) (n : Z) : Prop := mk_roomy {
  room_iri : count (frequent_dict (iri_dict D)) + n <= 2 ^ 30; room_other : count (frequent_dict (other_dict D)) + n <= 2 ^ 30; room_tuple : count (frequent_dict (tuple_dict D)) + n <= 2 ^ 30;
  room_size : forall k, size D k + n <= 2 ^ 60 }.
Lemma room_roomy : forall D n, n <= 2 ^ 60 -> room D n -> roomy D n.
Proof.
  intros D n Hn (H & H1 & H2 & H3). inversion H as [|? ? [A1 A2] H']; subst. inversion H' as [|? ? [B1 B2] H'']; subst. inversion H'' as [|? ? [C1 C2] _]; subst.
  constructor; try assumption. intros k. do 6 (destruct k as [|k]; [cbn [size]; assumption|]). cbn [size]. lia.
Qed.
Lemma pair_bytes_ok : forall fid rare, fid < 2 ^ 30 -> exists pb, pair_bytes fid rare = Ok pb.
Proof.
  intros fid rare H. unfold pair_bytes. rewrite max4. do 3 (destruct (fid <? _); [eauto|]). destruct (Z.ltb_spec fid 1073741824) as [_|Hx]; [eauto|]. change (2 ^ 30) with 1073741824 in H. lia.
Qed.
Lemma pair_to_id_total : forall d f r, pd_ok d -> count (frequent_dict d) <= 2 ^ 30 -> exists x, pair_to_id d f r = Ok x.
Proof.
  intros d f r [O1 O2] H. unfold pair_to_id. destruct (lookup (frequent_dict d) f) as [fid|] eqn:E; [|eauto]. apply (lookup_some _ _ _ O1) in E. destruct E as [H0 Ea]. pose proof (array_at_bound _ _ _ H0 Ea).
  destruct (pair_bytes_ok fid r) as [pb ->]; [lia|]. cbn. eauto.
Qed.
Lemma add_pair_total : forall d f r, pd_ok d -> count (frequent_dict d) + 1 <= 2 ^ 30 -> exists d' s, add_pair d f r = Ok (d', s) /\ count (frequent_dict d') <= count (frequent_dict d) + 1.
Proof.
  intros d f r [O1 O2] H. unfold add_pair. rewrite lru_get_miss, Z.eqb_refl. destruct (spec_add (frequent_dict d) f) as [fd q] eqn:Ef. destruct (spec_add_ok _ _ _ _ O1 Ef) as (P1 & P2 & P3 & P4 & P5 & P6 & P7).
  destruct (pair_bytes_ok (result_value q) r) as [pb ->]; [lia|]. cbn [bind]. destruct (spec_add (pairs d) pb) as [pd s]. exists (mk_pair_dict fd pd (lru_put (recent_array d) f (result_value q))), s. split; [reflexivity|]. cbn. lia.
Qed.
Lemma to_global_total : forall D k x, meta_ok D -> (k < 6)%nat -> (forall lid, x = Some lid -> 0 <= lid < size D k) -> exists f, to_global D k x = Ok f.
Proof.
  intros D k x M Hk H. unfold to_global. destruct x as [lid|]; [|eauto]. rewrite unchecked_eq by (rewrite (proj1 (ok_blocks _ M)); exact Hk). pose proof (ok_reserved _ M k lid (H lid eq_refl)) as Hb. destruct (block D k (local_block lid)); [cbn; eauto|contradiction].
Qed.
Lemma lookup_bound : forall D v k lid, subs_ok D -> wf v -> dict_for v = Some k -> (forall label es, v <> TupleValue label es) -> local_lookup D v = Ok (Some lid) -> 0 <= lid < size D k.
Proof.
  intros D v k lid [S1 S2 S3 S4 S5 S6] W Ek Hnt E.
  assert (Ho : forall f r, k = OTHER_DICT -> pair_to_id (other_dict D) f r = Ok (Some lid) -> 0 <= lid < size D k) by (intros f r -> E'; exact (proj1 (pair_to_id_some _ _ _ _ S4 E'))).
  destruct v; cbn [local_lookup] in E; cbn [dict_for] in Ek; try discriminate Ek; try (destruct (Hnt _ _ eq_refl)).
  - assert (k = STRING_DICT) by congruence. subst k. assert (El : lookup (string_dict D) s = Some lid) by congruence. apply (lookup_some _ _ _ S2) in El. destruct El as [H0 Ea]. split; [exact H0|exact (array_at_bound _ _ _ H0 Ea)].
  - assert (k = LANGSTRING_DICT) by congruence. subst k. apply bind_ok in E. destruct E as (x & _ & E). assert (El : lookup (langstring_dict D) x = Some lid) by congruence. apply (lookup_some _ _ _ S3) in El. destruct El as [H0 Ea]. split; [exact H0|exact (array_at_bound _ _ _ H0 Ea)].
  - assert (k = IRI_DICT) by congruence. subst k. exact (proj1 (pair_to_id_some _ _ _ _ S1 E)).
  - destruct (n >? I64_MAX) eqn:En; [|discriminate]. cbn [other_pair] in E. rewrite En in E. exact (Ho _ _ ltac:(congruence) E).
  - exact (Ho _ _ ltac:(congruence) E).
  - assert (k = NULL_DICT) by congruence. subst k. destruct (Z.ltb_spec id (nulls D)); [|discriminate]. inversion W; subst. match goal with H : U64 _ |- _ => destruct H end. assert (lid = id) by congruence. subst lid. cbn [size NULL_DICT]. lia.
  - exact (Ho _ _ ltac:(congruence) E).
Qed.
Lemma local_lookup_total : forall D v, subs_ok D -> roomy D 0 -> tags_ok v -> exists x, local_lookup D v = Ok x.
Proof.
  intros D v [S1 S2 S3 S4 S5 S6] R T. pose proof (room_other _ _ R) as Hr. pose proof (room_iri _ _ R) as Hi. rewrite Z.add_0_r in *.
  destruct v; cbn [local_lookup]; try (match goal with |- exists x, match ?o with _ => _ end = _ => destruct o as [[f r]|]; [apply pair_to_id_total; assumption|eauto] end); try (eexists; reflexivity).
  - inversion T; subst; [|match goal with H : forall s tag, LangString _ _ <> LangString s tag |- _ => destruct (H _ _ eq_refl) end]. unfold two_strings_to_one. destruct tag as [|a tag]; [contradiction|]. destruct (_ <=? _); cbn [bind]; eauto.
  - apply pair_to_id_total; assumption.
Qed.
Definition total_lookup (v : datavalue) : Prop := forall D, wf v -> tags_ok v -> meta_ok D -> roomy D 0 -> exists f, datavalue_to_id D v = Ok f.
Lemma total_lookup_other : forall v, (forall label es, v <> TupleValue label es) -> total_lookup v.
Proof.
  intros v H D W T M R. rewrite lookup_other by exact H. destruct (dict_for v) as [k|] eqn:Ek; [|eauto]. destruct (local_lookup_total D v (ok_subs _ M) R T) as [x Ex]. rewrite Ex. cbn [bind].
  apply to_global_total; [exact M|exact (dict_for_lt _ _ Ek)|]. intros lid ->. exact (lookup_bound _ _ _ _ (ok_subs _ M) W Ek H Ex).
Qed.
Lemma tags_iri : forall l, tags_ok (Iri l).
Proof. intros l. apply tags_other; discriminate. Qed.
Lemma tags_elems : forall label es, tags_ok (TupleValue label es) -> Forall tags_ok es.
Proof. intros label es H. inversion H; subst; [assumption|]. match goal with H : forall label es, TupleValue _ _ <> TupleValue label es |- _ => destruct (H _ _ eq_refl) end. Qed.
Lemma wf_elems : forall label es, wf (TupleValue label es) -> Forall wf es.
Proof. intros label es H. inversion H; assumption. Qed.
Lemma total_lookup_all : forall v, total_lookup v.
Proof.
  apply datavalue_ind'; [|exact total_lookup_other]. intros label es IH D W T M R. rewrite lookup_tuple.
  assert (Hs : exists x, start_lookup D label = Ok x).
  { destruct label as [l|]; cbn [start_lookup]; [|eauto]. destruct (total_lookup_other (Iri l) ltac:(discriminate) D (wf_iri l) (tags_iri l) M R) as [f ->]. cbn. eauto. }
  destruct Hs as [[s|] ->]; cbn [bind]; [|eauto].
  assert (He : forall s, exists x, elems_lookup D es s = Ok x).
  { apply wf_elems in W. apply tags_elems in T. clear s. induction IH as [|e es He IH IHe]; intros s; [eexists; reflexivity|]. rewrite elems_lookup_cons. inversion W; subst. inversion T; subst. destruct (inline_element e); [apply IHe; assumption|].
    destruct (He D) as [[id|] ->]; try assumption; cbn [bind]; [|eauto]. apply IHe; assumption. }
  destruct (He s) as [[s'|] ->]; cbn [bind]; [|eauto].
  destruct (pair_to_id_total (tuple_dict D) (fst (tuple_end s')) (snd (tuple_end s'))) as [x Ex]; [exact (ok_tuple _ (ok_subs _ M))|pose proof (room_tuple _ _ R); lia|]. rewrite Ex. cbn [bind].
  apply to_global_total; [exact M|unfold TUPLE_DICT; lia|]. intros lid ->. exact (proj1 (pair_to_id_some _ _ _ _ (ok_tuple _ (ok_subs _ M)) Ex)).
Qed.

Lemma roomy_le : forall D n m, roomy D n -> m <= n -> roomy D m.
Proof. intros D n m [] H. constructor; try lia. intros k. specialize (room_size0 k). lia. Qed.
Lemma finish_total : forall D k r, (k < 6)%nat -> blocks_ok D -> exists D' s, finish_add k (D, r) = Ok (D', s).
Proof.
  intros D k r Hk B. unfold finish_add. cbn [fst snd]. destruct (_ =? _); [eauto|]. unfold local_to_global. destruct (allocate_ok D k (Z.to_nat (Z.shiftr (result_value r) BLOCKSIZE)) B Hk) as (gs & bs & g & -> & _). cbn [bind fst snd]. eauto.
Qed.
(* sizes after finishing are those before *)
Lemma roomy_finish : forall D D' n, subs_le D' D -> roomy D n -> roomy D' n.
Proof.
  intros D D' n [[L1 L1'] L2 L3 [L4 L4'] L5 [L6 L6']] [R1 R2 R3 R4]. apply count_le in L1, L1', L2, L3, L4, L4', L6, L6'. constructor; try lia.
  intros k. specialize (R4 k). do 6 (destruct k as [|k]; [cbn [size] in *; lia|]). cbn [size] in *. lia.
Qed.
Definition total_add (v : datavalue) : Prop := forall D n, wf v -> tags_ok v -> meta_ok D -> 0 <= n -> roomy D (n + nodes v) -> exists D' r, add_datavalue D v = Ok (D', r) /\ meta_ok D' /\ roomy D' n.
Lemma not_mark' : forall D k x n, roomy D n -> 0 <= n -> x <= size D k -> x <> NONEXISTING_ID_MARK.
Proof. intros D k x n R Hn H. pose proof (room_size _ _ R k). unfold NONEXISTING_ID_MARK. lia. Qed.
Lemma local_add_total : forall D v k n, subs_ok D -> roomy D (n + 1) -> 0 <= n -> tags_ok v -> dict_for v = Some k -> (forall label es, v <> TupleValue label es) ->
  exists D1 r, local_add D v = Ok (D1, r) /\ (count (frequent_dict (iri_dict D1)) <= count (frequent_dict (iri_dict D)) + 1 /\ count (frequent_dict (other_dict D1)) <= count (frequent_dict (other_dict D)) + 1 /\ count (frequent_dict (tuple_dict D1)) <= count (frequent_dict (tuple_dict D)) + 1).
Proof.
  intros D v k n [S1 S2 S3 S4 S5 S6] R Hn T Ek Hnt.
  assert (Ho : forall f r, exists D1 s, bind (add_pair (other_dict D) f r) (fun q => Ok (with_other D (fst q), snd q)) = Ok (D1, s) /\
    (count (frequent_dict (iri_dict D1)) <= count (frequent_dict (iri_dict D)) + 1 /\ count (frequent_dict (other_dict D1)) <= count (frequent_dict (other_dict D)) + 1 /\ count (frequent_dict (tuple_dict D1)) <= count (frequent_dict (tuple_dict D)) + 1)).
  { intros f r. destruct (add_pair_total (other_dict D) f r S4) as (d & s & E & Hc); [pose proof (room_other _ _ R); lia|]. exists (with_other D d), s. rewrite E. cbn [bind fst snd]. split; [reflexivity|]. cbn. lia. }
  destruct v; cbn [local_add]; cbn [dict_for] in Ek; try discriminate Ek; try (destruct (Hnt _ _ eq_refl)).
  - destruct (spec_add _ _) as [d q]. exists (with_string D d), q. split; [reflexivity|]. cbn. lia.
  - inversion T; subst; [|match goal with H : forall s tag, LangString _ _ <> LangString s tag |- _ => destruct (H _ _ eq_refl) end]. unfold two_strings_to_one. destruct tag as [|a tag]; [contradiction|]. destruct (_ <=? _); cbn [bind]; destruct (spec_add _ _) as [d q]; exists (with_langstring D d), q; (split; [reflexivity|]; cbn; lia).
  - destruct (add_pair_total (iri_dict D) (fst (iri_pair s)) (snd (iri_pair s)) S1) as (d & q & E & Hc); [pose proof (room_iri _ _ R); lia|]. exists (with_iri D d), q. rewrite E. cbn [bind fst snd]. split; [reflexivity|]. cbn. lia.
  - destruct (n0 >? I64_MAX) eqn:En; [|discriminate]. cbn [other_pair]. rewrite En. apply Ho.
  - apply Ho.
  - eexists _, _. split; [reflexivity|]. lia.
  - apply Ho.
Qed.
Lemma known_total : forall D v a n, meta_ok D -> 0 <= n -> roomy D n -> (exists f, datavalue_to_id D v = Ok f) -> (exists D' r, a = Ok (D', r) /\ meta_ok D' /\ roomy D' n) -> exists D' r, known_or D v a = Ok (D', r) /\ meta_ok D' /\ roomy D' n.
Proof.
  intros D v a n M Hn R [[id|] E] H; unfold known_or; rewrite E; cbn [bind]; [|exact H]. exists D, (Known id). auto.
Qed.
Lemma total_add_other : forall v, (forall label es, v <> TupleValue label es) -> total_add v.
Proof.
  intros v H D n W T M Hn R. assert (Hnodes : nodes v = 1) by (destruct v; try reflexivity; destruct (H _ _ eq_refl)). rewrite Hnodes in R. rewrite add_other by exact H.
  destruct (dict_for v) as [k|] eqn:Ek; [|exists D, Rejected; split; [reflexivity|]; split; [exact M|]; (apply (roomy_le _ _ _ R); lia)]. pose proof (dict_for_lt _ _ Ek) as Hk.
  apply known_total; [exact M|exact Hn|(apply (roomy_le _ _ _ R); lia)|apply (total_lookup_other v H D W T M); apply (roomy_le _ _ _ R); lia|].
  destruct (local_add_total D v k n (ok_subs _ M) R Hn T Ek H) as (D1 & r & E1 & Hc1 & Hc2 & Hc3). rewrite E1. cbn [bind]. destruct (local_add_same _ _ _ _ E1) as [Eg Ed].
  destruct (local_add_ok _ _ _ _ _ (ok_subs _ M) W Ek H E1) as [(-> & -> & _)|(S1 & L1 & Q1 & Q2 & Q3 & Q4 & Q5)].
  - exists D, Rejected. split; [reflexivity|]. split; [exact M|]. (apply (roomy_le _ _ _ R); lia).
  - assert (P : pending D1 k (result_value r)) by (apply (pending_of_ok D); assumption). assert (Hn' : 0 <= n + 1) by lia. pose proof (not_mark' _ _ _ _ R Hn' Q5) as Hm.
    destruct (finish_total D1 k r Hk (proj1 (proj2 P))) as (D' & s & E). destruct (finish_ok _ _ _ _ _ Hk P Hm E) as (M' & _ & SL & _). exists D', s. split; [exact E|]. split; [exact M'|].
    apply (roomy_finish D1); [exact SL|]. destruct R as [R1 R2 R3 R4]. constructor; try lia. intros k'. specialize (R4 k'). destruct (Nat.eq_dec k' k) as [->|Hne]; [lia|]. specialize (Q3 k' Hne). lia.
Qed.
Lemma nodes_pos : forall v, 1 <= nodes v.
Proof.
  apply datavalue_ind'; [|intros v H; destruct v; try (cbn; lia)].
  - intros label es H. cbn [nodes]. assert (0 <= fold_right (fun e n => nodes e + n) 0 es) by (induction H; cbn; lia). lia.
  - destruct (H _ _ eq_refl).
Qed.
Lemma total_add_all : forall v, total_add v.
Proof.
  apply datavalue_ind'; [|exact total_add_other]. intros label es IH D n W T M Hn R. cbn [nodes] in R. set (m := fold_right (fun e n => nodes e + n) 0 es) in *.
  assert (Hm : 0 <= m) by (unfold m; clear; induction es as [|e es IH]; cbn; [lia|pose proof (nodes_pos e); lia]).
  rewrite add_tuple. apply known_total; [exact M|exact Hn|(apply (roomy_le _ _ _ R); lia)|apply (total_lookup_all (TupleValue label es) D W T M); apply (roomy_le _ _ _ R); lia|].
  assert (H1 : exists D1 s, start_add D label = Ok (D1, s) /\ meta_ok D1 /\ roomy D1 (n + 1 + m)).
  { destruct label as [l|]; cbn [start_add]; [|exists D, (tuple_start []); split; [reflexivity|]; split; [exact M|(apply (roomy_le _ _ _ R); lia)]].
    destruct (total_add_other (Iri l) ltac:(discriminate) D (n + 1 + m) (wf_iri l) (tags_iri l) M ltac:(lia)) as (D1 & r & E & M1 & R1); [(apply (roomy_le _ _ _ R); change (nodes (Iri l)) with 1; lia)|]. rewrite E. cbn [bind fst snd]. eauto. }
  destruct H1 as (D1 & s & -> & M1 & R1). cbn [bind fst snd].
  assert (H2 : forall D1 s, meta_ok D1 -> roomy D1 (n + 1 + m) -> exists D2 s', elems_add es D1 s = Ok (D2, s') /\ meta_ok D2 /\ roomy D2 (n + 1)).
  { apply wf_elems in W. apply tags_elems in T. clear - IH W T Hn. unfold m. clear m. induction IH as [|e es He IH IHe]; intros D1 s M1 R1.
    - exists D1, s. split; [reflexivity|]. split; [exact M1|]. (apply (roomy_le _ _ _ R1); cbn; lia).
    - inversion W as [|? ? We Wes]; subst. inversion T as [|? ? Te Tes]; subst. cbn [elems_add fold_right] in *. set (m := fold_right (fun e n => nodes e + n) 0 es) in *. pose proof (nodes_pos e).
      assert (Hm : 0 <= m) by (unfold m; clear; induction es as [|e' es IH]; cbn; [lia|pose proof (nodes_pos e'); lia]).
      destruct (inline_element e) as [q|]; [apply IHe; try assumption; (apply (roomy_le _ _ _ R1); lia)|].
      destruct (He D1 (n + 1 + m) We Te M1 ltac:(lia)) as (D2 & r & -> & M2 & R2); [(apply (roomy_le _ _ _ R1); lia)|]. cbn [bind fst snd]. apply IHe; assumption. }
  destruct (H2 D1 s M1 R1) as (D2 & s' & -> & M2 & R2). cbn [bind fst snd]. unfold tuple_add.
  destruct M2 as [S B Rs]. pose proof (mk_meta_ok _ S B Rs) as M2. destruct S as [S1 S2 S3 S4 S5 S6].
  destruct (add_pair_total (tuple_dict D2) (fst (tuple_end s')) (snd (tuple_end s')) S6) as (d & q & Ea & Hc); [pose proof (room_tuple _ _ R2); lia|]. rewrite Ea. cbn [bind fst snd].
  destruct (add_pair_ok _ _ _ _ _ S6 Ea) as (Q1 & Q2 & Q3 & Q4 & Q5 & Q6 & Q7). assert (Hk : (TUPLE_DICT < 6)%nat) by (unfold TUPLE_DICT; lia).
  assert (Hmk : result_value q <> NONEXISTING_ID_MARK) by (apply (not_mark' D2 TUPLE_DICT _ (n + 1) R2); [lia|exact Q6]).
  assert (P : pending (with_tuple D2 d) TUPLE_DICT (result_value q)).
  { apply (pending_of_ok D2); [exact M2|constructor; assumption|reflexivity|reflexivity| |exact Q5|exact Q6]. intros k' Hk'. do 6 (destruct k' as [|k']; [cbn; try lia; try (destruct Hk'; reflexivity)|]). cbn. lia. }
  destruct (finish_total (with_tuple D2 d) TUPLE_DICT q Hk (proj1 (proj2 P))) as (D' & r & E). destruct (finish_ok _ _ _ _ _ Hk P Hmk E) as (M' & _ & SL & _). exists D', r. split; [exact E|]. split; [exact M'|].
  apply (roomy_finish (with_tuple D2 d)); [exact SL|]. destruct R2 as [R21 R22 R23 R24]. constructor; cbn [with_tuple iri_dict other_dict tuple_dict]; try lia. intros k'. specialize (R24 k').
  do 5 (destruct k' as [|k']; [cbn [size with_tuple iri_dict other_dict tuple_dict string_dict langstring_dict nulls] in *; lia|]). destruct k' as [|k']; [|cbn [size] in *; lia]. cbn [size with_tuple tuple_dict] in *. change (size D2 5) with (count (pairs (tuple_dict D2))) in *. lia.
Qed.
