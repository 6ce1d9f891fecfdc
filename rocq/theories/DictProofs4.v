(* C28: from ids back to values. *)
From Coq Require Import List ZArith Bool Lia.
From Verif Require Import ColumnModel BufferModel BytesDictModel BytesDictSpec BufferProofs BytesDictProofs DictModel DictSpec DictProofs1 DictProofs2 DictProofs3.
Import ListNotations.
Local Open Scope Z_scope.

(* Decoding, with the number of bytes that are skipped after a label with a 64bit id. *)
Definition read_label_skip (skip : nat) (get : Z -> res (option datavalue)) (types : bytes) : res (option bytes * bytes) :=
  let iri q := bind (get (from_be (fst q))) (fun v => match v with Some (Iri l) => Ok l | _ => Panicked end) in
  match types with
  | t :: rest =>
      if t =? TYPE_LABELID32 then bind (take 4 rest) (fun q => bind (iri q) (fun l => Ok (Some l, snd q)))
      else if t =? TYPE_LABELID64 then bind (take 8 rest) (fun q => bind (iri q) (fun l => Ok (Some l, skipn skip (snd q))))
      else Ok (None, types)
  | [] => Ok (None, types)
  end.
Definition read_tuple_skip (skip : nat) (get : Z -> res (option datavalue)) (types content : bytes) : res datavalue :=
  bind (read_label_skip skip get types) (fun q =>
  bind (read_elements get (length content) TYPE_NOTYPE (snd q) content) (fun vs => Ok (TupleValue (fst q) vs))).
Definition read_local (tuples : bytes -> bytes -> res datavalue) (D : meta) (dict : nat) (local : Z) : res (option datavalue) :=
  if (dict =? STRING_DICT)%nat then Ok (option_map PlainString (array_at (string_dict D) local))
  else if (dict =? LANGSTRING_DICT)%nat then
    Ok (match array_at (langstring_dict D) local with Some x => option_map (fun q => LangString (fst q) (lowercase (snd q))) (one_string_to_two x) | None => None end)
  else if (dict =? IRI_DICT)%nat then bind (id_to_pair (iri_dict D) local) (fun q => Ok (option_map (fun q => Iri (fst q ++ snd q)) q))
  else if (dict =? OTHER_DICT)%nat then bind (id_to_pair (other_dict D) local) (fun q => Ok (option_map (fun q => pair_to_other (fst q) (snd q)) q))
  else if (dict =? NULL_DICT)%nat then Ok (if local <? nulls D then Some (NullValue local) else None)
  else
    bind (id_to_pair (tuple_dict D) local) (fun q =>
    match q with Some q => bind (tuples (fst q) (snd q)) (fun v => Ok (Some v)) | None => Ok None end).
Fixpoint decode (skip fuel : nat) (D : meta) (id : Z) : res (option datavalue) :=
  match fuel with
  | O => Fuel
  | S fuel =>
      match global_to_local D id with
      | None => Ok None
      | Some (dict, local) => read_local (read_tuple_skip skip (decode skip fuel D)) D dict local
      end
  end.
Lemma decode_S : forall skip fuel D id, decode skip (S fuel) D id = match global_to_local D id with None => Ok None | Some (dict, local) => read_local (read_tuple_skip skip (decode skip fuel D)) D dict local end.
Proof. reflexivity. Qed.
Lemma bind_ext : forall A B (r : res A) (f g : A -> res B), (forall x, f x = g x) -> bind r f = bind r g.
Proof. intros A B [x| |] f g H; cbn; [apply H|reflexivity|reflexivity]. Qed.
Lemma read_element_ext : forall g h, (forall i, g i = h i) -> forall ty c, read_element g ty c = read_element h ty c.
Proof.
  intros g h H ty c. unfold read_element. repeat match goal with |- (if ?b then _ else _) = _ => destruct b; try reflexivity end; apply bind_ext; intros q; rewrite H; reflexivity.
Qed.
Lemma read_elements_ext : forall g h, (forall i, g i = h i) -> forall fuel cur types content, read_elements g fuel cur types content = read_elements h fuel cur types content.
Proof.
  intros g h H. induction fuel as [|fuel IH]; intros cur types content; destruct content as [|c content]; try reflexivity. cbn [read_elements].
  destruct types as [|t types]; rewrite (read_element_ext g h H); apply bind_ext; intros q; rewrite IH; reflexivity.
Qed.
Lemma decode_model : forall fuel D id, id_to_datavalue fuel D id = decode 9 fuel D id.
Proof.
  induction fuel as [|fuel IH]; intros D id; [reflexivity|]. cbn [id_to_datavalue decode]. destruct (global_to_local D id) as [[dict local]|]; [|reflexivity]. unfold read_local.
  repeat match goal with |- (if ?b then _ else _) = _ => destruct b; [reflexivity|] end. apply bind_ext. intros [[f r]|]; [|reflexivity]. cbn [fst snd].
  assert (E : read_tuple (id_to_datavalue fuel D) f r = read_tuple_skip 9 (decode 9 fuel D) f r).
  { unfold read_tuple, read_tuple_skip. assert (El : read_label (id_to_datavalue fuel D) f = read_label_skip 9 (decode 9 fuel D) f).
    { unfold read_label, read_label_skip. destruct f as [|t f]; [reflexivity|]. destruct (t =? TYPE_LABELID32); [apply bind_ext; intros q; rewrite IH; reflexivity|]. destruct (t =? TYPE_LABELID64); [apply bind_ext; intros q; rewrite IH; reflexivity|]. reflexivity. }
    rewrite El. apply bind_ext. intros q. rewrite (read_elements_ext _ _ (IH D)). reflexivity. }
  rewrite E. reflexivity.
Qed.

(* ---- bytes of elements ---- *)
Lemma be4 : forall n, 0 <= n < 2 ^ 32 -> from_be (be_bytes 4 n) = n.
Proof. intros n H. rewrite from_be_be. change (256 ^ Z.of_nat 4) with (2 ^ 32). apply Z.mod_small. exact H. Qed.
Lemma be8 : forall n, 0 <= n < 2 ^ 64 -> from_be (be_bytes 8 n) = n.
Proof. intros n H. rewrite from_be_be. change (256 ^ Z.of_nat 8) with (2 ^ 64). apply Z.mod_small. exact H. Qed.
Lemma be8_signed : forall n, - 2 ^ 63 <= n < 2 ^ 63 -> to_i64 (from_be (be_bytes 8 n)) = n.
Proof.
  intros n H. rewrite from_be_be. change (256 ^ Z.of_nat 8) with (2 ^ 64). unfold to_i64, I64_MAX. destruct (Z.le_gt_cases 0 n) as [H0|H0].
  - rewrite Z.mod_small by lia. destruct (Z.leb_spec n (2 ^ 63 - 1)); lia.
  - assert (E : n mod 2 ^ 64 = n + 2 ^ 64) by (symmetry; apply (Z.mod_unique_pos _ _ (-1)); lia). rewrite E. destruct (Z.leb_spec (n + 2 ^ 64) (2 ^ 63 - 1)); lia.
Qed.
Definition element_type (t : Z) : Prop := t <> TYPE_NOTYPE /\ t <> TYPE_LABELID32 /\ t <> TYPE_LABELID64.
(* the type and bytes of an element are read back *)
Definition reads (get : Z -> res (option datavalue)) (v : datavalue) (q : Z * bytes) : Prop :=
  element_type (fst q) /\ snd q <> [] /\ forall rest, read_element get (fst q) (snd q ++ rest) = Ok (v, rest).
Lemma id_bytes_read : forall get id v, U64 id -> get id = Ok (Some v) -> reads get v (id_bytes id TYPE_DICTID32 TYPE_DICTID64).
Proof.
  intros get id v H E. unfold U64 in H. unfold id_bytes, reads, element_type. destruct (Z.leb_spec id U32_MAX) as [Hs|Hs]; cbn [fst snd]; (split; [repeat split; discriminate|]; split; [discriminate|]); intros rest; unfold read_element.
  - change (TYPE_DICTID32 =? TYPE_DICTID64) with false. change (TYPE_DICTID32 =? TYPE_DICTID32) with true. cbv iota. rewrite take_be. cbn [bind fst snd]. rewrite be4 by (rewrite u32_is in Hs; lia). rewrite E. reflexivity.
  - change (TYPE_DICTID64 =? TYPE_DICTID64) with true. cbv iota. rewrite take_be. cbn [bind fst snd]. rewrite be8 by exact H. rewrite E. reflexivity.
Qed.
Lemma inline_read : forall get v q, (supported v \/ number v) -> inline_element v = Some q -> reads get v q.
Proof.
  intros get v q H E. unfold reads, element_type. destruct H as [H|H].
  - destruct H; cbn [inline_element] in E; try discriminate E.
    + inversion E; subst q; cbn [fst snd]. split; [repeat split; discriminate|]. split; [discriminate|]. intros rest. destruct b; reflexivity.
    + assert (Eq : q = id_bytes id TYPE_NULLID32 TYPE_NULLID64) by congruence. subst q. unfold id_bytes. destruct (Z.leb_spec id U32_MAX) as [Hs|Hs]; cbn [fst snd]; (split; [repeat split; discriminate|]; split; [discriminate|]); intros rest; unfold read_element.
      * change (TYPE_NULLID32 =? TYPE_DICTID64) with false. change (TYPE_NULLID32 =? TYPE_DICTID32) with false. change (TYPE_NULLID32 =? TYPE_NULLID64) with false. change (TYPE_NULLID32 =? TYPE_NULLID32) with true. cbv iota. rewrite take_be. cbn [bind fst snd]. unfold U64 in *. rewrite be4 by (rewrite u32_is in Hs; lia). reflexivity.
      * change (TYPE_NULLID64 =? TYPE_DICTID64) with false. change (TYPE_NULLID64 =? TYPE_DICTID32) with false. change (TYPE_NULLID64 =? TYPE_NULLID64) with true. cbv iota. rewrite take_be. cbn [bind fst snd]. rewrite be8 by assumption. reflexivity.
  - destruct H as [bits Hb Hf|bits Hb Hf|n Hn|n Hn]; cbn [inline_element] in E.
    + assert (Eq : q = (TYPE_F32, be_bytes 4 bits)) by congruence. subst q. cbn [fst snd]. split; [repeat split; discriminate|]. split; [discriminate|]. intros rest. unfold read_element.
      change (TYPE_F32 =? TYPE_DICTID64) with false. change (TYPE_F32 =? TYPE_DICTID32) with false. change (TYPE_F32 =? TYPE_NULLID64) with false. change (TYPE_F32 =? TYPE_NULLID32) with false. change (TYPE_F32 =? TYPE_I64) with false. change (TYPE_F32 =? TYPE_U64) with false. change (TYPE_F32 =? TYPE_F32) with true. cbv iota.
      rewrite take_be. cbn [bind fst snd]. rewrite be4 by exact Hb. rewrite Hf. reflexivity.
    + assert (Eq : q = (TYPE_F64, be_bytes 8 bits)) by congruence. subst q. cbn [fst snd]. split; [repeat split; discriminate|]. split; [discriminate|]. intros rest. unfold read_element.
      change (TYPE_F64 =? TYPE_DICTID64) with false. change (TYPE_F64 =? TYPE_DICTID32) with false. change (TYPE_F64 =? TYPE_NULLID64) with false. change (TYPE_F64 =? TYPE_NULLID32) with false. change (TYPE_F64 =? TYPE_I64) with false. change (TYPE_F64 =? TYPE_U64) with false. change (TYPE_F64 =? TYPE_F32) with false. change (TYPE_F64 =? TYPE_F64) with true. cbv iota.
      rewrite take_be. cbn [bind fst snd]. rewrite be8 by exact Hb. rewrite Hf. reflexivity.
    + assert (Eq : q = (TYPE_I64, be_bytes 8 n)) by congruence. subst q. cbn [fst snd]. split; [repeat split; discriminate|]. split; [discriminate|]. intros rest. unfold read_element.
      change (TYPE_I64 =? TYPE_DICTID64) with false. change (TYPE_I64 =? TYPE_DICTID32) with false. change (TYPE_I64 =? TYPE_NULLID64) with false. change (TYPE_I64 =? TYPE_NULLID32) with false. change (TYPE_I64 =? TYPE_I64) with true. cbv iota.
      rewrite take_be. cbn [bind fst snd]. rewrite be8_signed by exact Hn. reflexivity.
    + destruct (Z.gtb_spec n I64_MAX) as [_|Hx]; [|unfold I64_MAX in Hx; lia].
      assert (Eq : q = (TYPE_U64, be_bytes 8 n)) by congruence. subst q. cbn [fst snd]. split; [repeat split; discriminate|]. split; [discriminate|]. intros rest. unfold read_element.
      change (TYPE_U64 =? TYPE_DICTID64) with false. change (TYPE_U64 =? TYPE_DICTID32) with false. change (TYPE_U64 =? TYPE_NULLID64) with false. change (TYPE_U64 =? TYPE_NULLID32) with false. change (TYPE_U64 =? TYPE_I64) with false. change (TYPE_U64 =? TYPE_U64) with true. cbv iota.
      rewrite take_be. cbn [bind fst snd]. rewrite be8 by lia. reflexivity.
Qed.

(* ---- values ---- *)
Lemma to_global_some : forall D k x id, meta_ok D -> fits D -> (k < 6)%nat -> to_global D k x = Ok (Some id) -> exists lid, x = Some lid /\ 0 <= id < 2 ^ 63 /\ (0 <= lid -> global_to_local D id = Some (k, lid)).
Proof.
  intros D k x id M F Hk E. unfold to_global in E. destruct x as [lid|]; [|discriminate]. exists lid. split; [reflexivity|]. pose proof (ok_blocks _ M) as B. rewrite unchecked_eq in E by (rewrite (proj1 B); exact Hk).
  destruct (block D k (local_block lid)) as [b|] eqn:Eb; [|discriminate]. cbn in E. assert (id = global b lid) by congruence. subst id. split; [exact (global_bound _ _ _ _ lid M F Eb)|]. intros H0. exact (global_back _ _ _ _ B H0 Eb).
Qed.
Lemma id_bound : forall D v id, meta_ok D -> fits D -> datavalue_to_id D v = Ok (Some id) -> U64 id.
Proof.
  intros D v id M F E. assert (H : exists k x, (k < 6)%nat /\ to_global D k x = Ok (Some id)).
  { destruct v; try (match type of E with datavalue_to_id D ?v = _ => rewrite (lookup_other D v) in E by discriminate; destruct (dict_for v) as [k|] eqn:Ek; [|discriminate E]; apply bind_ok in E; destruct E as (x & _ & E); exists k, x; split; [exact (dict_for_lt _ _ Ek)|exact E] end).
    rewrite lookup_tuple in E. apply bind_ok in E. destruct E as ([s|] & _ & E); [|discriminate]. apply bind_ok in E. destruct E as ([s'|] & _ & E); [|discriminate]. apply bind_ok in E. destruct E as (x & _ & E). exists TUPLE_DICT, x. split; [unfold TUPLE_DICT; lia|exact E]. }
  destruct H as (k & x & Hk & Eg). destruct (to_global_some _ _ _ _ M F Hk Eg) as (lid & _ & Hb & _). unfold U64. lia.
Qed.
Lemma decode_other : forall v, (forall label es, v <> TupleValue label es) -> supported v -> forall skip fuel D id, meta_ok D -> fits D -> datavalue_to_id D v = Ok (Some id) -> decode skip (S fuel) D id = Ok (Some v).
Proof.
  intros v H S skip fuel D id M F E. rewrite lookup_other in E by exact H. destruct (dict_for v) as [k|] eqn:Ek; [|discriminate]. pose proof (dict_for_lt _ _ Ek) as Hk.
  apply bind_ok in E. destruct E as (x & Ex & E). destruct (to_global_some _ _ _ _ M F Hk E) as (lid & -> & _ & Hg). cbn [decode]. destruct (ok_subs _ M) as [S1 S2 S3 S4 S5 S6].
  assert (Ho : forall f r, k = OTHER_DICT -> pair_to_id (other_dict D) f r = Ok (Some lid) -> other_pair v = Some (f, r) -> match global_to_local D id with None => Ok None | Some (dict, local) => read_local (read_tuple_skip skip (decode skip fuel D)) D dict local end = Ok (Some v)).
  { intros f r -> Ep Eo. destruct (pair_to_id_some _ _ _ _ S4 Ep) as [Hb Ei]. rewrite Hg by lia. unfold read_local. cbn [OTHER_DICT STRING_DICT LANGSTRING_DICT IRI_DICT Nat.eqb]. rewrite Ei. cbn [bind option_map fst snd]. rewrite (other_round _ _ _ S Eo). reflexivity. }
  destruct S as [s|s tag Hl Ht Htag|s|b|lex dt Hd|i Hi|label es Hl He]; cbn [dict_for] in Ek; cbn [local_lookup] in Ex; assert (Hkk : k = k) by reflexivity.
  - assert (El : lookup (string_dict D) s = Some lid) by congruence. apply (lookup_some _ _ _ S2) in El. destruct El as [H0 Ea]. rewrite Hg by exact H0. assert (k = STRING_DICT) by congruence. subst k. unfold read_local. cbn [STRING_DICT Nat.eqb]. rewrite Ea. reflexivity.
  - destruct (two_strings_ok s tag Ht Htag) as (y & Ey & Er). rewrite Ey in Ex. cbn [bind] in Ex. assert (El : lookup (langstring_dict D) y = Some lid) by congruence. apply (lookup_some _ _ _ S3) in El. destruct El as [H0 Ea]. rewrite Hg by exact H0. assert (k = LANGSTRING_DICT) by congruence. subst k. unfold read_local. cbn [LANGSTRING_DICT STRING_DICT Nat.eqb]. rewrite Ea, Er. cbn [option_map fst snd]. rewrite Hl. reflexivity.
  - destruct (pair_to_id_some _ _ _ _ S1 Ex) as [Hb Ei]. rewrite Hg by lia. assert (k = IRI_DICT) by congruence. subst k. unfold read_local. cbn [IRI_DICT STRING_DICT LANGSTRING_DICT Nat.eqb]. rewrite Ei. cbn [bind option_map fst snd]. rewrite iri_pair_app. reflexivity.
  - apply (Ho _ _ ltac:(congruence) Ex eq_refl).
  - apply (Ho _ _ ltac:(congruence) Ex eq_refl).
  - destruct (Z.ltb_spec i (nulls D)) as [Hlt|]; [|discriminate]. assert (lid = i) by congruence. subst lid. unfold U64 in Hi. rewrite Hg by lia. assert (k = NULL_DICT) by congruence. subst k. unfold read_local. cbn [NULL_DICT OTHER_DICT STRING_DICT LANGSTRING_DICT IRI_DICT Nat.eqb]. destruct (Z.ltb_spec i (nulls D)); [reflexivity|lia].
  - destruct (H _ _ eq_refl).
Qed.
(* what elements become *)
Definition encodes (D : meta) (e : datavalue) (q : Z * bytes) : Prop :=
  inline_element e = Some q \/ (inline_element e = None /\ exists id, datavalue_to_id D e = Ok (Some id) /\ q = id_bytes id TYPE_DICTID32 TYPE_DICTID64).
Lemma elems_encode : forall D es s s', elems_lookup D es s = Ok (Some s') -> exists qs, s' = push_all qs s /\ Forall2 (encodes D) es qs.
Proof.
  intros D es. induction es as [|e es IH]; intros s s' E.
  - cbn in E. assert (s' = s) by congruence. subst s'. exists []. split; [reflexivity|constructor].
  - rewrite elems_lookup_cons in E. destruct (inline_element e) as [q|] eqn:Eq.
    + destruct (IH _ _ E) as (qs & -> & H). exists (q :: qs). split; [reflexivity|]. constructor; [left; exact Eq|exact H].
    + apply bind_ok in E. destruct E as ([id|] & Ei & E); [|discriminate]. destruct (IH _ _ E) as (qs & -> & H). eexists (_ :: qs). split; [reflexivity|]. constructor; [right; split; [exact Eq|]; exists id; split; [exact Ei|reflexivity]|exact H].
Qed.
Lemma trim_in : forall ts p t, In t (trim p ts) -> In t ts.
Proof.
  induction ts as [|t ts IH]; intros p x H; cbn [trim] in H; [destruct H|]. destruct (trim t ts) as [|a l] eqn:E.
  - destruct (t =? p); [destruct H|]. destruct H as [->|[]]. left. reflexivity.
  - destruct H as [->|H]; [left; reflexivity|]. right. apply (IH t). rewrite E. exact H.
Qed.
Definition decodes (skip : nat) (v : datavalue) : Prop := supported v -> forall D id, meta_ok D -> fits D -> (skip = O \/ small_labels D v) -> datavalue_to_id D v = Ok (Some id) ->
  forall fuel, (depth v < fuel)%nat -> decode skip fuel D id = Ok (Some v).
Lemma read_label_ok : forall skip D label s fuel types, meta_ok D -> fits D -> start_lookup D label = Ok (Some s) -> (skip = O \/ forall l id, label = Some l -> datavalue_to_id D (Iri l) = Ok (Some id) -> id < 2 ^ 32) ->
  (forall t, In t types -> element_type t) -> exists lab, s = tuple_start lab /\ (lab = [] <-> label = None) /\ read_label_skip skip (decode skip (S fuel) D) (lab ++ types) = Ok (label, types).
Proof.
  intros skip D label s fuel types M F E Hs Ht. destruct label as [l|]; cbn [start_lookup] in E.
  - apply bind_ok in E. destruct E as ([id|] & Ei & E); [|discriminate]. cbn in E. assert (s = tuple_start (label_bytes id)) by congruence. subst s. exists (label_bytes id). split; [reflexivity|]. split; [split; discriminate|].
    pose proof (id_bound _ _ _ M F Ei) as Hb. pose proof (decode_other (Iri l) ltac:(discriminate) (sup_iri l) skip fuel D id M F Ei) as Hd. unfold U64 in Hb.
    unfold label_bytes, id_bytes. destruct (Z.leb_spec id U32_MAX) as [Hle|Hgt]; cbn [fst snd].
    + cbn [read_label_skip app]. change (TYPE_LABELID32 =? TYPE_LABELID32) with true. cbv iota. rewrite take_be. cbn [bind fst snd]. rewrite be4 by (rewrite u32_is in Hle; lia). rewrite Hd. reflexivity.
    + cbn [read_label_skip app]. change (TYPE_LABELID64 =? TYPE_LABELID32) with false. change (TYPE_LABELID64 =? TYPE_LABELID64) with true. cbv iota. rewrite take_be. cbn [bind fst snd]. rewrite be8 by exact Hb. rewrite Hd. cbn [bind].
      destruct Hs as [->|Hs]; [reflexivity|]. specialize (Hs l id eq_refl Ei). rewrite u32_is in Hgt. lia.
  - assert (s = tuple_start []) by congruence. subst s. exists []. split; [reflexivity|]. split; [split; reflexivity|]. cbn [app]. destruct types as [|t types]; [reflexivity|]. destruct (Ht t (or_introl eq_refl)) as (_ & H32 & H64). cbn [read_label_skip].
    destruct (Z.eqb_spec t TYPE_LABELID32); [contradiction|]. destruct (Z.eqb_spec t TYPE_LABELID64); [contradiction|]. reflexivity.
Qed.
Lemma depth_elem : forall es e, In e es -> (depth e <= fold_right (fun e n => Nat.max (depth e) n) O es)%nat.
Proof. induction es as [|a es IH]; intros e H; [destruct H|]. cbn. destruct H as [->|H]; [lia|]. specialize (IH e H). lia. Qed.
Lemma decodes_all : forall skip v, decodes skip v.
Proof.
  intros skip. apply datavalue_ind'.
  2: { intros v H S D id M F _ E fuel Hf. destruct fuel as [|fuel]; [lia|]. exact (decode_other v H S skip fuel D id M F E). }
  intros label es IH S D id M F Hsm E fuel Hf. inversion S as [| | | | | |? ? Hl Hes]; subst. cbn [depth] in Hf. destruct fuel as [|[|fuel]]; [lia|lia|].
  rewrite lookup_tuple in E. apply bind_ok in E. destruct E as ([s|] & Es & E); [|discriminate]. apply bind_ok in E. destruct E as ([s'|] & Ee & E); [|discriminate]. apply bind_ok in E. destruct E as (x & Ep & E).
  assert (Hk : (TUPLE_DICT < 6)%nat) by (unfold TUPLE_DICT; lia). destruct (to_global_some _ _ _ _ M F Hk E) as (lid & -> & _ & Hg). destruct (pair_to_id_some _ _ _ _ (ok_tuple _ (ok_subs _ M)) Ep) as [Hb Ei].
  destruct (elems_encode _ _ _ _ Ee) as (qs & -> & Henc).
  assert (Hreads : Forall2 (fun e q => reads (decode skip (Datatypes.S fuel) D) e q) es qs).
  { assert (Hall : forall e q, In e es -> encodes D e q -> reads (decode skip (Datatypes.S fuel) D) e q).
    { intros e q Hin He. rewrite Forall_forall in Hes, IH. destruct He as [He|(He & eid & Eid & ->)]; [exact (inline_read _ _ _ (Hes e Hin) He)|].
      destruct (Hes e Hin) as [Se|Ne]; [|destruct (number_inline _ Ne He)].
      apply id_bytes_read; [exact (id_bound _ _ _ M F Eid)|]. apply (IH e Hin Se D eid M F); [|exact Eid|pose proof (depth_elem es e Hin); lia].
      destruct Hsm as [->|Hsm]; [left; reflexivity|right]. intros l i Hil Eli. apply (Hsm l i); [|exact Eli]. cbn [labels]. apply in_or_app. right. apply in_flat_map. exists e. auto. }
    clear - Henc Hall. induction Henc as [|e q es qs He H IH]; constructor; [apply Hall; [left; reflexivity|exact He]|]. apply IH. intros e' q' Hin. apply Hall. right. exact Hin. }
  assert (Hty : Forall (fun q : Z * bytes => element_type (fst q)) qs) by (clear - Hreads; induction Hreads as [|e q es qs He H IH]; constructor; [exact (proj1 He)|exact IH]).
  assert (Htypes : forall t, In t (trim TYPE_NOTYPE (map fst qs)) -> element_type t).
  { intros t Ht. apply trim_in, in_map_iff in Ht. destruct Ht as (q & <- & Hq). rewrite Forall_forall in Hty. exact (Hty q Hq). }
  assert (Hsl : skip = O \/ forall l id, label = Some l -> datavalue_to_id D (Iri l) = Ok (Some id) -> id < 2 ^ 32).
  { destruct Hsm as [->|Hsm]; [left; reflexivity|right]. intros l i -> Eli. apply (Hsm l i); [|exact Eli]. cbn [labels app]. left. reflexivity. }
  destruct (read_label_ok skip D label s fuel _ M F Es Hsl Htypes) as (lab & -> & Hlab & Er).
  assert (Hlq : lab = [] \/ qs <> []). { destruct Hl as [->|Hne]; [left; apply Hlab; reflexivity|right]. intros ->. inversion Henc; subst. contradiction. }
  assert (Hnt : Forall (fun e : Z * bytes => fst e <> TYPE_NOTYPE) qs) by (clear - Hty; induction Hty as [|q qs Hq H IH]; constructor; [exact (proj1 Hq)|exact IH]).
  rewrite (tuple_end_eq lab qs Hlq Hnt) in Ei, Ep. cbn [fst snd] in Ei.
  rewrite decode_S, Hg by lia. unfold read_local. cbn [TUPLE_DICT NULL_DICT OTHER_DICT STRING_DICT LANGSTRING_DICT IRI_DICT Nat.eqb]. rewrite Ei. cbn [bind fst snd]. unfold read_tuple_skip. rewrite Er. cbn [bind fst snd].
  rewrite (read_all _ qs es); [reflexivity| |apply le_n]. clear - Hreads. induction Hreads as [|e q es qs He H IH]; constructor; [exact (proj2 He)|exact IH].
Qed.

(* ---- labels with 64bit ids ---- *)
Lemma length_trim : forall ts p, (length (trim p ts) <= length ts)%nat.
Proof. induction ts as [|t ts IH]; intros p; cbn [trim]; [cbn; lia|]. specialize (IH t). destruct (trim t ts); [destruct (t =? p)|]; cbn in *; lia. Qed.
Lemma label64_panics : forall D ids v l e es id lid, reached D ids -> fits D -> v = TupleValue (Some l) (e :: es) -> (length es < 8)%nat -> In (v, id) ids -> supported v -> datavalue_to_id D (Iri l) = Ok (Some lid) -> 2 ^ 32 <= lid ->
  forall fuel, (1 < fuel)%nat -> id_to_datavalue fuel D id = Panicked.
Proof.
  intros D ids v l e es id lid R F Hv Hlen Hi S El Hlid fuel Hf. destruct (reached_ok _ _ R F) as [M Hold]. pose proof (Hold _ _ Hi S) as E. rewrite Hv in *. clear v Hv. rewrite decode_model.
  inversion S as [| | | | | |? ? Hl Hes]; subst. destruct fuel as [|[|fuel]]; [lia|lia|].
  rewrite lookup_tuple in E. cbn [start_lookup] in E. rewrite El in E. cbn [bind option_map] in E. apply bind_ok in E. destruct E as ([s'|] & Ee & E); [|discriminate]. apply bind_ok in E. destruct E as (x & Ep & E).
  assert (Hk : (TUPLE_DICT < 6)%nat) by (unfold TUPLE_DICT; lia). destruct (to_global_some _ _ _ _ M F Hk E) as (lid' & -> & _ & Hg). destruct (pair_to_id_some _ _ _ _ (ok_tuple _ (ok_subs _ M)) Ep) as [Hb Ei].
  destruct (elems_encode _ _ _ _ Ee) as (qs & -> & Henc).
  assert (Hq : forall e q, encodes D e q -> supported e \/ number e -> fst q <> TYPE_NOTYPE /\ snd q <> []).
  { intros a q [He|(He & eid & _ & ->)] Hs; [destruct (inline_read (fun _ => Ok None) _ _ Hs He) as ((H1 & _) & H2 & _); auto|]. unfold id_bytes. destruct (_ <=? _); split; discriminate. }
  assert (Hall : Forall (fun q : Z * bytes => fst q <> TYPE_NOTYPE /\ snd q <> []) qs).
  { clear - Henc Hes Hq. induction Henc as [|a q l qs He H IH]; constructor; inversion Hes; subst; eauto. }
  assert (Hnt : Forall (fun e : Z * bytes => fst e <> TYPE_NOTYPE) qs) by (clear - Hall; induction Hall as [|q qs Hq H IH]; constructor; [exact (proj1 Hq)|exact IH]).
  inversion Henc as [|? q ? qs' Hq1 Henc' Ea Eq]; subst. assert (Hlq : label_bytes lid = [] \/ q :: qs' <> []) by (right; discriminate).
  rewrite (tuple_end_eq _ _ Hlq Hnt) in Ei. cbn [fst snd] in Ei.
  rewrite decode_S, Hg by lia. unfold read_local. cbn [TUPLE_DICT NULL_DICT OTHER_DICT STRING_DICT LANGSTRING_DICT IRI_DICT Nat.eqb]. rewrite Ei. cbn [bind fst snd]. unfold read_tuple_skip.
  pose proof (id_bound _ _ _ M F El) as Hbd. unfold U64 in Hbd.
  pose proof (decode_other (Iri l) ltac:(discriminate) (sup_iri l) 9 fuel D lid M F El) as Hd.
  set (types := trim TYPE_NOTYPE (map fst (q :: qs'))). assert (Htl : (length types <= 9)%nat).
  { pose proof (length_trim (map fst (q :: qs')) TYPE_NOTYPE) as Ht. rewrite map_length in Ht. pose proof (Forall2_len _ _ _ _ _ Henc') as Hn. cbn [length] in Ht. fold types in Ht. lia. }
  assert (Er : read_label_skip 9 (decode 9 (Datatypes.S fuel) D) (label_bytes lid ++ types) = Ok (Some l, [])).
  { unfold label_bytes, id_bytes. destruct (Z.leb_spec lid U32_MAX) as [Hle|Hgt]; [rewrite u32_is in Hle; lia|]. cbn [fst snd]. cbn [read_label_skip app]. change (TYPE_LABELID64 =? TYPE_LABELID32) with false. change (TYPE_LABELID64 =? TYPE_LABELID64) with true. cbv iota. rewrite take_be. cbn [bind fst snd]. rewrite be8 by exact Hbd. rewrite Hd. cbn [bind].
    rewrite skipn_all2 by exact Htl. reflexivity. }
  rewrite Er. cbn [bind fst snd]. inversion Hall as [|? ? [_ Hc] _]; subst. cbn [map concat]. destruct (snd q) as [|c content] eqn:Ec; [contradiction|]. cbn [app length read_elements]. reflexivity.
Qed.
