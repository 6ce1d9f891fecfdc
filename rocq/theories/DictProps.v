(* C28: the dictionary of data values is a stable bijection. *)
From Coq Require Import List ZArith Bool Lia Ascii String.
From Verif Require Import ColumnModel BufferModel BytesDictModel BytesDictSpec BufferProofs BytesDictProofs DictModel DictSpec DictProofs1 DictProofs2 DictProofs3 DictProofs4 DictProofs5.
Import ListNotations.
Local Open Scope Z_scope.

(* An id that was returned for a value stays its id, and yields the value. *)
Theorem C28_stable : forall D ids v id, reached D ids -> fits D -> In (v, id) ids -> supported v ->
  datavalue_to_id D v = Ok (Some id) /\
  (small_labels D v -> forall fuel, (depth v < fuel)%nat -> id_to_datavalue fuel D id = Ok (Some v)).
Proof.
  intros D ids v id R F Hi S. destruct (reached_ok _ _ R F) as [M Hold]. pose proof (Hold _ _ Hi S) as E. split; [exact E|].
  intros Hs fuel Hf. rewrite decode_model. exact (decodes_all 9 v S D id M F (or_intror Hs) E fuel Hf).
Qed.
Print Assumptions C28_stable.

(* Equal values have equal ids and different values different ids. *)
Theorem C28_bijection : forall D ids v i w j, reached D ids -> fits D -> In (v, i) ids -> In (w, j) ids -> supported v -> supported w -> (i = j <-> v = w).
Proof.
  intros D ids v i w j R F Hi Hj Sv Sw. destruct (reached_ok _ _ R F) as [M Hold]. pose proof (Hold _ _ Hi Sv) as Ev. pose proof (Hold _ _ Hj Sw) as Ew. split; [|intros ->; congruence].
  intros ->. pose proof (decodes_all O v Sv D j M F (or_introl eq_refl) Ev (S (depth v + depth w)) ltac:(lia)) as H1.
  pose proof (decodes_all O w Sw D j M F (or_introl eq_refl) Ew (S (depth v + depth w)) ltac:(lia)) as H2. congruence.
Qed.
Print Assumptions C28_bijection.

(* An id that is reported as new was not in use, and the value was not known; nulls are always new. *)
Theorem C28_fresh : forall D ids v D' id, reached D ids -> fits D' -> supported v -> add_datavalue D v = Ok (D', Fresh id) ->
  (forall i, ~ In (v, i) ids) /\ (forall w, supported w -> ~ In (w, id) ids).
Proof.
  intros D ids v D' id R F S E. pose proof (fits_len _ _ (grows_all v _ _ _ E) F) as F0. destruct (reached_ok _ _ R F0) as [M Hold].
  assert (H1 : forall i, ~ In (v, i) ids).
  { intros i Hi. pose proof (Hold _ _ Hi S) as Ei. assert (Hk : known_or D v (Ok (D', Fresh id)) = Ok (D, Known i)) by (unfold known_or; rewrite Ei; reflexivity).
    assert (Ea : exists a, add_datavalue D v = known_or D v a).
    { destruct v; try (match goal with |- exists a, add_datavalue D ?v = _ => rewrite (add_other D v) by discriminate; rewrite (lookup_other D v) in Ei by discriminate; destruct (dict_for v); [eauto|discriminate Ei] end). rewrite add_tuple. eauto. }
    destruct Ea as [a Ea]. rewrite Ea in E. unfold known_or in E. rewrite Ei in E. cbn [bind] in E. discriminate E. }
  split; [exact H1|]. intros w Sw Hw. pose proof (reached_add _ _ _ _ _ R (supported_wf v S) E) as R'. cbn beta iota in R'.
  pose proof (proj1 (C28_bijection _ _ v id w id R' F (or_introl eq_refl) (or_intror Hw) S Sw) eq_refl). subst w. exact (H1 _ Hw).
Qed.
Print Assumptions C28_fresh.
Theorem C28_fresh_null : forall D ids D' v id, reached D ids -> fits D' -> fresh_null D = Ok (D', v, id) -> forall i, ~ In (v, i) ids.
Proof.
  intros D ids D' v id R F E i Hi.
  assert (F0 : fits D). { unfold fresh_null in E. apply bind_ok in E. destruct E as ([D1 g] & E1 & E). cbn in E. assert (D1 = D') by congruence. subst D1. pose proof (local_to_global_len _ _ _ _ _ E1) as Hlen. cbn in Hlen. exact (fits_len _ _ Hlen F). }
  destruct (reached_ok _ _ R F0) as [M Hold]. destruct (fresh_null_ok _ _ _ _ M F E) as (_ & _ & -> & _ & _). pose proof (size_bound D NULL_DICT M F0) as Hs. cbn [size NULL_DICT] in Hs. pose proof (ok_null _ (ok_subs _ M)) as H0.
  assert (S : supported (NullValue (nulls D))) by (constructor; unfold U64; change (2 ^ 64) with (2 ^ 63 * 2); lia).
  pose proof (Hold _ _ Hi S) as Ei. cbn [datavalue_to_id dict_for local_lookup] in Ei. rewrite Z.ltb_irrefl in Ei. discriminate Ei.
Qed.
Print Assumptions C28_fresh_null.

(* Values that were added before are not touched by what is added later, whatever it is. *)
Theorem C28_later : forall v D ids D' r w id, reached D ids -> fits D' -> wf v -> add_datavalue D v = Ok (D', r) -> datavalue_to_id D w = Ok (Some id) -> datavalue_to_id D' w = Ok (Some id).
Proof.
  intros v D ids D' r w id R F W E Ew. destruct (reached_ok _ _ R (fits_len _ _ (grows_all v _ _ _ E) F)) as [M _]. destruct (add_spec_all v _ _ _ W M F E) as (M' & L & _). exact (stable_all w _ _ _ M M' L Ew).
Qed.
Print Assumptions C28_later.

(* Looking up and adding values succeeds while there is room, except for empty language tags. *)
Theorem C28_succeeds : forall D ids v, reached D ids -> fits D -> wf v -> tags_ok v -> room D (nodes v) ->
  (exists f, datavalue_to_id D v = Ok f) /\ (exists D' r, add_datavalue D v = Ok (D', r)).
Proof.
  intros D ids v R F W T Rm. destruct (reached_ok _ _ R F) as [M _]. pose proof (nodes_pos v) as Hp.
  assert (Hn : nodes v <= 2 ^ 60) by (destruct Rm as (_ & H & _); unfold entries in H; lia). apply room_roomy in Rm; [|exact Hn]. split.
  - apply (total_lookup_all v D W T M). apply (roomy_le _ _ _ Rm). lia.
  - destruct (total_add_all v D 0 W T M (Z.le_refl 0)) as (D' & r & E & _); [exact Rm|]. eauto.
Qed.
Print Assumptions C28_succeeds.

(* ---- a history ---- *)
Definition step (p : meta * list (datavalue * Z)) (v : datavalue) : meta * list (datavalue * Z) :=
  match add_datavalue (fst p) v with Ok (D, Fresh id) => (D, (v, id) :: snd p) | Ok (D, Known id) => (D, (v, id) :: snd p) | Ok (D, Rejected) => (D, snd p) | _ => p end.
Definition history_of (vs : list datavalue) : meta * list (datavalue * Z) := fold_left step vs (meta_new, []).
Lemma step_reached : forall p v, wf v -> reached (fst p) (snd p) -> reached (fst (step p v)) (snd (step p v)).
Proof.
  intros p v W R. unfold step. destruct (add_datavalue (fst p) v) as [[D r]| |] eqn:E; [|exact R|exact R]. pose proof (reached_add _ _ _ _ _ R W E) as R'. destruct r; exact R'.
Qed.
Lemma history_reached : forall vs, Forall wf vs -> reached (fst (history_of vs)) (snd (history_of vs)).
Proof.
  intros vs H. unfold history_of. assert (G : forall p, reached (fst p) (snd p) -> reached (fst (fold_left step vs p)) (snd (fold_left step vs p))).
  { induction H as [|v vs W H IH]; intros p R; [exact R|]. cbn [fold_left]. apply IH. apply step_reached; assumption. }
  apply (G (meta_new, [])). apply reached_new.
Qed.
Local Notation str s := (of_string s%string).
Definition some_values : list datavalue :=
  [PlainString (str "abc"); Iri (str "http://example.org/a#b"); LangString (str "hello") (str "en"); OtherValue (str "2020-01-01") (str "http://www.w3.org/2001/XMLSchema#date"); BooleanValue true;
   TupleValue (Some (str "f")) [LongValue (-5); Iri (str "x"); Iri (str "y"); NullValue 3; TupleValue None []; UnsignedLong (2 ^ 63); FloatValue 0; BooleanValue false]; PlainString (str "abc"); Iri (str "x")].
Definition some_history : meta * list (datavalue * Z) := Eval vm_compute in history_of some_values.
Lemma some_wf : Forall wf some_values.
Proof. repeat constructor; unfold U64; lia. Qed.
Lemma history_of_reached : forall vs h, Forall wf vs -> history_of vs = h -> reached (fst h) (snd h).
Proof. intros vs h W <-. exact (history_reached vs W). Qed.
Example C28_example : reached (fst some_history) (snd some_history) /\ map snd (snd some_history) = [16777218; 0; 67108865; 50331649; 50331648; 33554432; 16777216; 0] /\ fits (fst some_history) /\ Forall supported some_values /\
  id_to_datavalue 3 (fst some_history) 67108865 = Ok (Some (nth 5 some_values (NullValue 0))).
Proof.
  split; [apply (history_of_reached some_values); [exact some_wf|vm_compute; reflexivity]|]. split; [vm_compute; reflexivity|]. split; [vm_compute; discriminate|]. split; [|vm_compute; reflexivity].
  repeat (apply Forall_cons || apply Forall_nil); try (constructor; fail).
  - constructor; [reflexivity|discriminate|left; vm_compute; discriminate].
  - constructor. intros H. vm_compute in H. discriminate H.
  - constructor; [right; discriminate|]. repeat (apply Forall_cons || apply Forall_nil).
    + right. constructor. lia.
    + left. constructor.
    + left. constructor.
    + left. constructor. unfold U64. lia.
    + left. constructor; [left; reflexivity|constructor].
    + right. constructor. lia.
    + right. constructor; [lia|reflexivity].
    + left. constructor.
Qed.

Example C28_example_room : room (fst some_history) (nodes (nth 5 some_values (NullValue 0))) /\ Forall tags_ok some_values.
Proof.
  split; [repeat split; repeat constructor; vm_compute; discriminate|]. repeat (apply Forall_cons || apply Forall_nil); try (apply tags_other; discriminate); [apply tags_lang; discriminate|].
  apply tags_tuple. repeat (apply Forall_cons || apply Forall_nil); try (apply tags_other; discriminate). apply tags_tuple. constructor.
Qed.

(* ---- values that are not stored faithfully ---- *)
(* Tuples without elements lose their label: f(), g() and () have one id. *)
Theorem C28_label_refuted : exists D ids id, reached D ids /\ fits D /\
  In (TupleValue (Some (str "f")) [], id) ids /\ In (TupleValue (Some (str "g")) [], id) ids /\ id_to_datavalue 2 D id = Ok (Some (TupleValue None [])).
Proof.
  pose (h := history_of [TupleValue (Some (str "f")) []; TupleValue (Some (str "g")) []]). exists (fst h), (snd h), 16777216. split; [apply history_reached; repeat constructor|].
  split; [vm_compute; discriminate|]. split; [vm_compute; auto|]. split; [vm_compute; auto|]. vm_compute. reflexivity.
Qed.
Print Assumptions C28_label_refuted.
(* Integers beyond the range of i64 come back as values of the kind "other". *)
Theorem C28_unsigned_refuted : exists D ids id, reached D ids /\ fits D /\ In (UnsignedLong (2 ^ 63), id) ids /\ id_to_datavalue 1 D id = Ok (Some (OtherValue (str "9223372036854775808") XSD_UNSIGNED_LONG)).
Proof.
  pose (h := history_of [UnsignedLong (2 ^ 63)]). exists (fst h), (snd h), 0. split; [apply history_reached; repeat constructor; lia|].
  split; [vm_compute; discriminate|]. split; [vm_compute; auto|]. vm_compute. reflexivity.
Qed.
Print Assumptions C28_unsigned_refuted.
(* Long language tags with a backslash or a greater-than sign come back escaped; the empty tag panics. *)
Theorem C28_tag_refuted : exists tag D ids id s, reached D ids /\ fits D /\ In (LangString (str "s") tag, id) ids /\ id_to_datavalue 1 D id = Ok (Some s) /\ s <> LangString (str "s") tag.
Proof.
  pose (tag := 92 :: repeat 97 127). pose (h := history_of [LangString (str "s") tag]). exists tag, (fst h), (snd h), 0, (LangString (str "s") (92 :: tag)). split; [apply history_reached; repeat constructor|].
  split; [vm_compute; discriminate|]. split; [vm_compute; auto|]. split; [vm_compute; reflexivity|]. intros H. vm_compute in H. discriminate H.
Qed.
Print Assumptions C28_tag_refuted.
Theorem C28_empty_tag_refuted : forall s, wf (LangString s []) /\ add_datavalue meta_new (LangString s []) = Panicked.
Proof. intros s. split; [constructor; reflexivity|reflexivity]. Qed.
Print Assumptions C28_empty_tag_refuted.
(* Tuples with maps: the maps are not stored, different tuples share an id, which is reported as new
   again and again, and which cannot be read. *)
Theorem C28_map_refuted : exists D ids id D', let t := fun n => TupleValue None [MapValue None [(LongValue 0, LongValue n)]] in
  reached D ids /\ fits D /\ In (t 1, id) ids /\ In (t 2, id) ids /\ add_datavalue D (t 1) = Ok (D', Fresh id) /\ id_to_datavalue 2 D id = Panicked.
Proof.
  pose (t := fun n => TupleValue None [MapValue None [(LongValue 0, LongValue n)]]). pose (h := history_of [t 1; t 2]).
  exists (fst h), (snd h), 0, (match add_datavalue (fst h) (t 1) with Ok q => fst q | _ => fst h end). cbn zeta. split; [apply history_reached; repeat constructor|].
  split; [vm_compute; discriminate|]. split; [vm_compute; auto|]. split; [vm_compute; auto|]. split; vm_compute; reflexivity.
Qed.
Print Assumptions C28_map_refuted.
(* The floats 0.0 and -0.0 are equal, but tuples of them have different ids. *)
Theorem C28_zero_refuted : exists D ids i j, reached D ids /\ fits D /\ In (TupleValue None [DoubleValue 0], i) ids /\ In (TupleValue None [DoubleValue (2 ^ 63)], j) ids /\ i <> j.
Proof.
  pose (h := history_of [TupleValue None [DoubleValue 0]; TupleValue None [DoubleValue (2 ^ 63)]]). exists (fst h), (snd h), 0, 1. split; [apply history_reached; repeat constructor; lia|].
  split; [vm_compute; discriminate|]. split; [vm_compute; auto|]. split; [vm_compute; auto|]. discriminate.
Qed.
Print Assumptions C28_zero_refuted.
(* A tuple whose label has an id of more than 32 bits is stored but reading it panics (9 type bytes are
   skipped twice, so the types are gone). *)
Theorem C28_label64_panics : forall D ids v l e es id lid, reached D ids -> fits D -> v = TupleValue (Some l) (e :: es) -> (List.length es < 8)%nat -> In (v, id) ids -> supported v -> datavalue_to_id D (Iri l) = Ok (Some lid) -> 2 ^ 32 <= lid ->
  forall fuel, (1 < fuel)%nat -> id_to_datavalue fuel D id = Panicked.
Proof. exact label64_panics. Qed.
Print Assumptions C28_label64_panics.
