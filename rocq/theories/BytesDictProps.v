(* C28, dictionaries of byte arrays: a bijection between the added arrays and the numbers from 0. *)
From Coq Require Import List ZArith Bool Lia.
From Verif Require Import ColumnModel BufferModel BytesDictModel BytesDictSpec BufferProofs BytesDictProofs.
From Verif Require BufferSpec.
Import ListNotations.
Local Open Scope Z_scope.

(* Whatever happens to the other handles of the buffer, the results of all calls are those of the
   specification, and so is every answer. *)
Theorem C28_bytes : forall b live d ev, shared b live d ev ->
  exists k, follows ev k /\ (forall x f, bytes_to_id b d x = Ok f -> f = lookup k x) /\ (forall id f, id_to_bytes b d id = Ok f -> f = array_at k id) /\
    dict_len d = Z.of_nat (length (arrays k)).
Proof.
  intros b live d ev H. destruct (shared_represents _ _ _ _ H) as (stored & k & Hh & Hl & R & F). exists k. split; [exact F|]. split; [|split].
  - intros x f. exact (bytes_to_id_ok _ _ _ _ _ _ _ Hh R).
  - intros id f. exact (id_to_bytes_ok _ _ _ _ _ _ _ Hh R).
  - unfold dict_len, lenz. f_equal. exact (Forall2_len _ _ _ _ _ (rep_store _ _ _ R)).
Qed.
Print Assumptions C28_bytes.

(* The calls succeed if the empty array was not used, up to the limits of the buffer. *)
Theorem C28_bytes_succeeds : forall b live d ev, shared b live d ev -> ~ In [] (map event_array ev) ->
  (forall x, exists f, bytes_to_id b d x = Ok f) /\ (forall id, exists f, id_to_bytes b d id = Ok f) /\
  (forall x, Z.of_nat (length x) <= 2 ^ 24 - 1 -> Z.of_nat (length (pages b)) < 2 ^ 15 -> (exists s, add_bytes b d x = Ok s) /\ (exists s, mark_bytes b d x = Ok s)).
Proof.
  intros b live d ev H Hne. destruct (shared_represents _ _ _ _ H) as (stored & k & Hh & Hl & R & F).
  assert (Hk : forall x, In x (arrays k) \/ In x (marks k) -> x <> []) by (intros x Hx ->; apply Hne, (follows_arrays _ _ F), Hx).
  split; [intros x; exact (proj1 (total _ _ _ _ _ x Hh Hl R Hk))|]. split; [exact (proj1 (proj2 (total _ _ _ _ _ [] Hh Hl R Hk)))|].
  intros x Hx Hp. split.
  - destruct (proj2 (proj2 (total _ _ _ _ _ x Hh Hl R Hk)) true Hx Hp) as (b' & d' & r & E). exists (b', d', r). exact E.
  - set (d1 := mk_bytes_dict (store d) (map_short d) (map_long d) (buffer_id d) true).
    assert (R1 : represents stored d1 k) by (destruct R as [Q1 Q2 Q3 Q4 Q5 Q6 Q7]; constructor; assumption).
    destruct (proj2 (proj2 (total _ _ _ d1 _ x Hh Hl R1 Hk)) false Hx Hp) as (b' & d' & r & E). exists (b', d', r). exact E.
Qed.
Print Assumptions C28_bytes_succeeds.

(* The specification is a stable bijection: the id that was returned for an array stays its id, the id
   stays the id of the array, and every id below the number of ids is the one of exactly one array. *)
Lemma follows_good : forall ev k, follows ev k -> NoDup (arrays k) /\ (forall x, In x (arrays k) -> ~ In x (marks k)).
Proof.
  intros ev k H. induction H as [|ev k x k' r H IH E|ev k x k' r H IH E].
  - split; [constructor|intros x []].
  - destruct IH as [N D]. unfold spec_add in E. destruct (lookup k x) eqn:El; inversion E; subst; clear E; [auto|]. destruct (lookup_none _ _ El) as [Ha Hm]. cbn. split; [apply NoDup_snoc; auto|].
    intros y Hy. apply in_app_iff in Hy. destruct Hy as [Hy|[->|[]]]; auto.
  - destruct IH as [N D]. unfold spec_mark in E. destruct (lookup k x) eqn:El; inversion E; subst; clear E; [auto|]. destruct (lookup_none _ _ El) as [Ha Hm]. cbn. split; [exact N|].
    intros y Hy [<-|Hi]; [auto|exact (D _ Hy Hi)].
Qed.
Lemma lookup_in_array : forall k x i, NoDup (arrays k) -> (forall x, In x (arrays k) -> ~ In x (marks k)) -> nth_error (arrays k) i = Some x -> lookup k x = Some (Z.of_nat i).
Proof.
  intros k x i N D E. unfold lookup. destruct (in_dec (list_eq_dec Z.eq_dec) x (marks k)) as [Hm|_]; [destruct (D x (nth_error_In _ _ E) Hm)|]. rewrite (position_nth _ _ _ N E). reflexivity.
Qed.
Lemma lookup_kind : forall k x id, lookup k x = Some id -> (In x (marks k) /\ id = KNOWN_ID_MARK) \/ (~ In x (marks k) /\ exists i, id = Z.of_nat i /\ nth_error (arrays k) i = Some x).
Proof.
  intros k x id E. unfold lookup in E. destruct (in_dec (list_eq_dec Z.eq_dec) x (marks k)) as [Hm|Hm]; [left; split; [exact Hm|congruence]|]. right. split; [exact Hm|].
  destruct (position x (arrays k)) as [i|] eqn:Ei; [|discriminate]. exists i. split; [cbn in E; congruence|exact (position_some _ _ _ Ei)].
Qed.
Lemma event_stable : forall ev k, follows ev k -> forall x r, In (Added x r) ev \/ In (Marked x r) ev -> lookup k x = Some (result_value r).
Proof.
  intros ev k H. induction H as [|ev k x k' r H IH E|ev k x k' r H IH E]; intros y s Hy; [destruct Hy as [[]|[]]| |].
  - assert (Hcase : (In (Added y s) ev \/ In (Marked y s) ev) \/ (y = x /\ s = r)).
    { rewrite !in_app_iff in Hy. cbn in Hy. destruct Hy as [[Hy|[Hy|[]]]|[Hy|[Hy|[]]]]; auto; [|discriminate]. inversion Hy. auto. }
    destruct (follows_good _ _ H) as [N D]. destruct (follows_good _ _ (follows_add _ _ _ _ _ H E)) as [N' D'].
    unfold spec_add in E. destruct (lookup k x) as [id|] eqn:El; inversion E; subst; clear E.
    + destruct Hcase as [Hc|[-> ->]]; [exact (IH _ _ Hc)|]. exact El.
    + destruct Hcase as [Hc|[-> ->]].
      * specialize (IH _ _ Hc). destruct (lookup_kind _ _ _ IH) as [[Hm Hid]|(Hm & i & Hid & Hn)].
        -- unfold lookup in *. cbn [marks arrays]. destruct (in_dec (list_eq_dec Z.eq_dec) y (marks k)); [exact IH|contradiction].
        -- rewrite Hid. apply lookup_in_array; [exact N'|exact D'|]. cbn. apply nth_app_old. exact Hn.
      * cbn. apply lookup_in_array; [exact N'|exact D'|]. cbn. rewrite nth_error_app2, Nat.sub_diag by lia. reflexivity.
  - assert (Hcase : (In (Added y s) ev \/ In (Marked y s) ev) \/ (y = x /\ s = r)).
    { rewrite !in_app_iff in Hy. cbn in Hy. destruct Hy as [[Hy|[Hy|[]]]|[Hy|[Hy|[]]]]; auto; [discriminate|]. inversion Hy. auto. }
    destruct (follows_good _ _ (follows_mark _ _ _ _ _ H E)) as [N' D'].
    unfold spec_mark in E. destruct (lookup k x) as [id|] eqn:El; inversion E; subst; clear E.
    + destruct Hcase as [Hc|[-> ->]]; [exact (IH _ _ Hc)|]. exact El.
    + destruct Hcase as [Hc|[-> ->]].
      * specialize (IH _ _ Hc). destruct (lookup_kind _ _ _ IH) as [[Hm Hid]|(Hm & i & Hid & Hn)].
        -- unfold lookup in *. cbn [marks arrays]. destruct (in_dec (list_eq_dec Z.eq_dec) y (x :: marks k)) as [_|Hc2]; [congruence|]. destruct Hc2. right. exact Hm.
        -- rewrite Hid. apply lookup_in_array; [exact N'|exact D'|exact Hn].
      * unfold lookup. cbn [marks arrays]. destruct (in_dec (list_eq_dec Z.eq_dec) x (x :: marks k)) as [_|Hc2]; [reflexivity|]. destruct Hc2. left. reflexivity.
Qed.
Theorem C28_bytes_stable : forall ev k, follows ev k ->
  (forall x r, In (Added x r) ev \/ In (Marked x r) ev -> lookup k x = Some (result_value r)) /\
  (forall x r, In (Added x r) ev -> ~ In x (marks k) -> array_at k (result_value r) = Some x) /\
  (forall id, 0 <= id < Z.of_nat (length (arrays k)) -> exists x, array_at k id = Some x /\ lookup k x = Some id) /\
  (forall x, ~ In x (map event_array ev) -> lookup k x = None).
Proof.
  intros ev k F. destruct (follows_good _ _ F) as [N D]. split; [exact (event_stable _ _ F)|]. split; [|split].
  - intros x r Hi Hm. pose proof (event_stable _ _ F x r (or_introl Hi)) as El. destruct (lookup_kind _ _ _ El) as [[Hm' _]|(_ & i & -> & Hn)]; [contradiction|]. unfold array_at. rewrite Nat2Z.id. exact Hn.
  - intros id Hid. destruct (nth_error (arrays k) (Z.to_nat id)) as [x|] eqn:E; [|apply nth_error_None in E; lia]. exists x. split; [exact E|]. rewrite (lookup_in_array _ _ _ N D E). f_equal. lia.
  - intros x Hx. destruct (lookup k x) as [id|] eqn:El; [|reflexivity]. destruct Hx. apply (follows_arrays _ _ F). destruct (lookup_kind _ _ _ El) as [[Hm _]|(_ & i & _ & Hn)]; [right; exact Hm|left; exact (nth_error_In _ _ Hn)].
Qed.
Print Assumptions C28_bytes_stable.

Example C28_bytes_example : exists b d,
  shared b [0%nat] d [Added [1; 2] (Fresh 0); Marked [9] (Fresh KNOWN_ID_MARK); Added [3] (Fresh 1); Added [1; 2] (Known 0); Added [9] (Known KNOWN_ID_MARK)] /\
  bytes_to_id b d [3] = Ok (Some 1) /\ id_to_bytes b d 1 = Ok (Some [3]) /\ bytes_to_id b d [9] = Ok (Some KNOWN_ID_MARK) /\ bytes_to_id b d [4] = Ok None.
Proof.
  pose proof (shared_new _ _ _ _ _ BufferSpec.history_new eq_refl) as H0. cbn in H0.
  pose proof (shared_add _ _ _ _ [1; 2] _ _ _ H0 eq_refl) as H1. pose proof (shared_mark _ _ _ _ [9] _ _ _ H1 eq_refl) as H2.
  pose proof (shared_add _ _ _ _ [3] _ _ _ H2 eq_refl) as H3. pose proof (shared_add _ _ _ _ [1; 2] _ _ _ H3 eq_refl) as H4. pose proof (shared_add _ _ _ _ [9] _ _ _ H4 eq_refl) as H5.
  eexists _, _. split; [exact H5|]. repeat split; reflexivity.
Qed.
