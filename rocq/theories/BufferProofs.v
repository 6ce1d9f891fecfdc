(* Proofs for C29. *)
From Coq Require Import List ZArith Bool Lia Arith.
From Verif Require Import ColumnModel BufferModel BufferSpec.
Import ListNotations.
Local Open Scope Z_scope.

Lemma page_size : PAGE_SIZE = 2 ^ 25. Proof. reflexivity. Qed.
Lemma max_length : MAX_LENGTH = 2 ^ 24 - 1. Proof. reflexivity. Qed.
Lemma max_address : MAX_ADDRESS = 2 ^ 40 - 1. Proof. reflexivity. Qed.
Lemma page_size_pos : 0 < PAGE_SIZE. Proof. reflexivity. Qed.
Global Opaque PAGE_SIZE MAX_LENGTH MAX_ADDRESS.

Lemma bind_ok : forall A B (r : res A) (k : A -> res B) y, bind r k = Ok y -> exists x, r = Ok x /\ k x = Ok y.
Proof. intros A B [a| |] k y H; cbn in H; try discriminate. eauto. Qed.
Lemma index_some : forall A (l : list A) i a, index l i = Ok a <-> nth_error l i = Some a.
Proof. intros. unfold index. destruct (nth_error l i); split; congruence. Qed.
Lemma lenz_app : forall A (l l' : list A), lenz (l ++ l') = lenz l + lenz l'.
Proof. intros. unfold lenz. rewrite app_length. lia. Qed.
Lemma lenz_nonneg : forall A (l : list A), 0 <= lenz l.
Proof. intros. unfold lenz. lia. Qed.

Lemma length_set : forall A (l : list A) i a, length (set_nth l i a) = length l.
Proof. induction l as [|x l IH]; intros [|i] a; cbn; auto. Qed.
Lemma nth_set : forall A (l : list A) i a, (i < length l)%nat -> nth_error (set_nth l i a) i = Some a.
Proof. induction l as [|x l IH]; intros [|i] a H; cbn in *; try lia; [reflexivity|]. apply IH. lia. Qed.
Lemma nth_set_other : forall A (l : list A) i j a, i <> j -> nth_error (set_nth l i a) j = nth_error l j.
Proof. induction l as [|x l IH]; intros [|i] [|j] a H; cbn; try congruence; try reflexivity. apply IH. congruence. Qed.
Lemma update_ok : forall A (l : list A) i a l', update l i a = Ok l' -> (i < length l)%nat /\ l' = set_nth l i a.
Proof. intros A l i a l' H. unfold update in H. destruct (nth_error l i) eqn:E; [|discriminate]. split; [apply nth_error_Some; congruence|congruence]. Qed.
Lemma update_some : forall A (l : list A) i a, (i < length l)%nat -> update l i a = Ok (set_nth l i a).
Proof. intros A l i a H. unfold update. destruct (nth_error l i) eqn:E; [reflexivity|]. apply nth_error_None in E. lia. Qed.
Lemma nth_error_lt : forall A (l : list A) i a, nth_error l i = Some a -> (i < length l)%nat.
Proof. intros A l i a H. apply nth_error_Some. congruence. Qed.

(* the pages after drop_buffer *)
Lemma drop_pages_ok : forall buf ps idx ps' freed, drop_pages buf idx ps = (ps', freed) ->
  length ps' = length ps /\
  (forall i, nth_error ps' i = match nth_error ps i with Some (Some o, c) => if Nat.eqb o buf then Some (None, []) else Some (Some o, c) | x => x end) /\
  (forall j, In j freed <-> exists i c, j = (idx + i)%nat /\ nth_error ps i = Some (Some buf, c)) /\ NoDup freed.
Proof.
  induction ps as [|[owner content] ps IH]; intros idx ps' freed H; cbn [drop_pages] in H.
  - inversion H; subst. split; [reflexivity|]. split; [intros [|i]; reflexivity|]. split; [|constructor]. intros j. split; [intros []|]. intros ([|i] & c & _ & E); discriminate.
  - destruct (drop_pages buf (S idx) ps) as [ps1 freed1] eqn:E1. destruct (IH _ _ _ E1) as (L & N & F & ND).
    set (hit := match owner with Some o => Nat.eqb o buf | None => false end) in *.
    assert (Fs : forall j, In j freed1 <-> exists i c, j = (idx + S i)%nat /\ nth_error ps i = Some (Some buf, c)).
    { intros j. rewrite F. split; intros (i & c & E & H0); exists i, c; (split; [lia|exact H0]). }
    destruct hit eqn:Hh; inversion H; subst ps' freed; clear H.
    + assert (Eo : owner = Some buf). { unfold hit in Hh. destruct owner; [|discriminate]. apply Nat.eqb_eq in Hh. congruence. } subst owner.
      split; [cbn; lia|]. split; [|split].
      * intros [|i]; cbn [nth_error]; [rewrite Nat.eqb_refl; reflexivity|apply N].
      * intros j. cbn [In]. rewrite Fs. split.
        -- intros [<-|(i & c & -> & H)]; [exists O, content; split; [lia|reflexivity]|]. exists (S i), c. split; [lia|exact H].
        -- intros ([|i] & c & -> & H); [left; lia|]. right. exists i, c. split; [lia|exact H].
      * constructor; [|exact ND]. rewrite Fs. intros (i & c & E & _). lia.
    + split; [cbn; lia|]. split; [|split; [|exact ND]].
      * intros [|i]; cbn [nth_error]; [|apply N]. unfold hit in Hh. destruct owner; [|reflexivity]. rewrite Hh. reflexivity.
      * intros j. rewrite Fs. split.
        -- intros (i & c & -> & H). exists (S i), c. split; [lia|exact H].
        -- intros ([|i] & c & -> & H); [|exists i, c; split; [lia|exact H]].
           cbn in H. inversion H; subst. unfold hit in Hh. rewrite Nat.eqb_refl in Hh. discriminate.
Qed.

(* packing of references *)
Lemma packing : forall address len r, 0 <= address -> 0 <= len -> ref_new address len = Ok r -> ref_address r = address /\ ref_len r = len.
Proof.
  intros address len r Ha Hl H. unfold ref_new in H. destruct (len <=? MAX_LENGTH) eqn:E1; [|discriminate]. destruct (address <=? MAX_ADDRESS) eqn:E2; [|discriminate].
  cbn [negb] in H. assert (Hr : r = Z.shiftl address LENGTH_BITS + len) by congruence. subst r. clear H. apply Z.leb_le in E1. rewrite max_length in E1. unfold ref_address, ref_len, LENGTH_BITS.
  rewrite Z.shiftl_mul_pow2 by lia. split.
  - rewrite Z.shiftr_div_pow2 by lia. symmetry. apply Z.div_unique with len; lia.
  - rewrite max_length. replace (2 ^ 24 - 1) with (Z.ones 24) by reflexivity. rewrite Z.land_ones by lia. symmetry. apply Z.mod_unique with address; lia.
Qed.

(* the bytes are in a page of the buffer *)
Definition lies (b : buffer) (e : nat * Z * bytes) : Prop :=
  let '(buf, r, data) := e in
  ref_len r = lenz data /\ exists page content pre post,
    nth_error (pages b) page = Some (Some buf, content) /\ content = pre ++ data ++ post /\
    ref_address r = Z.of_nat page * PAGE_SIZE + lenz pre.

Record inv (b : buffer) (live : list nat) (stored : list (nat * Z * bytes)) : Prop := mk_inv {
  inv_range : forall i, In i live -> (i < length (cur_pages b))%nat;
  inv_nodup : NoDup (reclaimed_buffers b);
  inv_reclaimed : forall i, In i (reclaimed_buffers b) -> (i < length (cur_pages b))%nat /\ ~ In i live;
  inv_cur : forall i p, In i live -> nth_error (cur_pages b) i = Some (Some p) -> exists c, nth_error (pages b) p = Some (Some i, c);
  inv_owner : forall p o c, nth_error (pages b) p = Some (Some o, c) -> In o live;
  inv_free : forall p, In p (reclaimed_pages b) -> exists c, nth_error (pages b) p = Some (None, c);
  inv_free_nodup : NoDup (reclaimed_pages b);
  inv_size : forall p o c, nth_error (pages b) p = Some (o, c) -> lenz c <= PAGE_SIZE;
  inv_stored : forall e, In e stored -> lies b e }.

Lemma inv_new : inv buffer_new [] [].
Proof. constructor; cbn; try easy; try constructor; intros [|p] *; easy. Qed.

Lemma inv_init : forall b live stored b' i, inv b live stored -> init_buffer b = (b', i) -> inv b' (i :: live) stored /\ ~ In i live.
Proof.
  intros b live stored b' i I H. destruct I as [I1 I2 I3 I4 I5 I6 I7 I8 I9]. unfold init_buffer in H.
  destruct (reclaimed_buffers b) as [|j rest] eqn:Er; cbn -[Nat.ltb] in H.
  - rewrite Nat.ltb_irrefl in H. inversion H; subst b' i; clear H.
    assert (Hn : ~ In (length (cur_pages b)) live) by (intros Hi; apply I1 in Hi; lia). split; [|exact Hn].
    constructor; cbn.
    + intros k [<-|Hk]; rewrite app_length; cbn; [lia|]. apply I1 in Hk. lia.
    + constructor.
    + intros k [].
    + intros k p [<-|Hk] E.
      * rewrite nth_error_app2, Nat.sub_diag in E by lia. cbn in E. discriminate.
      * rewrite nth_error_app1 in E by auto. eauto.
    + intros p o c E. right. eauto.
    + exact I6. + exact I7. + exact I8. + exact I9.
  - destruct (I3 j (or_introl eq_refl)) as [Hj Hjl]. destruct (Nat.ltb_spec j (length (cur_pages b))); [|lia]. inversion H; subst b' i; clear H. split; [|exact Hjl].
    inversion I2 as [|x y Hnj Hnd]; subst. constructor; cbn.
    + intros k [<-|Hk]; rewrite length_set; [lia|auto].
    + exact Hnd.
    + intros k Hk. rewrite length_set. destruct (I3 k (or_intror Hk)). split; [assumption|]. intros [->|Hl]; [exact (Hnj Hk)|auto].
    + intros k p [<-|Hk] E.
      * rewrite nth_set in E by lia. discriminate.
      * rewrite nth_set_other in E by (intros ->; exact (Hjl Hk)). eauto.
    + intros p o c E. right. eauto.
    + exact I6. + exact I7. + exact I8. + exact I9.
Qed.

Lemma inv_drop : forall b live stored buf, inv b live stored -> In buf live ->
  inv (drop_buffer b buf) (filter (fun i => negb (Nat.eqb i buf)) live) (filter (fun e => negb (Nat.eqb (fst (fst e)) buf)) stored).
Proof.
  intros b live stored buf I Hb. destruct I as [I1 I2 I3 I4 I5 I6 I7 I8 I9]. unfold drop_buffer. destruct (drop_pages buf 0 (pages b)) as [ps freed] eqn:E.
  destruct (drop_pages_ok _ _ _ _ _ E) as (L & N & F & ND). cbn in F.
  assert (Hl : forall i, In i (filter (fun i => negb (Nat.eqb i buf)) live) <-> In i live /\ i <> buf).
  { intros i. rewrite filter_In, negb_true_iff, Nat.eqb_neq. reflexivity. }
  constructor; cbn.
  - intros i Hi. apply I1, Hl, Hi.
  - assert (Hnb : ~ In buf (reclaimed_buffers b)) by (intros H; destruct (I3 _ H); auto).
    clear - I2 Hnb. induction (reclaimed_buffers b) as [|x l IH]; cbn; [constructor; [easy|constructor]|].
    inversion I2; subst. constructor; [|apply IH; [assumption|intros H; apply Hnb; right; exact H]].
    rewrite in_app_iff. intros [H|[H|[]]]; [auto|]. apply Hnb. left. congruence.
  - intros i Hi. apply in_app_iff in Hi. destruct Hi as [Hi|[<-|[]]].
    + destruct (I3 i Hi). split; [assumption|]. rewrite Hl. tauto.
    + split; [auto|]. rewrite Hl. tauto.
  - intros i p Hi Ei. apply Hl in Hi. destruct (I4 i p (proj1 Hi) Ei) as [c Ec]. exists c. rewrite N, Ec.
    destruct (Nat.eqb_spec i buf); [tauto|reflexivity].
  - intros p o c Ep. rewrite N in Ep. destruct (nth_error (pages b) p) as [[[o'|] c']|] eqn:Eq; try discriminate.
    destruct (Nat.eqb_spec o' buf); [discriminate|]. inversion Ep; subst. apply Hl. split; [eauto|assumption].
  - intros p Hp. apply in_app_iff in Hp. destruct Hp as [Hp|Hp].
    + destruct (I6 p Hp) as [c Ec]. exists c. rewrite N, Ec. reflexivity.
    + apply F in Hp. destruct Hp as (i & c & -> & Ei). exists []. rewrite N, Ei, Nat.eqb_refl. reflexivity.
  - assert (Hd : forall p, In p (reclaimed_pages b) -> ~ In p freed).
    { intros p Hp Hf. apply F in Hf. destruct Hf as (i & c & -> & Ei). destruct (I6 _ Hp) as [c' Ec]. congruence. }
    clear - I7 ND Hd. induction (reclaimed_pages b) as [|x l IH]; cbn; [exact ND|]. inversion I7; subst. constructor.
    + rewrite in_app_iff. intros [H|H]; [auto|]. exact (Hd x (or_introl eq_refl) H).
    + apply IH; [assumption|]. intros p Hp. apply Hd. right. exact Hp.
  - intros p o c Ep. rewrite N in Ep. destruct (nth_error (pages b) p) as [[[o'|] c']|] eqn:Eq; try discriminate.
    + destruct (Nat.eqb o' buf); inversion Ep; subst; [|eauto]. cbn. pose proof page_size_pos. lia.
    + inversion Ep; subst. eauto.
  - intros [[i r] data] He. apply filter_In in He. destruct He as [He Hn]. cbn in Hn. rewrite negb_true_iff, Nat.eqb_neq in Hn.
    destruct (I9 _ He) as (Hlen & page & content & pre & post & Ep & Ec & Ea). split; [exact Hlen|]. exists page, content, pre, post.
    split; [|auto]. cbn. rewrite N, Ep. destruct (Nat.eqb_spec i buf); [tauto|reflexivity].
Qed.

(* a page for a buffer *)
Lemma new_page_inv : forall b live stored buf, inv b live stored -> In buf live ->
  exists b' page, new_page b buf = Ok (b', page) /\ inv b' live stored /\ nth_error (pages b') page = Some (Some buf, []) /\
    nth_error (cur_pages b') buf = Some (Some page) /\ (length (pages b') <= S (length (pages b)))%nat.
Proof.
  intros b live stored buf I Hb. destruct I as [I1 I2 I3 I4 I5 I6 I7 I8 I9]. unfold new_page.
  assert (Hcur : (buf < length (cur_pages b))%nat) by auto.
  destruct (reclaimed_pages b) as [|p rest] eqn:Er.
  - cbn [bind]. rewrite update_some by exact Hcur. cbn [bind cur_pages pages reclaimed_buffers reclaimed_pages].
    eexists _, _. split; [reflexivity|]. cbn [pages cur_pages].
    assert (Hlast : nth_error (pages b ++ [(Some buf, [])]) (length (pages b)) = Some (Some buf, [])).
    { rewrite nth_error_app2, Nat.sub_diag by lia. reflexivity. }
    assert (Hold : forall q x, nth_error (pages b) q = Some x -> nth_error (pages b ++ [(Some buf, [])]) q = Some x).
    { intros q x Hx. rewrite nth_error_app1 by (apply nth_error_lt in Hx; exact Hx). exact Hx. }
    assert (Hnew : forall q x, nth_error (pages b ++ [(Some buf, [])]) q = Some x -> nth_error (pages b) q = Some x \/ x = (Some buf, [])).
    { intros q x Hx. destruct (Nat.lt_ge_cases q (length (pages b))).
      - rewrite nth_error_app1 in Hx by assumption. auto.
      - rewrite nth_error_app2 in Hx by assumption. right. destruct (q - length (pages b))%nat as [|n]; cbn in Hx; [congruence|]. destruct n; discriminate. }
    split; [|split; [exact Hlast|split; [apply nth_set; exact Hcur|rewrite app_length; cbn; lia]]].
    constructor; cbn.
    + intros i Hi. rewrite length_set. auto.
    + exact I2.
    + intros i Hi. rewrite length_set. auto.
    + intros i q Hi E. destruct (Nat.eq_dec i buf) as [->|Hn].
      * rewrite nth_set in E by exact Hcur. inversion E; subst. exists []. exact Hlast.
      * rewrite nth_set_other in E by congruence. destruct (I4 _ _ Hi E) as [c Hc]. exists c. auto.
    + intros q o c E. destruct (Hnew _ _ E) as [E'|E']; [eauto|]. inversion E'; subst. exact Hb.
    + intros q [].
    + constructor.
    + intros q o c E. destruct (Hnew _ _ E) as [E'|E']; [eauto|]. inversion E'; subst. cbn. pose proof page_size_pos. lia.
    + intros [[i r] data] He. destruct (I9 _ He) as (Hlen & page & content & pre & post & Ep & Ec & Ea). split; [exact Hlen|]. exists page, content, pre, post. cbn. auto.
  - destruct (I6 p (or_introl eq_refl)) as [c0 Ep]. pose proof (nth_error_lt _ _ _ _ Ep) as Hp.
    rewrite update_some by exact Hp. cbn [bind cur_pages pages reclaimed_buffers reclaimed_pages]. rewrite update_some by exact Hcur. cbn [bind].
    eexists _, _. split; [reflexivity|]. cbn [pages cur_pages].
    assert (Hnth : forall q, nth_error (set_nth (pages b) p (Some buf, [])) q = if Nat.eqb p q then Some (Some buf, []) else nth_error (pages b) q).
    { intros q. destruct (Nat.eqb_spec p q) as [<-|Hn]; [apply nth_set, Hp|apply nth_set_other, Hn]. }
    split; [|split; [rewrite Hnth, Nat.eqb_refl; reflexivity|split; [apply nth_set; exact Hcur|rewrite length_set; lia]]].
    inversion I7 as [|x y Hnp Hnd]; subst. constructor; cbn.
    + intros i Hi. rewrite length_set. auto.
    + exact I2.
    + intros i Hi. rewrite length_set. auto.
    + intros i q Hi E. destruct (Nat.eq_dec i buf) as [->|Hn].
      * rewrite nth_set in E by exact Hcur. inversion E; subst. exists []. rewrite Hnth, Nat.eqb_refl. reflexivity.
      * rewrite nth_set_other in E by congruence. destruct (I4 _ _ Hi E) as [c Hc]. exists c. rewrite Hnth. destruct (Nat.eqb_spec p q) as [<-|_]; [congruence|exact Hc].
    + intros q o c E. rewrite Hnth in E. destruct (Nat.eqb p q); [|eauto]. inversion E; subst. exact Hb.
    + intros q Hq. destruct (I6 q (or_intror Hq)) as [c Ec]. exists c. rewrite Hnth. destruct (Nat.eqb_spec p q) as [<-|_]; [exfalso; exact (Hnp Hq)|exact Ec].
    + exact Hnd.
    + intros q o c E. rewrite Hnth in E. destruct (Nat.eqb p q); [|eauto]. inversion E; subst. cbn. pose proof page_size_pos. lia.
    + intros [[i r] data] He. destruct (I9 _ He) as (Hlen & page & content & pre & post & Eq & Ec & Ea). split; [exact Hlen|]. exists page, content, pre, post. cbn. split; [|auto].
      rewrite Hnth. destruct (Nat.eqb_spec p page) as [<-|_]; [congruence|exact Eq].
Qed.

(* push_bytes up to the building of the reference *)
Lemma push_raw_inv : forall b live stored buf data, inv b live stored -> In buf live -> lenz data < PAGE_SIZE ->
  exists b' page pre, push_raw b buf data = Ok (b', (Z.of_nat page * PAGE_SIZE + lenz pre, lenz data)) /\ inv b' live stored /\
    nth_error (pages b') page = Some (Some buf, pre ++ data) /\ nth_error (cur_pages b') buf = Some (Some page) /\
    (lenz pre + lenz data <= PAGE_SIZE) /\ ((length (pages b') <= length (pages b))%nat \/ pre = [] /\ (length (pages b') <= S (length (pages b)))%nat).
Proof.
  intros b live stored buf data I Hb Hlen. unfold push_raw. destruct (Z.ltb_spec (lenz data) PAGE_SIZE); [|lia]. cbn [negb].
  destruct (nth_error (cur_pages b) buf) as [cur|] eqn:Ecur.
  2:{ apply nth_error_None in Ecur. pose proof (inv_range _ _ _ I buf Hb). lia. }
  rewrite (proj2 (index_some _ _ _ _) Ecur). cbn [bind].
  set (store := fun (b1 : buffer) page => bind (index (pages b1) page) (fun pg =>
    bind (update (pages b1) page (fst pg, snd pg ++ data)) (fun ps =>
    Ok (mk_buffer ps (cur_pages b1) (reclaimed_buffers b1) (reclaimed_pages b1), (Z.of_nat page * PAGE_SIZE + lenz (snd pg), lenz data))))).
  assert (Hstore : forall b1 page pre, inv b1 live stored -> nth_error (pages b1) page = Some (Some buf, pre) -> nth_error (cur_pages b1) buf = Some (Some page) ->
    lenz pre + lenz data <= PAGE_SIZE -> ((length (pages b1) <= length (pages b))%nat \/ pre = [] /\ (length (pages b1) <= S (length (pages b)))%nat) ->
    exists b' pg pr, store b1 page = Ok (b', (Z.of_nat pg * PAGE_SIZE + lenz pr, lenz data)) /\ inv b' live stored /\
      nth_error (pages b') pg = Some (Some buf, pr ++ data) /\ nth_error (cur_pages b') buf = Some (Some pg) /\ (lenz pr + lenz data <= PAGE_SIZE) /\ ((length (pages b') <= length (pages b))%nat \/ pr = [] /\ (length (pages b') <= S (length (pages b)))%nat)).
  { intros b1 page pre I1 Ep Ec Hsz Hln. unfold store. rewrite (proj2 (index_some _ _ _ _) Ep). cbn [bind fst snd]. pose proof (nth_error_lt _ _ _ _ Ep) as Hp.
    rewrite update_some by exact Hp. cbn [bind]. eexists _, page, pre. split; [reflexivity|]. cbn [pages cur_pages].
    assert (Hnth : forall q, nth_error (set_nth (pages b1) page (Some buf, pre ++ data)) q = if Nat.eqb page q then Some (Some buf, pre ++ data) else nth_error (pages b1) q).
    { intros q. destruct (Nat.eqb_spec page q) as [<-|Hn]; [apply nth_set, Hp|apply nth_set_other, Hn]. }
    split; [|split; [rewrite Hnth, Nat.eqb_refl; reflexivity|split; [exact Ec|split; [exact Hsz|rewrite length_set; exact Hln]]]].
    destruct I1 as [J1 J2 J3 J4 J5 J6 J7 J8 J9]. constructor; cbn; try assumption.
    - intros i q Hi E. destruct (J4 _ _ Hi E) as [c Hc]. rewrite Hnth. destruct (Nat.eqb_spec page q) as [<-|_]; [|eauto]. replace i with buf by congruence. eauto.
    - intros q o c E. rewrite Hnth in E. destruct (Nat.eqb page q); [|eauto]. inversion E; subst. exact Hb.
    - intros q Hq. destruct (J6 q Hq) as [c Hc]. rewrite Hnth. destruct (Nat.eqb_spec page q) as [<-|_]; [congruence|eauto].
    - intros q o c E. rewrite Hnth in E. destruct (Nat.eqb page q); [|eauto]. inversion E; subst. rewrite lenz_app. lia.
    - intros [[i r] d] He. destruct (J9 _ He) as (Hl & pg & content & pre' & post & Eq & Econ & Ea). split; [exact Hl|].
      destruct (Nat.eq_dec page pg) as [<-|Hn].
      + rewrite Ep in Eq. inversion Eq; subst. exists page, ((pre' ++ d ++ post) ++ data), pre', (post ++ data). cbn. rewrite Hnth, Nat.eqb_refl. split; [reflexivity|]. split; [rewrite !app_assoc; reflexivity|exact Ea].
      + exists pg, content, pre', post. cbn. rewrite Hnth. destruct (Nat.eqb_spec page pg); [congruence|auto]. }
  assert (Hfirst : exists b1 page c, match cur with Some page => Ok (b, page) | None => new_page b buf end = Ok (b1, page) /\ inv b1 live stored /\
      nth_error (pages b1) page = Some (Some buf, c) /\ nth_error (cur_pages b1) buf = Some (Some page) /\ ((length (pages b1) <= length (pages b))%nat \/ c = [] /\ (length (pages b1) <= S (length (pages b)))%nat)).
  { destruct cur as [page|].
    - destruct (inv_cur _ _ _ I _ _ Hb Ecur) as [c Hc]. exists b, page, c. auto 8.
    - destruct (new_page_inv b live stored buf I Hb) as (b1 & page & E & I1 & Ep & Ec & Hl). exists b1, page, []. auto 8. }
  destruct Hfirst as (b1 & page & c & -> & I1 & Ep & Ec & Hl). cbn [bind]. rewrite (proj2 (index_some _ _ _ _) Ep). cbn [bind snd].
  destruct (Z.gtb_spec (lenz c + lenz data) PAGE_SIZE) as [Hgt|Hle].
  - destruct Hl as [Hl|[-> _]]; [|cbn in Hgt; lia].
    destruct (new_page_inv b1 live stored buf I1 Hb) as (b2 & page2 & -> & I2 & Ep2 & Ec2 & Hl2). cbn [bind].
    apply (Hstore b2 page2 [] I2 Ep2 Ec2); [cbn; lia|right; split; [reflexivity|lia]].
  - cbn [bind]. apply (Hstore b1 page c I1 Ep Ec); [lia|exact Hl].
Qed.

Lemma inv_push : forall b live stored buf data b' r, inv b live stored -> In buf live -> push_bytes b buf data = Ok (b', r) -> inv b' live ((buf, r, data) :: stored).
Proof.
  intros b live stored buf data b' r I Hb H. unfold push_bytes in H. apply bind_ok in H. destruct H as ([b1 [address len]] & E & H).
  apply bind_ok in H. destruct H as (r' & Er & H). inversion H; subst b1 r'; clear H.
  assert (Hlen : lenz data < PAGE_SIZE). { unfold push_raw in E. destruct (Z.ltb_spec (lenz data) PAGE_SIZE); [assumption|discriminate]. }
  destruct (push_raw_inv b live stored buf data I Hb Hlen) as (b2 & page & pre & E2 & I2 & Ep & _ & Hsz & _). rewrite E2 in E. inversion E; subst b2 address len; clear E.
  pose proof (lenz_nonneg _ pre). pose proof (lenz_nonneg _ data). pose proof page_size_pos.
  assert (Hnn : 0 <= Z.of_nat page * PAGE_SIZE + lenz pre) by nia. destruct (packing _ _ _ Hnn (lenz_nonneg _ data) Er) as [Ea El].
  destruct I2 as [J1 J2 J3 J4 J5 J6 J7 J8 J9]. constructor; try assumption. intros e [<-|He]; [|auto].
  split; [exact El|]. exists page, (pre ++ data), pre, []. rewrite app_nil_r. auto.
Qed.

Lemma history_inv : forall b live stored, history b live stored -> inv b live stored.
Proof.
  intros b live stored H. induction H as [|b live stored b' i H IH E|b live stored buf data b' r H IH Hb E|b live stored buf H IH Hb].
  - apply inv_new.
  - apply (inv_init _ _ _ _ _ IH E).
  - apply (inv_push _ _ _ _ _ _ _ IH Hb E).
  - apply (inv_drop _ _ _ _ IH Hb).
Qed.

(* reading *)
Lemma lies_get : forall b live stored buf r data, inv b live stored -> lies b (buf, r, data) -> data <> [] -> get_bytes b r = Ok data.
Proof.
  intros b live stored buf r data I (Hl & page & content & pre & post & Ep & Ec & Ea) Hd. unfold get_bytes, get_raw. rewrite Hl, Ea.
  pose proof (inv_size _ _ _ I _ _ _ Ep) as Hs. rewrite Ec, !lenz_app in Hs. pose proof (lenz_nonneg _ pre). pose proof (lenz_nonneg _ post).
  assert (0 < lenz data) by (destruct data; [congruence|unfold lenz; cbn [length]; lia]).
  assert (E1 : Z.shiftr (Z.of_nat page * PAGE_SIZE + lenz pre) PAGE_ADDR_BITS = Z.of_nat page).
  { rewrite Z.shiftr_div_pow2 by (unfold PAGE_ADDR_BITS; lia). replace (2 ^ PAGE_ADDR_BITS) with PAGE_SIZE by reflexivity. symmetry. apply Z.div_unique with (lenz pre); lia. }
  assert (E2 : (Z.of_nat page * PAGE_SIZE + lenz pre) mod PAGE_SIZE = lenz pre) by (symmetry; apply Z.mod_unique with (Z.of_nat page); lia).
  rewrite E1, E2, Nat2Z.id. rewrite (proj2 (index_some _ _ _ _) Ep). cbn [bind snd].
  destruct (Z.leb_spec (lenz pre + lenz data) (lenz content)) as [_|Hgt]; [|rewrite Ec, !lenz_app in Hgt; lia].
  f_equal. rewrite Ec. unfold lenz. rewrite !Nat2Z.id. rewrite skipn_app, skipn_all, Nat.sub_diag. cbn [skipn app]. rewrite firstn_app, firstn_all, Nat.sub_diag. cbn [firstn]. apply app_nil_r.
Qed.
(* the empty array is found as long as its address is in an existing page *)
Lemma lies_get_empty : forall b live stored buf r, inv b live stored -> lies b (buf, r, []) -> get_bytes b r = Ok [] \/ get_bytes b r = Panicked.
Proof.
  intros b live stored buf r I (Hl & page & content & pre & post & Ep & Ec & Ea). unfold get_bytes, get_raw. rewrite Hl. cbn [lenz length].
  clear. unfold index. destruct (nth_error (pages b) _) as [pg|]; [|right; reflexivity]. cbn [bind]. destruct (_ <=? _); [left|right]; reflexivity.
Qed.

Lemma push_succeeds : forall b live stored buf data, inv b live stored -> In buf live -> lenz data <= MAX_LENGTH -> (length (pages b) < Z.to_nat (2 ^ 15))%nat ->
  exists b' r, push_bytes b buf data = Ok (b', r).
Proof.
  intros b live stored buf data I Hb Hlen Hp. rewrite max_length in Hlen.
  destruct (push_raw_inv b live stored buf data I Hb ltac:(rewrite page_size; lia)) as (b' & page & pre & E & I' & Ep & _ & Hsz & Hl).
  unfold push_bytes. rewrite E. cbn [bind]. unfold ref_new. rewrite max_length, max_address. pose proof (nth_error_lt _ _ _ _ Ep) as Hlt.
  destruct (Z.leb_spec (lenz data) (2 ^ 24 - 1)) as [_|H]; [|lia]. cbn [negb].
  rewrite page_size in *. pose proof (lenz_nonneg _ data). pose proof (lenz_nonneg _ pre).
  destruct (Z.leb_spec (Z.of_nat page * 2 ^ 25 + lenz pre) (2 ^ 40 - 1)) as [_|Hx]; [cbn; eauto|]. exfalso.
  destruct Hl as [Hl|[-> Hl]]; [|cbn in Hx]; lia.
Qed.

(* a single buffer with a single page *)
Definition single (c : bytes) : buffer := mk_buffer [(Some O, c)] [Some O] [] [].
Lemma push_single : forall c data, lenz c + lenz data <= PAGE_SIZE -> lenz data <= MAX_LENGTH -> exists r, push_bytes (single c) 0 data = Ok (single (c ++ data), r) /\ ref_address r = lenz c /\ ref_len r = lenz data.
Proof.
  intros c data H1 H2. pose proof (lenz_nonneg _ c). pose proof (lenz_nonneg _ data). pose proof max_length as E1. pose proof page_size as E2. pose proof max_address as E3.
  unfold push_bytes, push_raw, single. cbn [cur_pages pages index nth_error bind snd fst reclaimed_buffers reclaimed_pages].
  destruct (Z.ltb_spec (lenz data) PAGE_SIZE); [|lia]. cbn [negb index nth_error bind snd fst pages]. destruct (Z.gtb_spec (lenz c + lenz data) PAGE_SIZE); [lia|]. cbn [bind index nth_error pages fst snd update set_nth].
  change (Z.of_nat 0 * PAGE_SIZE + lenz c) with (lenz c).
  destruct (ref_new (lenz c) (lenz data)) as [r| |] eqn:Er.
  - cbn [bind]. exists r. split; [reflexivity|]. apply packing; assumption.
  - unfold ref_new in Er. destruct (Z.leb_spec (lenz data) MAX_LENGTH); [|lia]. cbn [negb] in Er. destruct (Z.leb_spec (lenz c) MAX_ADDRESS); [discriminate|]. lia.
  - unfold ref_new in Er. destruct (negb _); [discriminate|]. destruct (negb _); discriminate.
Qed.
Lemma full_page_empty : exists b stored r, history b [0%nat] stored /\ In (0%nat, r, []) stored /\ get_bytes b r = Panicked.
Proof.
  set (big := repeat (0 : byte) (Z.to_nat MAX_LENGTH)). assert (Lb : @lenz byte big = MAX_LENGTH) by (unfold lenz, big; rewrite repeat_length, Z2Nat.id; [reflexivity|rewrite max_length; lia]).
  pose proof max_length as E1. pose proof page_size as E2.
  assert (H0 : history (mk_buffer [] [None] [] []) [0%nat] []) by exact (history_init _ _ _ _ _ history_new eq_refl).
  assert (H1 : exists st, history (single [0]) [0%nat] st).
  { eexists. refine (history_push _ _ _ 0%nat [0] _ 1%Z H0 (or_introl eq_refl) _). vm_compute. reflexivity. }
  destruct H1 as [st1 H1].
  assert (L1 : @lenz byte [0] = 1) by reflexivity. destruct (push_single [0] big) as (r2 & P2 & _); [lia|lia|].
  pose proof (history_push _ _ _ _ _ _ _ H1 (or_introl eq_refl) P2) as H2.
  assert (L2 : @lenz byte ([0] ++ big) = 2 ^ 24) by (rewrite lenz_app, Lb; lia).
  destruct (push_single ([0] ++ big) big) as (r3 & P3 & _); [lia|lia|].
  pose proof (history_push _ _ _ _ _ _ _ H2 (or_introl eq_refl) P3) as H3.
  assert (L3 : @lenz byte (([0] ++ big) ++ big) = 2 ^ 25 - 1) by (rewrite lenz_app; lia).
  destruct (push_single (([0] ++ big) ++ big) [0]) as (r4 & P4 & _); [lia|lia|].
  pose proof (history_push _ _ _ _ _ _ _ H3 (or_introl eq_refl) P4) as H4.
  assert (L4 : @lenz byte ((([0] ++ big) ++ big) ++ [0]) = PAGE_SIZE) by (rewrite lenz_app, L3; lia).
  destruct (push_single ((([0] ++ big) ++ big) ++ [0]) []) as (r5 & P5 & Ea & El); [rewrite L4; unfold lenz; cbn [length]; lia|unfold lenz; cbn [length]; lia|].
  pose proof (history_push _ _ _ _ _ _ _ H4 (or_introl eq_refl) P5) as H5.
  eexists _, _, r5. split; [exact H5|]. split; [left; reflexivity|].
  unfold get_bytes, get_raw. rewrite Ea, L4. replace (Z.to_nat (Z.shiftr PAGE_SIZE PAGE_ADDR_BITS)) with 1%nat by (rewrite E2; reflexivity). reflexivity.
Qed.
