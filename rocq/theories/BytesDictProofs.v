(* Proofs about dictionaries of byte arrays. *)
From Coq Require Import List ZArith Bool Lia Arith.
From Verif Require Import ColumnModel BufferModel BufferSpec BufferProofs BytesDictModel BytesDictSpec.
Import ListNotations.
Local Open Scope Z_scope.

Lemma bytes_eqb_eq : forall x y, bytes_eqb x y = true <-> x = y.
Proof.
  induction x as [|a x IH]; intros [|c y]; cbn; try easy. rewrite andb_true_iff, Z.eqb_eq, IH. split; [intros [-> ->]; reflexivity|intros H; inversion H; auto].
Qed.
Lemma bytes_eqb_refl : forall x, bytes_eqb x x = true.
Proof. intros x. apply bytes_eqb_eq. reflexivity. Qed.

Lemma position_some : forall x l i, position x l = Some i -> nth_error l i = Some x.
Proof.
  induction l as [|y l IH]; intros i H; cbn in H; [discriminate|]. destruct (list_eq_dec Z.eq_dec y x) as [->|Hn]; [inversion H; reflexivity|].
  destruct (position x l) as [j|]; [|discriminate]. inversion H; subst. cbn. apply IH. reflexivity.
Qed.
Lemma position_none : forall x l, position x l = None <-> ~ In x l.
Proof.
  induction l as [|y l IH]; cbn; [split; auto|]. destruct (list_eq_dec Z.eq_dec y x) as [->|Hn]; [split; [discriminate|intros H; exfalso; apply H; auto]|].
  destruct (position x l) as [j|]; cbn.
  - split; [discriminate|]. intros H. exfalso. apply H. right. destruct (in_dec (list_eq_dec Z.eq_dec) x l) as [Hi|Hi]; [exact Hi|]. apply IH in Hi. discriminate.
  - split; [|reflexivity]. intros _ [H|H]; [auto|]. apply IH in H; [exact H|reflexivity].
Qed.
Lemma position_nth : forall x l i, NoDup l -> nth_error l i = Some x -> position x l = Some i.
Proof.
  intros x l i ND H. destruct (position x l) as [j|] eqn:E.
  - apply position_some in E. f_equal. apply (proj1 (NoDup_nth_error l) ND); [apply nth_error_Some; congruence|congruence].
  - apply position_none in E. exfalso. apply E. exact (nth_error_In _ _ H).
Qed.

(* reading stored bytes *)
Lemma get_stored : forall b live stored buf r x y, history b live stored -> In (buf, r, x) stored -> get_bytes b r = Ok y -> y = x.
Proof.
  intros b live stored buf r x y H Hi Hg. pose proof (history_inv _ _ _ H) as I. destruct x as [|a x].
  - destruct (lies_get_empty _ _ _ _ _ I (inv_stored _ _ _ I _ Hi)); congruence.
  - rewrite (lies_get _ _ _ _ _ _ I (inv_stored _ _ _ I _ Hi)) in Hg by discriminate. congruence.
Qed.
Lemma get_stored_ok : forall b live stored buf r x, history b live stored -> In (buf, r, x) stored -> x <> [] -> get_bytes b r = Ok x.
Proof. intros b live stored buf r x H Hi Hx. pose proof (history_inv _ _ _ H) as I. exact (lies_get _ _ _ _ _ _ I (inv_stored _ _ _ I _ Hi) Hx). Qed.

(* a map whose references are stored *)
Definition backed (stored : list (nat * Z * bytes)) (buf : nat) (m : list (Z * Z)) : Prop := forall r v, In (r, v) m -> exists x, In (buf, r, x) stored.
Lemma map_get_some : forall b live stored buf m key v, history b live stored -> backed stored buf m -> map_get b m key = Ok (Some v) -> exists r, In (r, v) m /\ In (buf, r, key) stored.
Proof.
  intros b live stored buf m key v H. induction m as [|[r id] m IH]; intros Hb Hg; cbn [map_get] in Hg; [discriminate|].
  apply bind_ok in Hg. destruct Hg as (x & Ex & Hg). destruct (Hb r id (or_introl eq_refl)) as [y Hy]. pose proof (get_stored _ _ _ _ _ _ _ H Hy Ex). subst y.
  destruct (bytes_eqb x key) eqn:E.
  - apply bytes_eqb_eq in E. subst. inversion Hg; subst. exists r. split; [left; reflexivity|exact Hy].
  - destruct IH as (r' & H1 & H2); [intros r' v' Hi; apply (Hb r' v'); right; exact Hi|exact Hg|]. exists r'. split; [right; exact H1|exact H2].
Qed.
Lemma map_get_none : forall b live stored buf m key, history b live stored -> backed stored buf m -> map_get b m key = Ok None -> forall r v, In (r, v) m -> ~ In (buf, r, key) stored.
Proof.
  intros b live stored buf m key H. induction m as [|[r id] m IH]; intros Hb Hg r' v' Hi; [destruct Hi|]; cbn [map_get] in Hg.
  apply bind_ok in Hg. destruct Hg as (x & Ex & Hg). destruct (bytes_eqb x key) eqn:E; [discriminate|]. destruct Hi as [Hi|Hi].
  - inversion Hi; subst. intros Hk. pose proof (get_stored _ _ _ _ _ _ _ H Hk Ex). subst. rewrite bytes_eqb_refl in E. discriminate.
  - apply (IH (fun r v Hi => Hb r v (or_intror Hi)) Hg r' v' Hi).
Qed.
Lemma map_get_ok : forall b live stored buf m key, history b live stored -> (forall r v, In (r, v) m -> exists x, x <> [] /\ In (buf, r, x) stored) -> exists f, map_get b m key = Ok f.
Proof.
  intros b live stored buf m key H. induction m as [|[r id] m IH]; intros Hb; cbn [map_get]; [eauto|].
  destruct (Hb r id (or_introl eq_refl)) as (x & Hx & Hi). rewrite (get_stored_ok _ _ _ _ _ _ H Hi Hx). cbn [bind]. destruct (bytes_eqb x key); [eauto|]. apply IH. intros r' v' Hi'. apply (Hb r' v'). right. exact Hi'.
Qed.

(* the dictionary d represents k *)
Record represents (stored : list (nat * Z * bytes)) (d : bytes_dict) (k : known) : Prop := mk_represents {
  rep_store : Forall2 (fun r x => In (buffer_id d, r, x) stored) (store d) (arrays k);
  rep_short : forall r v, In (r, v) (map_short d) -> exists x, In (buffer_id d, r, x) stored /\
    (v = SMALL_KNOWN_ID_MARK /\ In x (marks k) \/ 0 <= v < SMALL_KNOWN_ID_MARK /\ nth_error (arrays k) (Z.to_nat v) = Some x);
  rep_long : forall r v, In (r, v) (map_long d) -> exists x, In (buffer_id d, r, x) stored /\ v > U32_MAX /\ nth_error (arrays k) (Z.to_nat (v - 1)) = Some x;
  rep_arrays : forall i x, nth_error (arrays k) i = Some x -> exists r, In (buffer_id d, r, x) stored /\
    (if Z.of_nat i <? SMALL_KNOWN_ID_MARK then In (r, Z.of_nat i) (map_short d) else In (r, Z.of_nat i + 1) (map_long d));
  rep_marks : forall x, In x (marks k) -> exists r, In (buffer_id d, r, x) stored /\ In (r, SMALL_KNOWN_ID_MARK) (map_short d);
  rep_nodup : NoDup (arrays k);
  rep_disjoint : forall x, In x (arrays k) -> ~ In x (marks k) }.

Lemma stored_functional : forall b live stored buf buf' r x y, history b live stored -> In (buf, r, x) stored -> In (buf', r, y) stored -> x = y.
Proof.
  intros b live stored buf buf' r x y H Hx Hy. pose proof (history_inv _ _ _ H) as I.
  destruct (inv_stored _ _ _ I _ Hx) as [Lx _]. destruct (inv_stored _ _ _ I _ Hy) as [Ly _].
  destruct x as [|a x]; destruct y as [|c y]; unfold lenz in *; cbn [length] in *; try lia; try reflexivity.
  pose proof (get_stored_ok _ _ _ _ _ _ H Hx ltac:(discriminate)) as E1. pose proof (get_stored_ok _ _ _ _ _ _ H Hy ltac:(discriminate)) as E2. congruence.
Qed.

Lemma mark_is : SMALL_KNOWN_ID_MARK = 2 ^ 32 - 1. Proof. reflexivity. Qed.
Lemma u32_is : U32_MAX = 2 ^ 32 - 1. Proof. reflexivity. Qed.
Global Opaque SMALL_KNOWN_ID_MARK U32_MAX.

Lemma backed_short : forall stored d k, represents stored d k -> backed stored (buffer_id d) (map_short d).
Proof. intros stored d k R r v Hi. destruct (rep_short _ _ _ R r v Hi) as (x & Hx & _). eauto. Qed.
Lemma backed_long : forall stored d k, represents stored d k -> backed stored (buffer_id d) (map_long d).
Proof. intros stored d k R r v Hi. destruct (rep_long _ _ _ R r v Hi) as (x & Hx & _). eauto. Qed.

(* the three outcomes of a search in both maps *)
Lemma search_short : forall b live stored d k key v, history b live stored -> represents stored d k -> map_get b (map_short d) key = Ok (Some v) ->
  lookup k key = Some (if v =? SMALL_KNOWN_ID_MARK then KNOWN_ID_MARK else id32_to_id v).
Proof.
  intros b live stored d k key v H R Hg. destruct (map_get_some _ _ _ _ _ _ _ H (backed_short _ _ _ R) Hg) as (r & Hr & Hs).
  destruct (rep_short _ _ _ R r v Hr) as (x & Hx & Hv). assert (x = key) by (exact (stored_functional _ _ _ _ _ _ _ _ H Hx Hs)). subst x. unfold lookup.
  destruct Hv as [[-> Hm]|[Hv Hn]].
  - rewrite Z.eqb_refl. destruct (in_dec (list_eq_dec Z.eq_dec) key (marks k)); [reflexivity|contradiction].
  - destruct (Z.eqb_spec v SMALL_KNOWN_ID_MARK); [lia|]. destruct (in_dec (list_eq_dec Z.eq_dec) key (marks k)) as [Hm|_]; [exfalso; exact (rep_disjoint _ _ _ R key (nth_error_In _ _ Hn) Hm)|].
    rewrite (position_nth _ _ _ (rep_nodup _ _ _ R) Hn). cbn. rewrite Z2Nat.id by lia. unfold id32_to_id. destruct (Z.ltb_spec v SMALL_KNOWN_ID_MARK); [reflexivity|lia].
Qed.
Lemma search_long : forall b live stored d k key v, history b live stored -> represents stored d k -> map_get b (map_long d) key = Ok (Some v) ->
  id64_to_id v = Ok (v - 1) /\ lookup k key = Some (v - 1).
Proof.
  intros b live stored d k key v H R Hg. destruct (map_get_some _ _ _ _ _ _ _ H (backed_long _ _ _ R) Hg) as (r & Hr & Hs).
  destruct (rep_long _ _ _ R r v Hr) as (x & Hx & Hv & Hn). assert (x = key) by (exact (stored_functional _ _ _ _ _ _ _ _ H Hx Hs)). subst x. unfold lookup.
  pose proof u32_is as Hu. split.
  - unfold id64_to_id. destruct (Z.gtb_spec v U32_MAX); [reflexivity|lia].
  - destruct (in_dec (list_eq_dec Z.eq_dec) key (marks k)) as [Hm|_]; [exfalso; exact (rep_disjoint _ _ _ R key (nth_error_In _ _ Hn) Hm)|].
    rewrite (position_nth _ _ _ (rep_nodup _ _ _ R) Hn). cbn. rewrite Z2Nat.id by lia. reflexivity.
Qed.
Lemma search_none : forall b live stored d k key, history b live stored -> represents stored d k -> map_get b (map_short d) key = Ok None -> (map_long d = [] \/ map_get b (map_long d) key = Ok None) ->
  lookup k key = None.
Proof.
  intros b live stored d k key H R Hs Hl.
  assert (Hl' : map_get b (map_long d) key = Ok None) by (destruct Hl as [->|Hl]; [reflexivity|exact Hl]). clear Hl.
  pose proof (map_get_none _ _ _ _ _ _ H (backed_short _ _ _ R) Hs) as Ns. pose proof (map_get_none _ _ _ _ _ _ H (backed_long _ _ _ R) Hl') as Nl.
  unfold lookup. destruct (in_dec (list_eq_dec Z.eq_dec) key (marks k)) as [Hm|_].
  - destruct (rep_marks _ _ _ R key Hm) as (r & Hr & Hi). exfalso. exact (Ns _ _ Hi Hr).
  - destruct (position key (arrays k)) as [i|] eqn:E; [|reflexivity]. apply position_some in E. destruct (rep_arrays _ _ _ R i key E) as (r & Hr & Hi). exfalso.
    destruct (Z.of_nat i <? SMALL_KNOWN_ID_MARK); [exact (Ns _ _ Hi Hr)|exact (Nl _ _ Hi Hr)].
Qed.

(* storing something else *)
Lemma represents_more : forall stored d k e, represents stored d k -> represents (e :: stored) d k.
Proof.
  intros stored d k e [R1 R2 R3 R4 R5 R6 R7]. constructor; try assumption.
  - clear - R1. induction R1; constructor; [right; assumption|assumption].
  - intros r v Hi. destruct (R2 r v Hi) as (x & Hx & H). exists x. split; [right; exact Hx|exact H].
  - intros r v Hi. destruct (R3 r v Hi) as (x & Hx & H). exists x. split; [right; exact Hx|exact H].
  - intros i x Hi. destruct (R4 i x Hi) as (r & Hr & H). exists r. split; [right; exact Hr|exact H].
  - intros x Hi. destruct (R5 x Hi) as (r & Hr & H). exists r. split; [right; exact Hr|exact H].
Qed.
Lemma represents_drop : forall stored d k buf, buf <> buffer_id d -> represents stored d k -> represents (filter (fun e => negb (Nat.eqb (fst (fst e)) buf)) stored) d k.
Proof.
  intros stored d k buf Hb [R1 R2 R3 R4 R5 R6 R7].
  assert (Hf : forall r x, In (buffer_id d, r, x) stored -> In (buffer_id d, r, x) (filter (fun e : nat * Z * bytes => negb (Nat.eqb (fst (fst e)) buf)) stored)).
  { intros r x Hi. apply filter_In. split; [exact Hi|]. cbn. rewrite negb_true_iff. apply Nat.eqb_neq. congruence. }
  constructor; try assumption.
  - clear - R1 Hf. induction R1; constructor; auto.
  - intros r v Hi. destruct (R2 r v Hi) as (x & Hx & H). exists x. auto.
  - intros r v Hi. destruct (R3 r v Hi) as (x & Hx & H). exists x. auto.
  - intros i x Hi. destruct (R4 i x Hi) as (r & Hr & H). exists r. auto.
  - intros x Hi. destruct (R5 x Hi) as (r & Hr & H). exists r. auto.
Qed.

Lemma lookup_none : forall k x, lookup k x = None -> ~ In x (arrays k) /\ ~ In x (marks k).
Proof.
  intros k x H. unfold lookup in H. destruct (in_dec (list_eq_dec Z.eq_dec) x (marks k)) as [|Hm]; [discriminate|]. split; [|exact Hm]. apply position_none. destruct (position x (arrays k)); [discriminate|reflexivity].
Qed.
Lemma NoDup_snoc : forall A (l : list A) x, NoDup l -> ~ In x l -> NoDup (l ++ [x]).
Proof.
  induction l as [|y l IH]; intros x ND Hx; cbn; [constructor; [easy|constructor]|]. inversion ND; subst. constructor.
  - rewrite in_app_iff. intros [H|[H|[]]]; [auto|]. apply Hx. left. congruence.
  - apply IH; [assumption|]. intros H. apply Hx. right. exact H.
Qed.
Lemma nth_app_old : forall A (l l' : list A) i x, nth_error l i = Some x -> nth_error (l ++ l') i = Some x.
Proof. intros A l l' i x H. rewrite nth_error_app1; [exact H|exact (nth_error_lt _ _ _ _ H)]. Qed.
Lemma nth_snoc : forall A (l : list A) y i x, nth_error (l ++ [y]) i = Some x -> nth_error l i = Some x \/ (i = length l /\ x = y).
Proof.
  intros A l y i x H. destruct (Nat.lt_ge_cases i (length l)) as [Hl|Hl].
  - rewrite nth_error_app1 in H by exact Hl. auto.
  - rewrite nth_error_app2 in H by exact Hl. destruct (i - length l)%nat as [|n] eqn:E; cbn in H; [|destruct n; discriminate]. right. split; [lia|congruence].
Qed.

Lemma Forall2_len : forall A B (P : A -> B -> Prop) l l', Forall2 P l l' -> length l = length l'.
Proof. intros A B P l l' H. induction H; cbn; congruence. Qed.

Lemma add_inner_ok : forall b live stored d k x ins b' d' r, history b live stored -> In (buffer_id d) live -> represents stored d k ->
  add_bytes_inner b d x ins = Ok (b', d', r) -> exists stored' k', history b' live stored' /\ represents stored' d' k' /\ buffer_id d' = buffer_id d /\ (if ins then spec_add k x else spec_mark k x) = (k', r).
Proof.
  intros b live stored d k x ins b' d' r H Hl R E. unfold add_bytes_inner in E. apply bind_ok in E. destruct E as (found & Es & E).
  assert (Hknown : forall id, lookup k x = Some id -> Ok (b, d, Known id) = Ok (b', d', r) ->
    exists stored' k', history b' live stored' /\ represents stored' d' k' /\ buffer_id d' = buffer_id d /\ (if ins then spec_add k x else spec_mark k x) = (k', r)).
  { intros id Hid E'. inversion E'; subst b' d' r. exists stored, k. split; [exact H|]. split; [exact R|]. split; [reflexivity|]. unfold spec_add, spec_mark. rewrite Hid. destruct ins; reflexivity. }
  destruct found as [v|].
  - pose proof (search_short _ _ _ _ _ _ _ H R Es) as Hk. destruct (v =? SMALL_KNOWN_ID_MARK); exact (Hknown _ Hk E).
  - apply bind_ok in E. destruct E as (found & El & E). destruct found as [v|].
    + destruct (search_long _ _ _ _ _ _ _ H R El) as [E64 Hk]. rewrite E64 in E. cbn [bind] in E. exact (Hknown _ Hk E).
    + pose proof (search_none _ _ _ _ _ _ H R Es (or_intror El)) as Hk. destruct (lookup_none _ _ Hk) as [Ha Hm].
      unfold insert_bytes_inner in E. apply bind_ok in E. destruct E as ([b1 sref] & Ep & E).
      pose proof (history_push _ _ _ _ _ _ _ H Hl Ep) as H1. pose proof (represents_more _ _ _ (buffer_id d, sref, x) R) as R1.
      assert (Hhere : In (buffer_id d, sref, x) ((buffer_id d, sref, x) :: stored)) by (left; reflexivity).
      assert (Hlen : lenz (store d) = Z.of_nat (length (arrays k))) by (unfold lenz; rewrite (Forall2_len _ _ _ _ _ (rep_store _ _ _ R)); reflexivity).
      destruct R1 as [Q1 Q2 Q3 Q4 Q5 Q6 Q7]. destruct ins.
      * assert (Espec : spec_add k x = (mk_known (arrays k ++ [x]) (marks k), Fresh (lenz (store d)))) by (unfold spec_add; rewrite Hk, Hlen; reflexivity).
        assert (Hd : NoDup (arrays k ++ [x])) by (apply NoDup_snoc; assumption).
        assert (Hdis : forall y, In y (arrays k ++ [x]) -> ~ In y (marks k)) by (intros y Hy; apply in_app_iff in Hy; destruct Hy as [Hy|[<-|[]]]; auto).
        pose proof mark_is as M1. pose proof u32_is as M2. unfold id_to_innerid in E. rewrite Hlen in E.
        destruct (Z.ltb_spec (Z.of_nat (length (arrays k))) SMALL_KNOWN_ID_MARK) as [Hsm|Hsm].
        -- destruct (Z.leb_spec (Z.of_nat (length (arrays k))) U32_MAX); [|lia]. inversion E; subst b' d' r. rewrite <- Hlen.
           exists ((buffer_id d, sref, x) :: stored), (mk_known (arrays k ++ [x]) (marks k)). split; [exact H1|]. split; [|split; [reflexivity|exact Espec]].
           constructor; cbn [store map_short map_long buffer_id arrays marks]; try assumption.
           ++ apply Forall2_app; [exact Q1|]. constructor; [exact Hhere|constructor].
           ++ intros r v [Hi|Hi].
              ** inversion Hi; subst. exists x. split; [exact Hhere|]. right. split; [lia|]. rewrite Hlen, Nat2Z.id, nth_error_app2, Nat.sub_diag by lia. reflexivity.
              ** destruct (Q2 r v Hi) as (y & Hy & Hv). exists y. split; [exact Hy|]. destruct Hv as [Hv|[Hv Hn]]; [left; exact Hv|right]. split; [exact Hv|]. apply nth_app_old, Hn.
           ++ intros r v Hi. destruct (Q3 r v Hi) as (y & Hy & Hv & Hn). exists y. split; [exact Hy|]. split; [exact Hv|]. apply nth_app_old, Hn.
           ++ intros i y Hi. apply nth_snoc in Hi. destruct Hi as [Hi|[-> ->]].
              ** destruct (Q4 i y Hi) as (r & Hr & Hin). exists r. split; [exact Hr|]. destruct (_ <? _); [right|]; exact Hin.
              ** exists sref. split; [exact Hhere|]. destruct (Z.ltb_spec (Z.of_nat (length (arrays k))) SMALL_KNOWN_ID_MARK); [|lia]. left. rewrite Hlen. reflexivity.
           ++ intros y Hy. destruct (Q5 y Hy) as (r & Hr & Hin). exists r. split; [exact Hr|right; exact Hin].
        -- destruct (Z.leb_spec (Z.of_nat (length (arrays k)) + 1) U32_MAX); [lia|]. inversion E; subst b' d' r. rewrite <- Hlen.
           exists ((buffer_id d, sref, x) :: stored), (mk_known (arrays k ++ [x]) (marks k)). split; [exact H1|]. split; [|split; [reflexivity|exact Espec]].
           constructor; cbn [store map_short map_long buffer_id arrays marks]; try assumption.
           ++ apply Forall2_app; [exact Q1|]. constructor; [exact Hhere|constructor].
           ++ intros r v Hi. destruct (Q2 r v Hi) as (y & Hy & Hv). exists y. split; [exact Hy|]. destruct Hv as [Hv|[Hv Hn]]; [left; exact Hv|right]. split; [exact Hv|]. apply nth_app_old, Hn.
           ++ intros r v [Hi|Hi].
              ** inversion Hi; subst. exists x. split; [exact Hhere|]. split; [lia|]. rewrite Hlen, Z.add_simpl_r, Nat2Z.id, nth_error_app2, Nat.sub_diag by lia. reflexivity.
              ** destruct (Q3 r v Hi) as (y & Hy & Hv & Hn). exists y. split; [exact Hy|]. split; [exact Hv|]. apply nth_app_old, Hn.
           ++ intros i y Hi. apply nth_snoc in Hi. destruct Hi as [Hi|[-> ->]].
              ** destruct (Q4 i y Hi) as (r & Hr & Hin). exists r. split; [exact Hr|]. destruct (_ <? _); [|right]; exact Hin.
              ** exists sref. split; [exact Hhere|]. destruct (Z.ltb_spec (Z.of_nat (length (arrays k))) SMALL_KNOWN_ID_MARK); [lia|]. left. rewrite Hlen. reflexivity.
      * inversion E; subst b' d' r. exists ((buffer_id d, sref, x) :: stored), (mk_known (arrays k) (x :: marks k)). split; [exact H1|]. split; [|split; [reflexivity|unfold spec_mark; rewrite Hk; reflexivity]].
        constructor; cbn [store map_short map_long buffer_id arrays marks]; try assumption.
        -- intros r v [Hi|Hi].
           ++ inversion Hi; subst. exists x. split; [exact Hhere|]. left. split; [reflexivity|left; reflexivity].
           ++ destruct (Q2 r v Hi) as (y & Hy & Hv). exists y. split; [exact Hy|]. destruct Hv as [[Hv Hn]|Hv]; [left; split; [exact Hv|right; exact Hn]|right; exact Hv].
        -- intros i y Hi. destruct (Q4 i y Hi) as (r & Hr & Hin). exists r. split; [exact Hr|]. destruct (_ <? _); [right|]; exact Hin.
        -- intros y [<-|Hy]; [exists sref; split; [exact Hhere|left; reflexivity]|]. destruct (Q5 y Hy) as (r & Hr & Hin). exists r. split; [exact Hr|right; exact Hin].
        -- intros y Hy [<-|Hm']; [auto|exact (Q7 y Hy Hm')].
Qed.

Lemma shared_represents : forall b live d ev, shared b live d ev -> exists stored k, history b live stored /\ In (buffer_id d) live /\ represents stored d k /\ follows ev k.
Proof.
  intros b live d ev H. induction H as [b live stored b' d Hh E|b live d ev b' i H IH E|b live d ev buf data b' r H IH Hb Hn E|b live d ev buf H IH Hb Hn|b live d ev x b' d' r H IH E|b live d ev x b' d' r H IH E].
  - unfold dict_new in E. destruct (init_buffer b) as [b1 i] eqn:Ei. inversion E; subst b' d. cbn [buffer_id]. exists stored, nothing.
    split; [exact (history_init _ _ _ _ _ Hh Ei)|]. split; [left; reflexivity|]. split; [|constructor].
    constructor; cbn; try easy; try constructor; try (intros [|n]; easy).
  - destruct IH as (stored & k & Hh & Hl & R & F). exists stored, k. split; [exact (history_init _ _ _ _ _ Hh E)|]. split; [right; exact Hl|]. auto.
  - destruct IH as (stored & k & Hh & Hl & R & F). exists ((buf, r, data) :: stored), k. split; [exact (history_push _ _ _ _ _ _ _ Hh Hb E)|]. split; [exact Hl|]. split; [apply represents_more, R|exact F].
  - destruct IH as (stored & k & Hh & Hl & R & F). eexists _, k. split; [exact (history_drop _ _ _ _ Hh Hb)|]. split; [apply filter_In; split; [exact Hl|]; rewrite negb_true_iff; apply Nat.eqb_neq; congruence|]. split; [apply represents_drop; assumption|exact F].
  - destruct IH as (stored & k & Hh & Hl & R & F). destruct (add_inner_ok _ _ _ _ _ _ _ _ _ _ Hh Hl R E) as (stored' & k' & Hh' & R' & Eb & Es).
    exists stored', k'. rewrite Eb. split; [exact Hh'|]. split; [exact Hl|]. split; [exact R'|]. exact (follows_add _ _ _ _ _ F Es).
  - destruct IH as (stored & k & Hh & Hl & R & F). unfold mark_bytes in E. set (d1 := mk_bytes_dict (store d) (map_short d) (map_long d) (buffer_id d) true) in *.
    assert (R1 : represents stored d1 k) by (destruct R as [Q1 Q2 Q3 Q4 Q5 Q6 Q7]; constructor; assumption).
    destruct (add_inner_ok _ _ _ d1 _ _ _ _ _ _ Hh Hl R1 E) as (stored' & k' & Hh' & R' & Eb & Es).
    exists stored', k'. rewrite Eb. split; [exact Hh'|]. split; [exact Hl|]. split; [exact R'|]. exact (follows_mark _ _ _ _ _ F Es).
Qed.

(* the look-ups *)
Lemma bytes_to_id_ok : forall b live stored d k x f, history b live stored -> represents stored d k -> bytes_to_id b d x = Ok f -> f = lookup k x.
Proof.
  intros b live stored d k x f H R E. unfold bytes_to_id in E. apply bind_ok in E. destruct E as (found & Es & E). destruct found as [v|].
  - rewrite (search_short _ _ _ _ _ _ _ H R Es). destruct (v =? SMALL_KNOWN_ID_MARK); congruence.
  - destruct (map_long d) as [|e m] eqn:Em.
    + rewrite (search_none _ _ _ _ _ _ H R Es (or_introl Em)). congruence.
    + rewrite <- Em in E. apply bind_ok in E. destruct E as (found & El & E). destruct found as [v|].
      * destruct (search_long _ _ _ _ _ _ _ H R El) as [E64 ->]. rewrite E64 in E. cbn in E. congruence.
      * rewrite (search_none _ _ _ _ _ _ H R Es (or_intror El)). congruence.
Qed.
Lemma Forall2_nth : forall A B (P : A -> B -> Prop) l l' i, Forall2 P l l' -> match nth_error l i, nth_error l' i with Some a, Some c => P a c | None, None => True | _, _ => False end.
Proof. intros A B P l l' i H. revert i. induction H; intros [|i]; cbn; auto. apply IHForall2. Qed.
Lemma id_to_bytes_ok : forall b live stored d k id f, history b live stored -> represents stored d k -> id_to_bytes b d id = Ok f -> f = array_at k id.
Proof.
  intros b live stored d k id f H R E. unfold id_to_bytes in E. unfold array_at. pose proof (Forall2_nth _ _ _ _ _ (Z.to_nat id) (rep_store _ _ _ R)) as Hn.
  destruct (nth_error (store d) (Z.to_nat id)) as [r|]; destruct (nth_error (arrays k) (Z.to_nat id)) as [x|]; try contradiction; [|congruence].
  apply bind_ok in E. destruct E as (y & Ey & E). pose proof (get_stored _ _ _ _ _ _ _ H Hn Ey). congruence.
Qed.

(* without empty arrays everything succeeds *)
Lemma follows_arrays : forall ev k, follows ev k -> forall x, In x (arrays k) \/ In x (marks k) -> In x (map event_array ev).
Proof.
  intros ev k H. induction H as [|ev k x k' r H IH E|ev k x k' r H IH E]; intros y Hy; [destruct Hy as [[]|[]]| |]; rewrite map_app, in_app_iff; cbn [map event_array In].
  - unfold spec_add in E. destruct (lookup k x); inversion E; subst; clear E; [left; apply IH, Hy|]. cbn in Hy. rewrite in_app_iff in Hy. cbn in Hy. destruct Hy as [[Hy|[->|[]]]|Hy]; auto.
  - unfold spec_mark in E. destruct (lookup k x); inversion E; subst; clear E; [left; apply IH, Hy|]. cbn in Hy. destruct Hy as [Hy|[->|Hy]]; auto.
Qed.
Lemma maps_ok : forall b live stored d k key, history b live stored -> represents stored d k -> (forall x, In x (arrays k) \/ In x (marks k) -> x <> []) ->
  (exists f, map_get b (map_short d) key = Ok f) /\ (exists f, map_get b (map_long d) key = Ok f).
Proof.
  intros b live stored d k key H R Hne. split; apply (map_get_ok _ _ _ (buffer_id d) _ _ H).
  - intros r v Hi. destruct (rep_short _ _ _ R r v Hi) as (x & Hx & Hv). exists x. split; [|exact Hx]. apply Hne. destruct Hv as [[_ Hm]|[_ Hn]]; [right; exact Hm|left; exact (nth_error_In _ _ Hn)].
  - intros r v Hi. destruct (rep_long _ _ _ R r v Hi) as (x & Hx & _ & Hn). exists x. split; [|exact Hx]. apply Hne. left. exact (nth_error_In _ _ Hn).
Qed.
Lemma total : forall b live stored d k x, history b live stored -> In (buffer_id d) live -> represents stored d k -> (forall x, In x (arrays k) \/ In x (marks k) -> x <> []) ->
  (exists f, bytes_to_id b d x = Ok f) /\ (forall id, exists f, id_to_bytes b d id = Ok f) /\
  (forall ins, Z.of_nat (length x) <= 2 ^ 24 - 1 -> Z.of_nat (length (pages b)) < 2 ^ 15 -> exists b' d' r, add_bytes_inner b d x ins = Ok (b', d', r)).
Proof.
  intros b live stored d k x H Hl R Hne. destruct (maps_ok _ _ _ _ _ x H R Hne) as [[fs Es] [fl El]]. split; [|split].
  - unfold bytes_to_id. rewrite Es. cbn [bind]. destruct fs as [v|]; [destruct (v =? _); eauto|]. destruct (map_long d) as [|e m] eqn:Em; [eauto|]. rewrite El. cbn [bind]. destruct fl as [v|]; [|eauto].
    rewrite <- Em in El. destruct (search_long _ _ _ _ _ _ _ H R El) as [-> _]. cbn. eauto.
  - intros id. unfold id_to_bytes. pose proof (Forall2_nth _ _ _ _ _ (Z.to_nat id) (rep_store _ _ _ R)) as Hn. destruct (nth_error (store d) (Z.to_nat id)) as [r|]; [|eauto].
    destruct (nth_error (arrays k) (Z.to_nat id)) as [y|] eqn:Ey; [|contradiction]. rewrite (get_stored_ok _ _ _ _ _ _ H Hn); [cbn; eauto|]. apply Hne. left. exact (nth_error_In _ _ Ey).
  - intros ins Hsz Hpg. unfold add_bytes_inner. rewrite Es. cbn [bind]. destruct fs as [v|]; [destruct (v =? _); eauto|]. rewrite El. cbn [bind]. destruct fl as [v|].
    + destruct (search_long _ _ _ _ _ _ _ H R El) as [-> _]. cbn. eauto.
    + unfold insert_bytes_inner. destruct (push_succeeds b live stored (buffer_id d) x (history_inv _ _ _ H) Hl) as (b' & r & Ep); [rewrite max_length; exact Hsz|lia|].
      rewrite Ep. cbn [bind]. destruct ins; [|eauto]. destruct (_ <=? _); eauto.
Qed.
