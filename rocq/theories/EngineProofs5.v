(** Heads: projection, duplicate elimination, the restricted chase. *)
From Coq Require Import List Arith ZArith Bool Lia Permutation.
From Verif Require Import TableModel EngineModel EngineSpec EngineProofs1 EngineProofs2 EngineProofs3 EngineProofs4.
Import ListNotations.

Lemma hterm_val_ext nu nu' ts : (forall v, In v (flat_map hterm_vars ts) -> nu v = nu' v) ->
  map (hterm_val nu) ts = map (hterm_val nu') ts.
Proof.
  intros H. apply map_ext_in. intros t Ht. destruct t; simpl; auto; apply H; apply in_flat_map; eexists; split; eauto; simpl; auto.
Qed.

Lemma head_rows_spec a n rows : wfn n -> head_rows a n = Some rows ->
  incl (hatom_vars a) (nvars n) /\ NoDup rows /\
  forall row, In row rows <-> exists nu, msat nu n /\ row = map (hterm_val nu) (snd a).
Proof.
  intros Hw H. unfold head_rows in H. destruct (inclb _ _) eqn:E; [|discriminate]. injection H as <-.
  apply inclb_incl in E. split; auto. split; [apply NoDup_nodup|]. intros row. rewrite nodup_In, in_map_iff. split.
  - intros (r & <- & Hr). exists (val_of (nvars n) r). split; auto. now apply row_val.
  - intros (nu & Hm & ->). exists (map nu (nvars n)). split; auto.
    apply hterm_val_ext. intros v Hv. apply val_of_in. apply E. exact Hv.
Qed.

Lemma null_rows_in rows m : forall ctr row, In row (null_rows rows m ctr) <->
  exists j f, nth_error rows j = Some f /\ row = f ++ map null_val (seq (ctr + j * m) m).
Proof.
  induction rows as [|r rows IH]; simpl; intros ctr row.
  - split; [tauto|]. intros (j & f & H & _). destruct j; discriminate.
  - rewrite IH. split.
    + intros [<-|(j & f & H & ->)].
      * exists 0, r. simpl. rewrite Nat.add_0_r. auto.
      * exists (S j), f. simpl. rewrite Nat.add_assoc. auto.
    + intros (j & f & H & ->). destruct j as [|j]; simpl in H.
      * injection H as <-. left. simpl. now rewrite Nat.add_0_r.
      * right. exists j, f. simpl. rewrite Nat.add_assoc. auto.
Qed.

(** ** Normalised heads *)

Definition upd_v (mu : var -> Z) (k : var) (z : Z) : var -> Z := fun v => if v =? k then z else mu v.

Lemma norm_hterms_spec ts : forall used k vs os k', norm_hterms ts used k = (vs, os, k') ->
  (forall v, In v (flat_map hterm_vars ts) -> v < k) -> (forall v, In v used -> v < k) ->
  k <= k' /\ NoDup vs /\
  (forall v, In v vs -> ~ In v used) /\
  (forall v, In v vs -> In v (flat_map hterm_vars ts) \/ k <= v < k') /\
  (forall v, In v (flat_map hterm_vars ts) -> In v vs \/ In v used) /\
  (forall o v, In o os -> In v (op_vars o) -> In v vs \/ In v used) /\
  (forall nu, (forall o, In o os -> holds nu o) -> map nu vs = map (hterm_val nu) ts) /\
  (forall mu, exists nu, (forall v, v < k \/ k' <= v -> nu v = mu v) /\ forall o, In o os -> holds nu o) /\
  (forall v, k <= v < k' -> In v vs).
Proof.
  induction ts as [|t ts IH]; intros used k vs os k' H Hlt Hus; simpl in H.
  - injection H as <- <- <-. simpl. repeat match goal with |- _ /\ _ => split end; auto; try (intros; tauto); try constructor.
    + intros mu. exists mu. split; auto. intros o [].
    + intros v Hv. lia.
  - assert (Hrest : forall v, In v (flat_map hterm_vars ts) -> v < k).
    { intros v Hv. apply Hlt. simpl. apply in_app_iff. auto. }
    assert (Hdef : forall t' z e vs1 os1 k1, norm_hterms ts used (S k) = (vs1, os1, k1) ->
       t' = t -> vs = k :: vs1 -> os = OEq k e :: os1 -> k' = k1 ->
       (forall nu, hterm_val nu t = z nu) -> (forall nu, eval_expr nu e = Some (z nu)) ->
       (forall v, In v (e_vars e) -> In v used) -> (forall v, In v (hterm_vars t) -> In v used) ->
       (forall nu nu', (forall v, v < k -> nu v = nu' v) -> z nu = z nu') ->
       k <= k' /\ NoDup vs /\ (forall v, In v vs -> ~ In v used) /\
       (forall v, In v vs -> In v (flat_map hterm_vars (t :: ts)) \/ k <= v < k') /\
       (forall v, In v (flat_map hterm_vars (t :: ts)) -> In v vs \/ In v used) /\
       (forall o v, In o os -> In v (op_vars o) -> In v vs \/ In v used) /\
       (forall nu, (forall o, In o os -> holds nu o) -> map nu vs = map (hterm_val nu) (t :: ts)) /\
       (forall mu, exists nu, (forall v, v < k \/ k' <= v -> nu v = mu v) /\ forall o, In o os -> holds nu o) /\
       (forall v, k <= v < k' -> In v vs)).
    { intros t' z e vs1 os1 k1 E -> -> -> -> Hz He Hev Htv Hext.
      destruct (IH used (S k) vs1 os1 k1 E) as (H1 & H2 & H3 & H4 & H5 & H6 & H7 & H8 & H9).
      { intros v Hv. specialize (Hrest v Hv). lia. } { intros v Hv. specialize (Hus v Hv). lia. }
      repeat match goal with |- _ /\ _ => split end.
      - lia.
      - constructor; auto. intros Hc. destruct (H4 k Hc) as [Hx|Hx]; [specialize (Hrest k Hx); lia|lia].
      - intros v [<-|Hv]; auto. intros Hc. specialize (Hus k Hc). lia.
      - intros v [<-|Hv]; [right; lia|]. destruct (H4 v Hv) as [Hx|Hx]; [left; simpl; apply in_app_iff; auto|right; lia].
      - intros v Hv. simpl in Hv. apply in_app_iff in Hv. destruct Hv as [Hv|Hv]; [right; auto|].
        destruct (H5 v Hv); simpl; auto.
      - intros o v [<-|Ho] Hv.
        + simpl in Hv. destruct Hv as [<-|Hv]; [simpl; auto|right; auto].
        + destruct (H6 o v Ho Hv); simpl; auto.
      - intros nu Hh. simpl. f_equal.
        + specialize (Hh _ (or_introl eq_refl)). simpl in Hh. rewrite He in Hh. rewrite Hz. congruence.
        + apply H7. intros o Ho. apply Hh. simpl. auto.
      - intros mu. destruct (H8 (upd_v mu k (z mu))) as (nu & Hn & Hh). exists nu. split.
        + intros v Hv. rewrite Hn by lia. unfold upd_v. destruct (Nat.eqb_spec v k); [lia|auto].
        + intros o [<-|Ho]; auto. simpl. rewrite He. f_equal. rewrite (Hn k) by lia. unfold upd_v. rewrite Nat.eqb_refl.
          apply Hext. intros v Hv. rewrite Hn by lia. unfold upd_v. destruct (Nat.eqb_spec v k); [lia|auto].
      - intros v Hv. destruct (Nat.eq_dec v k) as [->|Hne]; [simpl; auto|]. right. apply H9. lia. }
    assert (Hvar : forall v, hterm_vars t = [v] -> (forall nu, hterm_val nu t = nu v) ->
       (if memv v used then
            let '(vs, os, k') := norm_hterms ts used (S k) in
            (k :: vs, OEq k (mkExpr [v] (fun l => nth_error l 0)) :: os, k')
          else let '(vs, os, k') := norm_hterms ts (v :: used) k in (v :: vs, os, k')) = (vs, os, k') ->
       k <= k' /\ NoDup vs /\ (forall v, In v vs -> ~ In v used) /\
       (forall v, In v vs -> In v (flat_map hterm_vars (t :: ts)) \/ k <= v < k') /\
       (forall v, In v (flat_map hterm_vars (t :: ts)) -> In v vs \/ In v used) /\
       (forall o v, In o os -> In v (op_vars o) -> In v vs \/ In v used) /\
       (forall nu, (forall o, In o os -> holds nu o) -> map nu vs = map (hterm_val nu) (t :: ts)) /\
       (forall mu, exists nu, (forall v, v < k \/ k' <= v -> nu v = mu v) /\ forall o, In o os -> holds nu o) /\
       (forall v, k <= v < k' -> In v vs)).
    { intros v Htv Hval Hif. destruct (memv v used) eqn:Em.
      - apply memv_in in Em. destruct (norm_hterms ts used (S k)) as [[vs1 os1] k1] eqn:E. injection Hif as <- <- <-.
        eapply (Hdef t (fun nu => nu v)); eauto.
        + intros w [<-|[]]. auto.
        + rewrite Htv. intros w [<-|[]]. auto.
      - apply memv_false in Em. destruct (norm_hterms ts (v :: used) k) as [[vs1 os1] k1] eqn:E. injection Hif as <- <- <-.
        assert (Hvk : v < k). { apply Hlt. simpl. rewrite Htv. simpl. auto. }
        destruct (IH (v :: used) k vs1 os1 k1 E) as (H1 & H2 & H3 & H4 & H5 & H6 & H7 & H8 & H9); auto.
        { intros w [<-|Hw]; auto. }
        repeat match goal with |- _ /\ _ => split end.
        + exact H1.
        + constructor; auto. intros Hc. apply (H3 v Hc). simpl. auto.
        + intros w [<-|Hw]; auto. intros Hc. apply (H3 w Hw). simpl. auto.
        + intros w [<-|Hw]; [left; simpl; rewrite Htv; simpl; auto|]. destruct (H4 w Hw); auto. left. simpl. apply in_app_iff. auto.
        + intros w Hw. simpl in Hw. rewrite Htv in Hw. simpl in Hw. destruct Hw as [<-|Hw]; [simpl; auto|].
          destruct (H5 w Hw) as [?|[<-|?]]; simpl; auto.
        + intros o w Ho Hw. destruct (H6 o w Ho Hw) as [?|[<-|?]]; simpl; auto.
        + intros nu Hh. simpl. rewrite Hval. f_equal. auto.
        + exact H8.
        + intros w Hw. right. apply H9. auto. }
    destruct t as [v|v|c]; [apply (Hvar v); auto|apply (Hvar v); auto|].
    destruct (norm_hterms ts used (S k)) as [[vs1 os1] k1] eqn:E. injection H as <- <- <-.
    eapply (Hdef (HConst c) (fun _ => c)); eauto; intros v [].
Qed.

Lemma norm_head_spec hs : forall k atoms os k', norm_head hs k = (atoms, os, k') ->
  (forall v, In v (flat_map hatom_vars hs) -> v < k) ->
  k <= k' /\ (forall a, In a atoms -> NoDup (snd a)) /\
  (forall v, In v (atom_vars atoms) <-> In v (flat_map hatom_vars hs) \/ k <= v < k') /\
  (forall o, In o os -> incl (op_vars o) (atom_vars atoms)) /\
  (forall nu, (forall o, In o os -> holds nu o) ->
     Forall2 (fun (a : atom) (h : hatom) => fst a = fst h /\ map nu (snd a) = map (hterm_val nu) (snd h)) atoms hs) /\
  (forall mu, exists nu, (forall v, v < k \/ k' <= v -> nu v = mu v) /\ forall o, In o os -> holds nu o).
Proof.
  induction hs as [|[p ts] hs IH]; simpl; intros k atoms os k' H Hlt.
  - injection H as <- <- <-. repeat match goal with |- _ /\ _ => split end; auto; try (intros ? []).
    + intros v. simpl. split; [tauto|]. intros [[]|]. lia.
    + intros mu. exists mu. split; auto. intros o [].
  - destruct (norm_hterms ts [] k) as [[vs os1] k1] eqn:E1. destruct (norm_head hs k1) as [[l os2] k2] eqn:E2.
    injection H as <- <- <-.
    destruct (norm_hterms_spec ts [] k vs os1 k1 E1) as (H1 & H2 & H3 & H4 & H5 & H6 & H7 & H8 & H9).
    { intros v Hv. apply Hlt. apply in_app_iff. auto. } { intros v []. }
    destruct (IH k1 l os2 k2 E2) as (G1 & G2 & G3 & G4 & G5 & G6).
    { intros v Hv. assert (v < k) by (apply Hlt; apply in_app_iff; auto). lia. }
    repeat match goal with |- _ /\ _ => split end.
    + lia.
    + intros a [<-|Ha]; auto.
    + intros v. simpl. rewrite !in_app_iff, G3. unfold hatom_vars at 1. simpl. split.
      * intros [Hv|[Hv|Hv]]; [destruct (H4 v Hv); [auto|right; lia]|auto|right; lia].
      * intros [[Hv|Hv]|Hv]; auto.
        -- destruct (H5 v Hv) as [?|[]]. auto.
        -- destruct (lt_dec v k1); [left; apply H9; lia|right; right; lia].
    + intros o Ho v Hv. simpl. apply in_app_iff. apply in_app_iff in Ho. destruct Ho as [Ho|Ho].
      * destruct (H6 o v Ho Hv) as [?|[]]. auto.
      * right. now apply (G4 o Ho).
    + intros nu Hh. constructor; simpl.
      * split; auto. apply H7. intros o Ho. apply Hh. apply in_app_iff. auto.
      * apply G5. intros o Ho. apply Hh. apply in_app_iff. auto.
    + intros mu. destruct (H8 mu) as (nu1 & Ha & Hb). destruct (G6 nu1) as (nu & Hc & Hd). exists nu. split.
      * intros v Hv. rewrite Hc by lia. apply Ha. lia.
      * intros o Ho. apply in_app_iff in Ho. destruct Ho as [Ho|Ho]; auto.
        rewrite (holds_ext nu nu1); auto. intros v Hv. apply Hc. destruct (H6 o v Ho Hv) as [Hv'|[]].
        destruct (H4 v Hv') as [Hx|Hx]; [|lia]. assert (v < k) by (apply Hlt; apply in_app_iff; auto). lia.
Qed.

Section Head.
Context (rd : reader) (D : tag -> nat -> row -> Prop) (Hrd : rd_ok rd D).

Lemma eliminate_spec p rows cur : exists rows', eliminate_duplicates rd p rows cur = Some rows' /\
  (NoDup rows -> NoDup rows') /\ forall r, In r rows' <-> In r rows /\ ~ upto D cur p r.
Proof.
  unfold eliminate_duplicates. destruct (Hrd p 0 cur) as (old & -> & Ho). simpl. eexists. split; [reflexivity|]. split.
  - intros Hn. now apply NoDup_filter.
  - intros r. rewrite filter_In. destruct (in_dec row_eq_dec r old) as [Hi|Hi].
    + split; [intros [_ ?]; discriminate|]. intros [_ Hc]. exfalso. apply Hc. apply Ho in Hi.
      destruct Hi as (s & ? & ?). exists s. split; auto. lia.
    + split; [|tauto]. intros [H _]. split; auto. intros (s & Hs & Hd). apply Hi. apply Ho. exists s. split; auto. lia.
Qed.

(** All head atoms hold under [mu] in the facts of steps before [cur]. *)
Definition head_sat (r : rule) (I : interp) (mu : var -> Z) : Prop :=
  forall a, In a (r_head r) -> I (fst a) (map (hterm_val mu) (snd a)).

Lemma frontier_list_spec r : wf_rule r -> is_existential r = true -> NoDup (frontier_list r) /\
  forall v, In v (frontier_list r) <-> In v (head_vars r) /\ In v (atom_vars (r_pos r)).
Proof.
  intros Hwf Hise. destruct (wf_exorder r Hwf Hise) as [Hn Hi]. unfold frontier_list. split.
  - now apply NoDup_filter, NoDup_filter.
  - intros v. rewrite filter_In, restrict_in. unfold in_frontier. rewrite andb_true_iff, !memv_in. split; [tauto|].
    intros [H1 H2]. auto.
Qed.

Theorem new_satisfied_spec i r hf cur last ns : wf_rule r -> is_existential r = true -> last < cur ->
  new_satisfied rd i r hf cur last = Some ns ->
  wfn ns /\ nvars ns = frontier_list r /\ NoDup (nrows ns) /\
  forall nu, msat nu ns <->
    (exists mu, (forall v, In v (frontier_list r) -> mu v = nu v) /\ head_sat r (upto D cur) mu /\
        (r_head r = [] \/ exists a s, In a (r_head r) /\ new_start (negb (exclusive r hf)) last <= s < cur /\
             D (fst a) s (map (hterm_val mu) (snd a)))) /\
    ~ upto D cur (sat_tag i) (map nu (frontier_list r)).
Proof.
  intros Hwf Hise Hlt H. unfold new_satisfied in H.
  destruct (norm_head (r_head r) (fresh_base r)) as [[atoms ops] k'] eqn:En.
  assert (Hbase : forall v, In v (head_vars r ++ r_exorder r) -> v < fresh_base r).
  { intros v Hv. unfold fresh_base. pose proof (proj1 (list_max_le (head_vars r ++ r_exorder r) _) (le_n _)) as Hm.
    rewrite Forall_forall in Hm. specialize (Hm v Hv). lia. }
  destruct (norm_head_spec _ _ _ _ _ En) as (N1 & N2 & N3 & N4 & N5 & N6).
  { intros v Hv. apply Hbase. apply in_app_iff. left. exact Hv. }
  destruct (wf_exorder r Hwf Hise) as [Xn Xi].
  set (order := restrict (r_exorder r) (head_vars r) ++ seq (fresh_base r) (k' - fresh_base r)) in *.
  assert (On : NoDup order).
  { apply NoDup_app'.
    - now apply NoDup_filter.
    - apply seq_NoDup.
    - intros v Hv Hs. apply in_seq in Hs. apply restrict_in in Hv.
      assert (v < fresh_base r) by (apply Hbase, in_app_iff; tauto). lia. }
  assert (Oi : forall v, In v order <-> In v (atom_vars atoms)).
  { intros v. unfold order. rewrite in_app_iff, restrict_in, in_seq, N3. split.
    - intros [[_ ?]|?]; [left; auto|right; lia].
    - intros [Hv|Hv]; [left; split; auto; now apply Xi|right; lia]. }
  assert (Oincl : incl (atom_vars atoms) order) by (intros v Hv; now apply Oi).
  assert (Ns : new_start (negb (exclusive r hf)) last <= cur) by (unfold new_start; destruct (negb _); lia).
  destruct (seminaive_spec rd D Hrd (negb (exclusive r hf)) atoms order cur last N2 On Oincl Ns) as (j & Ej & J1 & J2 & J3).
  rewrite Ej in H.
  destruct (gen_filter (restrict order (atom_vars atoms)) ops) as [fs rest] eqn:Ef.
  destruct (gen_filter_spec _ _ _ _ Ef) as (_ & P2 & _).
  assert (Hfs : forall o, In o fs <-> In o ops).
  { intros o. rewrite P2. split; [tauto|]. intros Ho. split; auto. intros v Hv. apply restrict_in.
    assert (In v (atom_vars atoms)) by (now apply (N4 o Ho)). split; auto. }
  destruct (filter_node j fs) as [nf|] eqn:Efn; [|discriminate].
  destruct (filter_spec _ _ _ Efn J2) as (R1 & R2 & R3 & R4).
  destruct (project (frontier_list r) nf) as [np|] eqn:Ep; [|discriminate].
  destruct (frontier_list_spec r Hwf Hise) as [Fn Fi].
  destruct (project_spec _ _ _ Ep R2 Fn) as (S1 & S2 & S3 & S4).
  destruct (eliminate_spec (sat_tag i) (nrows np) cur) as (rows' & Ee & E1 & E2). rewrite Ee in H. injection H as <-.
  assert (Npn : NoDup (nrows np)).
  { unfold project in Ep. destruct (inclb _ _); [|discriminate]. injection Ep as <-. simpl. apply NoDup_nodup. }
  split; [|split; [|split]]; auto.
  { constructor; simpl; auto. intros r0 Hr. apply E2 in Hr. rewrite <- S1. apply S2. tauto. }
  intros nu. unfold msat at 1. cbn [nvars nrows]. rewrite E2.
  assert (Hnp : In (map nu (frontier_list r) : row) (nrows np) <-> msat nu np) by (unfold msat; now rewrite S1).
  etransitivity; [apply and_iff_compat_r; exact (iff_trans Hnp (S4 nu))|].
  (* correspondence between normalised atoms and head atoms *)
  assert (Hf2 : forall nu', (forall o, In o ops -> holds nu' o) -> forall (P : tag -> row -> Prop),
     ((forall a, In a atoms -> P (fst a) (map nu' (snd a))) <-> forall h, In h (r_head r) -> P (fst h) (map (hterm_val nu') (snd h))) /\
     ((exists a, In a atoms /\ P (fst a) (map nu' (snd a))) <-> exists h, In h (r_head r) /\ P (fst h) (map (hterm_val nu') (snd h)))).
  { intros nu' Hh P. specialize (N5 nu' Hh). clear - N5. induction N5 as [|a h l l' [H1 H2] _ [IH1 IH2]]; simpl.
    - split; split; try tauto; intros (? & [] & _).
    - split; split.
      + intros Ha x [<-|Hx]; [rewrite <- H1, <- H2; auto|]. apply IH1; auto.
      + intros Ha x [<-|Hx]; [rewrite H1, H2; auto|]. apply IH1; auto.
      + intros (x & [<-|Hx] & Hp); [exists h; rewrite <- H1, <- H2; auto|]. destruct (proj1 IH2) as (y & ? & ?); eauto.
      + intros (x & [<-|Hx] & Hp); [exists a; rewrite H1, H2; auto|]. destruct (proj2 IH2) as (y & ? & ?); eauto. }
  assert (Hnil : atoms = [] <-> r_head r = []).
  { destruct (N6 (fun _ => 0%Z)) as (nu0 & _ & Hh). specialize (N5 nu0 Hh). destruct N5; split; auto; discriminate. }
  split.
  - intros [(nu' & Hag & Hm) Hns]. split; auto. apply R4 in Hm. destruct Hm as [Hm Hh].
    assert (Hh' : forall o, In o ops -> holds nu' o) by (intros o Ho; apply Hh; now apply Hfs).
    apply J3 in Hm. destruct Hm as [Hm1 Hm2]. exists nu'. split; auto. split.
    + intros h Hin. apply (proj1 (Hf2 nu' Hh' (upto D cur))); auto.
    + destruct Hm2 as [Hm2|(a & s & Ha & Hs & Hd)]; [left; now apply Hnil|right].
      destruct (Hf2 nu' Hh' (fun p x => D p s x)) as [_ Hx]. destruct (proj1 Hx) as (h & Hin & Hd'); [eauto|]. exists h, s. auto.
  - intros [(mu & Hag & Hsat & Hnew) Hns]. split; auto.
    destruct (N6 mu) as (nu' & Hn' & Hh). exists nu'.
    assert (Hhv : forall v, In v (head_vars r) -> nu' v = mu v).
    { intros v Hv. apply Hn'. left. apply Hbase. apply in_app_iff. auto. }
    assert (Hts : forall h, In h (r_head r) -> map (hterm_val nu') (snd h) = map (hterm_val mu) (snd h)).
    { intros h Hh'. apply hterm_val_ext. intros v Hv. apply Hhv. apply in_flat_map. exists h. auto. }
    split. { intros v Hv. rewrite Hhv; auto. apply Fi in Hv. tauto. }
    apply R4. split; [|intros o Ho; apply Hh; now apply Hfs]. apply J3. split.
    + intros a Ha. change (upto D cur (fst a) (map nu' (snd a))).
      apply (proj1 (Hf2 nu' Hh (upto D cur))); auto. intros h Hh'. rewrite (Hts h Hh'). auto.
    + destruct Hnew as [Hnew|(h & s & Hin & Hs & Hd)]; [left; now apply Hnil|right].
      destruct (Hf2 nu' Hh (fun p x => D p s x)) as [_ Hx]. destruct (proj2 Hx) as (a & Ha & Hd').
      { exists h. split; auto. rewrite (Hts h Hin). auto. }
      exists a, s. auto.
Qed.
End Head.
