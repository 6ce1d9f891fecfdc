(** Restricted chase nodes; executing one rule. *)
From Coq Require Import List Arith ZArith Bool Lia Permutation.
From Verif Require Import TableModel EngineModel EngineSpec EngineProofs1 EngineProofs2 EngineProofs3 EngineProofs4 EngineProofs5.
Import ListNotations.

Lemma ex_vars_spec r : NoDup (ex_vars r) /\ forall v, In v (ex_vars r) <-> is_ex r v.
Proof.
  unfold ex_vars, dedup. destruct (dedup_acc (flat_map hatom_ex (r_head r)) []) as (t & -> & H1 & H2 & H3).
  simpl in *. split; [apply H2; constructor|]. intros v. unfold is_ex. split.
  - intros Hv. apply H1 in Hv. apply in_flat_map in Hv. destruct Hv as (a & ? & ?). eauto.
  - intros (a & Ha & Hv). apply H3. apply in_flat_map. eauto.
Qed.

Lemma is_existential_spec r : is_existential r = true <-> exists a, In a (r_head r) /\ hatom_ex a <> [].
Proof.
  unfold is_existential. rewrite existsb_exists. split; intros (a & Ha & H); exists a; split; auto.
  - destruct (hatom_ex a); [discriminate|congruence].
  - destruct (hatom_ex a); [congruence|reflexivity].
Qed.

Lemma nat_mul_succ_le a b m : a < b -> a * m + m <= m * b.
Proof. intros. nia. Qed.

Lemma null_val_inj a b : null_val a = null_val b -> a = b.
Proof. unfold null_val. lia. Qed.

Section Exec.
Context (rd : reader) (D : tag -> nat -> row -> Prop) (Hrd : rd_ok rd D).

(** The head is satisfied for the frontier values of [nu] by old facts, one of which is new since
    [start]. *)
Definition sat_new (r : rule) (cur start : nat) (nu : var -> Z) : Prop :=
  exists mu, (forall v, In v (frontier_list r) -> mu v = nu v) /\ head_sat r (upto D cur) mu /\
    (r_head r = [] \/ exists a s, In a (r_head r) /\ start <= s < cur /\ D (fst a) s (map (hterm_val mu) (snd a))).

Theorem restricted_nodes_spec i r hf nb cur last ctr nn sat ctr' : wf_rule r -> is_existential r = true -> last < cur ->
  wfn nb -> (forall v, In v (nvars nb) <-> bound r v) ->
  restricted_nodes rd i r hf nb cur last ctr = Some (nn, sat, ctr') ->
  let F := frontier_list r in
  let start := new_start (negb (exclusive r hf)) last in
  let unsat nu := (exists nu', msat nu' nb /\ forall v, In v F -> nu' v = nu v) /\
                  ~ sat_new r cur start nu /\ ~ upto D cur (sat_tag i) (map nu F) in
  wfn nn /\ nvars nn = F ++ ex_vars r /\ ctr <= ctr' /\
  (forall mu, msat mu nn -> unsat mu /\ exists base, ctr <= base /\ base + length (ex_vars r) <= ctr' /\
      map mu (ex_vars r) = map null_val (seq base (length (ex_vars r)))) /\
  (forall nu, unsat nu -> exists mu, (forall v, In v F -> mu v = nu v) /\ msat mu nn) /\
  ((forall mu mu' v v', msat mu nn -> msat mu' nn -> In v (ex_vars r) -> In v' (ex_vars r) -> mu v = mu' v' ->
      v = v' /\ forall w, In w F -> mu w = mu' w) /\
   (forall mu mu', msat mu nn -> msat mu' nn -> (forall w, In w F -> mu w = mu' w) -> forall v, In v (ex_vars r) -> mu v = mu' v)) /\
  NoDup sat /\
  (forall f, In f sat <-> exists nu, f = map nu F /\
      (unsat nu \/ (sat_new r cur start nu /\ ~ upto D cur (sat_tag i) (map nu F)))).
Proof.
  intros Hwf Hise Hlt Hw Hb H. cbv zeta. unfold restricted_nodes in H.
  destruct (project (frontier_list r) nb) as [mf|] eqn:Ep; [|discriminate].
  destruct (new_satisfied rd i r hf cur last) as [ns|] eqn:En; [|discriminate].
  destruct (frontier_list_spec r Hwf Hise) as [Fn Fi].
  destruct (atom_node_spec rd D Hrd (sat_tag i, frontier_list r) RAll cur last Fn) as (old & Eo & O1 & O2 & O3).
  rewrite Eo in H. simpl in O1, O3.
  destruct (project_spec _ _ _ Ep Hw Fn) as (S1 & S2 & S3 & S4).
  destruct (new_satisfied_spec rd D Hrd i r hf cur last ns Hwf Hise Hlt En) as (T1 & T2 & T3 & T4).
  fold (sat_new r cur (new_start (negb (exclusive r hf)) last)) in T4.
  set (F := frontier_list r) in *. set (start := new_start (negb (exclusive r hf)) last) in *. set (E := ex_vars r) in *.
  assert (Hold : forall nu, msat nu old <-> upto D cur (sat_tag i) (map nu F)).
  { intros nu. rewrite O3. unfold in_range, upto. simpl. split; intros (s & Hs & Hd); exists s; split; auto; lia. }
  assert (T4' : forall nu, msat nu ns <-> sat_new r cur start nu /\ ~ upto D cur (sat_tag i) (map nu F)) by exact T4. clear T4. rename T4' into T4.
  set (sub := mkNode F (nrows ns ++ nrows old)) in *.
  assert (Hsub : forall nu, msat nu sub <-> msat nu ns \/ msat nu old).
  { intros nu. unfold msat, sub. simpl. rewrite in_app_iff, T2, O1. tauto. }
  destruct (subtract_spec mf [sub] S2) as (U1 & U2 & U3).
  { intros s [<-|[]]. simpl. rewrite S1. intros v Hv. auto. }
  set (us := subtract mf [sub]) in *.
  assert (Hus : forall nu, msat nu us <-> (exists nu', msat nu' nb /\ forall v, In v F -> nu' v = nu v) /\
                  ~ sat_new r cur start nu /\ ~ upto D cur (sat_tag i) (map nu F)).
  { intros nu. rewrite U3, S4. split.
    - intros [(nu' & Ha & Hm) Hx]. specialize (Hx sub (or_introl eq_refl)). rewrite Hsub, T4, Hold in Hx.
      split; [exists nu'; auto|]. split; [|tauto]. intros Hc. apply Hx. destruct (rd_dec rd D Hrd (sat_tag i) 0 cur (map nu F)) as [(s & ? & ?)|Hno].
      + right. exists s. split; auto. lia.
      + left. split; [exact Hc|]. intros (s & Hs & Hd). apply Hno. exists s. split; auto. lia.
    - intros [(nu' & Hm & Ha) [Hx Hy]]. split; [exists nu'; auto|]. intros s [<-|[]]. rewrite Hsub, T4, Hold. tauto. }
  injection H as <- <- <-.
  destruct (ex_vars_spec r) as [En' Ei]. fold E in En', Ei.
  assert (Hrows : forall j f, nth_error (nrows us) j = Some f -> length f = length F /\ In f (nrows us)).
  { intros j f Hj. apply nth_error_In in Hj. split; auto. rewrite (wfn_len us U2 f Hj), U1, S1. reflexivity. }
  assert (Hdis : forall v, In v F -> ~ In v E).
  { intros v Hv He. apply Ei in He. apply (wf_ex r Hwf) in He. apply (proj1 He). constructor. apply Fi in Hv. tauto. }
  assert (Hmrow : forall mu, msat mu (mkNode (F ++ E) (null_rows (nrows us) (length E) ctr)) <->
     exists j, nth_error (nrows us) j = Some (map mu F) /\ map mu E = map null_val (seq (ctr + j * length E) (length E))).
  { intros mu. unfold msat. simpl. rewrite null_rows_in, map_app. split.
    - intros (j & f & Hj & Heq). destruct (Hrows j f Hj) as [Hl _].
      destruct (app_len_inj _ _ _ _ (eq_trans (map_length mu F) (eq_sym Hl)) Heq) as [<- He]. exists j. auto.
    - intros (j & Hj & He). exists j, (map mu F). rewrite He. auto. }
  assert (Hbase : forall j f, nth_error (nrows us) j = Some f -> ctr + j * length E + length E <= ctr + length E * length (nrows us)).
  { intros j f Hj. assert (j < length (nrows us)) by (apply nth_error_Some; congruence).
    pose proof (nat_mul_succ_le j (length (nrows us)) (length E) H). lia. }
  repeat match goal with |- _ /\ _ => split end.
  - constructor; simpl.
    + apply NoDup_app'; auto.
    + intros row Hr. apply null_rows_in in Hr. destruct Hr as (j & f & Hj & ->). destruct (Hrows j f Hj) as [Hl _].
      rewrite !app_length, map_length, seq_length, Hl. reflexivity.
  - reflexivity.
  - lia.
  - intros mu Hm. apply Hmrow in Hm. destruct Hm as (j & Hj & He). split.
    + apply Hus. unfold msat. rewrite U1, S1. destruct (Hrows _ _ Hj). auto.
    + exists (ctr + j * length E). split; [lia|]. split; auto. eapply Hbase; eauto.
  - intros nu Hu. apply Hus in Hu. unfold msat in Hu. rewrite U1, S1 in Hu.
    destruct (In_nth_error _ _ Hu) as (j & Hj).
    set (en := map null_val (seq (ctr + j * length E) (length E))).
    assert (Hlen : length en = length E) by (unfold en; now rewrite map_length, seq_length).
    exists (fun v => if in_dec Nat.eq_dec v E then val_of E en v else nu v). split.
    + intros v Hv. destruct (in_dec Nat.eq_dec v E) as [Hx|]; auto. exfalso. now apply (Hdis v).
    + apply Hmrow. exists j. split.
      * etransitivity; [exact Hj|]. f_equal. apply map_ext_in. intros v Hv. destruct (in_dec Nat.eq_dec v E) as [Hx|]; auto.
        exfalso. now apply (Hdis v).
      * fold en. etransitivity; [|apply (val_of_map E en En' Hlen)]. apply map_ext_in. intros v Hv.
        destruct (in_dec Nat.eq_dec v E); tauto.

  - intros mu mu' v v' Hm Hm' Hv Hv' Heq. apply Hmrow in Hm. apply Hmrow in Hm'.
    destruct Hm as (j & Hj & He). destruct Hm' as (j' & Hj' & He').
    destruct (In_nth_error _ _ Hv) as (a & Ha). destruct (In_nth_error _ _ Hv') as (a' & Ha').
    assert (Hla : a < length E) by (apply nth_error_Some; congruence).
    assert (Hla' : a' < length E) by (apply nth_error_Some; congruence).
    assert (Hval : forall mu0 j0 a0 v0, map mu0 E = map null_val (seq (ctr + j0 * length E) (length E)) -> a0 < length E ->
       nth_error E a0 = Some v0 -> mu0 v0 = null_val (ctr + j0 * length E + a0)).
    { intros mu0 j0 a0 v0 He0 Hl0 Hn0. assert (Hx : nth_error (map mu0 E) a0 = Some (mu0 v0)) by (now apply map_nth_error).
      rewrite He0 in Hx.
      assert (Hs : nth_error (seq (ctr + j0 * length E) (length E)) a0 = Some (ctr + j0 * length E + a0)).
      { rewrite (nth_error_nth' _ 0) by (now rewrite seq_length). rewrite seq_nth; auto. }
      rewrite (map_nth_error _ _ _ Hs) in Hx. congruence. }
    rewrite (Hval _ _ _ _ He Hla Ha), (Hval _ _ _ _ He' Hla' Ha') in Heq. apply null_val_inj in Heq.
    assert (Hjj : j = j' /\ a = a'). { clear - Heq Hla Hla'. assert (j = j') by nia. subst. split; auto. lia. }
    destruct Hjj as [-> ->]. rewrite Hj in Hj'. injection Hj' as Hj'. split; [congruence|].
    apply (proj1 (map_eq_in mu mu' F)). exact Hj'.
  - intros mu mu' Hm Hm' Hag. apply Hmrow in Hm. apply Hmrow in Hm'.
    destruct Hm as (j & Hj & He). destruct Hm' as (j' & Hj' & He').
    assert (Hnd : NoDup (nrows us)).
    { unfold us, subtract. simpl. apply NoDup_filter. unfold project in Ep. destruct (inclb F (nvars nb)); [|discriminate]. injection Ep as <-. apply NoDup_nodup. }
    assert (Hjj : j = j').
    { apply (proj1 (NoDup_nth_error (nrows us)) Hnd); [apply nth_error_Some; rewrite Hj; discriminate|].
      etransitivity; [exact Hj|]. etransitivity; [|symmetry; exact Hj']. f_equal. apply map_ext_in. exact Hag. }
    subst j'. apply (proj1 (map_eq_in mu mu' E)). etransitivity; [exact He|]. symmetry. exact He'.
  - apply NoDup_nodup.
  - intros f. split; [intros Hf; apply nodup_In, in_app_iff in Hf; destruct Hf as [Hf|Hf]|].
    + apply (nrows_msat us f U2) in Hf. destruct Hf as (nu & Hm & ->). exists nu. rewrite U1, S1. split; auto. left. now apply Hus.
    + apply (nrows_msat ns f T1) in Hf. destruct Hf as (nu & Hm & ->). exists nu. rewrite T2. split; auto. right. now apply T4.
    + intros (nu & -> & [Hu|Hs]); apply nodup_In, in_app_iff.
      * left. apply Hus in Hu. unfold msat in Hu. now rewrite U1, S1 in Hu.
      * right. apply T4 in Hs. unfold msat in Hs. now rewrite T2 in Hs.
Qed.
End Exec.
