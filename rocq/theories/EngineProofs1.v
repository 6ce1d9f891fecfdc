(** Plan nodes characterised by valuations. *)
From Coq Require Import List Arith ZArith Bool Lia Permutation.
From Verif Require Import TableModel EngineModel EngineSpec.
Import ListNotations.
#[export] Hint Resolve in_eq in_cons : core.

Lemma memv_in v l : memv v l = true <-> In v l.
Proof.
  unfold memv. rewrite existsb_exists. split.
  - intros (x & H & E). apply Nat.eqb_eq in E. now subst.
  - intros H. exists v. split; auto. apply Nat.eqb_refl.
Qed.
Lemma memv_false v l : memv v l = false <-> ~ In v l.
Proof. rewrite <- memv_in. destruct (memv v l); split; congruence. Qed.
Lemma inclb_incl a b : inclb a b = true <-> incl a b.
Proof.
  unfold inclb. rewrite forallb_forall. split; intros H v Hv.
  - apply memv_in. auto.
  - apply memv_in. auto.
Qed.

Definition msat (nu : var -> Z) (n : node) : Prop := In (map nu (nvars n)) (nrows n).
Record wfn (n : node) : Prop := {
  wfn_nodup : NoDup (nvars n);
  wfn_len : forall r, In r (nrows n) -> length r = length (nvars n) }.

Lemma map_ext_in' {A B} (f g : A -> B) l : (forall x, In x l -> f x = g x) -> map f l = map g l.
Proof. apply map_ext_in. Qed.

Lemma val_of_map xs : forall r, NoDup xs -> length r = length xs -> map (val_of xs r) xs = r.
Proof.
  induction xs as [|x xs IH]; intros [|z r] Hnd Hl; simpl in *; try discriminate; auto.
  rewrite Nat.eqb_refl. f_equal. inversion Hnd; subst.
  etransitivity; [|apply (IH r); auto]. apply map_ext_in. intros v Hv.
  destruct (Nat.eqb_spec v x) as [->|]; tauto.
Qed.
Lemma val_of_in xs nu : forall v, In v xs -> val_of xs (map nu xs) v = nu v.
Proof.
  induction xs as [|x xs IH]; simpl; intros v Hv; [tauto|].
  destruct (Nat.eqb_spec v x) as [->|Hne]; auto. apply IH. destruct Hv; congruence.
Qed.

Lemma row_val n r : wfn n -> In r (nrows n) -> msat (val_of (nvars n) r) n.
Proof. intros [H1 H2] Hr. unfold msat. rewrite val_of_map; auto. Qed.

Lemma msat_ext nu nu' n : (forall v, In v (nvars n) -> nu v = nu' v) -> msat nu n <-> msat nu' n.
Proof. intros H. unfold msat. now rewrite (map_ext_in _ _ _ H). Qed.

Lemma nrows_msat n r : wfn n -> In r (nrows n) <-> exists nu, msat nu n /\ r = map nu (nvars n).
Proof.
  intros Hw. split.
  - intros Hr. exists (val_of (nvars n) r). split; [now apply row_val|]. symmetry. apply val_of_map; apply Hw; auto.
  - intros (nu & Hs & ->). exact Hs.
Qed.

Lemma eval_ext nu nu' e : (forall v, In v (e_vars e) -> nu v = nu' v) -> eval_expr nu e = eval_expr nu' e.
Proof. intros H. unfold eval_expr. now rewrite (map_ext_in _ _ _ H). Qed.
Lemma test_ext nu nu' o : (forall v, In v (op_vars o) -> nu v = nu' v) -> test_op nu o = test_op nu' o.
Proof.
  destruct o as [v e|e]; simpl; intros H.
  - rewrite (eval_ext nu nu') by auto. destruct (eval_expr nu' e); auto. now rewrite H by auto.
  - rewrite (eval_ext nu nu') by auto. reflexivity.
Qed.
Lemma test_holds nu o : test_op nu o = true <-> holds nu o.
Proof.
  destruct o as [v e|e]; simpl; destruct (eval_expr nu e) as [z|]; try (split; congruence).
  - rewrite Z.eqb_eq. split; congruence.
  - rewrite Z.eqb_eq. split; congruence.
Qed.
Lemma holds_ext nu nu' o : (forall v, In v (op_vars o) -> nu v = nu' v) -> holds nu o <-> holds nu' o.
Proof. intros H. rewrite <- !test_holds. now rewrite (test_ext nu nu'). Qed.

(** ** project *)
Lemma project_spec ys n n' : project ys n = Some n' -> wfn n -> NoDup ys ->
  nvars n' = ys /\ wfn n' /\ incl ys (nvars n) /\
  forall nu, msat nu n' <-> exists nu', (forall v, In v ys -> nu' v = nu v) /\ msat nu' n.
Proof.
  unfold project. destruct (inclb ys (nvars n)) eqn:E; [|discriminate]. intros H. injection H as <-.
  apply inclb_incl in E. intros Hw Hnd. simpl. split; auto. split; [|split; auto].
  - constructor; simpl; auto. intros r Hr. apply nodup_In, in_map_iff in Hr. destruct Hr as (r0 & <- & _). apply map_length.
  - intros nu. unfold msat at 1. simpl. rewrite nodup_In, in_map_iff. split.
    + intros (r & Heq & Hr). exists (val_of (nvars n) r). split; [|now apply row_val].
      intros v Hv. revert Hv. revert Heq. clear. induction ys as [|y ys IH]; simpl; [tauto|].
      intros H. injection H as H1 H2. intros [->|Hv]; auto.
    + intros (nu' & Hag & Hs). exists (map nu' (nvars n)). split; [|exact Hs].
      apply map_ext_in. intros v Hv. rewrite val_of_in by (apply E; auto). auto.
Qed.
Lemma project_some ys n : incl ys (nvars n) -> exists n', project ys n = Some n'.
Proof. intros H. unfold project. apply inclb_incl in H. rewrite H. eauto. Qed.

(** ** filter *)
Lemma filter_spec n fs n' : filter_node n fs = Some n' -> wfn n ->
  nvars n' = nvars n /\ wfn n' /\ (forall o, In o fs -> incl (op_vars o) (nvars n)) /\
  forall nu, msat nu n' <-> msat nu n /\ forall o, In o fs -> holds nu o.
Proof.
  intros H Hw. unfold filter_node in H. destruct fs as [|o0 fs0] eqn:Efs.
  - injection H as <-. split; auto. split; auto. split; [simpl; tauto|]. intros nu. simpl. firstorder.
  - rewrite <- Efs in *. destruct (nvars n) as [|x xs] eqn:En; [discriminate|]. rewrite <- En in *.
    destruct (forallb (fun o => inclb (op_vars o) (nvars n)) fs) eqn:E; [|discriminate]. injection H as <-. simpl.
    rewrite forallb_forall in E.
    assert (Ei : forall o, In o fs -> incl (op_vars o) (nvars n)).
    { intros o Ho. apply inclb_incl. auto. }
    split; auto. split; [|split; auto].
    + constructor; simpl; [apply Hw|]. intros r Hr. apply filter_In in Hr. apply Hw. tauto.
    + intros nu. unfold msat. simpl. rewrite filter_In, forallb_forall.
      assert (Hx : forall o, In o fs -> test_op (val_of (nvars n) (map nu (nvars n))) o = test_op nu o).
      { intros o Ho. apply test_ext. intros v Hv. apply val_of_in. now apply (Ei o). }
      split; intros [H1 H2]; split; auto; intros o Ho; specialize (H2 o Ho).
      * rewrite Hx in H2 by auto. now apply test_holds.
      * rewrite Hx by auto. now apply test_holds.
Qed.

(** ** functions *)
Fixpoint fun_ok (vs : list var) (fs : list (var * expr)) : Prop :=
  match fs with
  | [] => True
  | ve :: fs' => ~ In (fst ve) vs /\ incl (e_vars (snd ve)) vs /\ fun_ok (vs ++ [fst ve]) fs'
  end.

Lemma NoDup_snoc {A} (l : list A) x : NoDup l -> ~ In x l -> NoDup (l ++ [x]).
Proof.
  intros H Hx. induction H as [|y l Hy H IH]; simpl.
  - constructor; auto. constructor.
  - constructor.
    + rewrite in_app_iff. simpl. intros [?|[->|[]]]; [tauto|]. apply Hx. now left.
    + apply IH. intros ?. apply Hx. now right.
Qed.

Lemma fun1_spec vs ve rs : wfn (mkNode vs rs) -> ~ In (fst ve) vs -> incl (e_vars (snd ve)) vs ->
  wfn (mkNode (vs ++ [fst ve]) (fun1 vs ve rs)) /\
  forall nu, msat nu (mkNode (vs ++ [fst ve]) (fun1 vs ve rs)) <->
             msat nu (mkNode vs rs) /\ eval_expr nu (snd ve) = Some (nu (fst ve)).
Proof.
  intros Hw Hni Hin. split.
  - constructor; simpl.
    + apply NoDup_snoc; [apply Hw|auto].
    + intros r Hr. unfold fun1 in Hr. apply in_flat_map in Hr. destruct Hr as (r0 & Hr0 & Hr).
      destruct (eval_expr _ _); [|destruct Hr]. destruct Hr as [<-|[]]. rewrite !app_length. simpl.
      pose proof (wfn_len _ Hw r0 Hr0) as Hl. simpl in Hl. lia.
  - intros nu. unfold msat. simpl. unfold fun1. rewrite in_flat_map, map_app. simpl. split.
    + intros (r0 & Hr0 & Hr). destruct (eval_expr (val_of vs r0) (snd ve)) as [z|] eqn:E; [|destruct Hr].
      destruct Hr as [Hr|[]]. apply app_inj_tail in Hr. destruct Hr as [-> ->].
      split; auto. rewrite <- E. apply eval_ext. intros v Hv. symmetry. apply val_of_in. auto.
    + intros [H1 H2]. exists (map nu vs). split; auto.
      rewrite (eval_ext _ nu), H2; [now left|]. intros v Hv. apply val_of_in. auto.
Qed.

Lemma fun_node_spec fs : forall vs rs, wfn (mkNode vs rs) -> fun_ok vs fs ->
  nvars (fun_node vs fs rs) = vs ++ map fst fs /\ wfn (fun_node vs fs rs) /\
  forall nu, msat nu (fun_node vs fs rs) <->
     msat nu (mkNode vs rs) /\ forall v e, In (v, e) fs -> eval_expr nu e = Some (nu v).
Proof.
  induction fs as [|[v e] fs IH]; intros vs rs Hw Hok; simpl.
  - rewrite app_nil_r. split; [reflexivity|]. split; [exact Hw|]. intros nu. split; [intros H; split; [exact H|intros ? ? Hx; destruct Hx]|intros [H _]; exact H].
  - simpl in Hok. destruct Hok as (H1 & H2 & H3).
    destruct (fun1_spec vs (v, e) rs Hw H1 H2) as [Hw' Hs].
    destruct (IH _ _ Hw' H3) as (Ha & Hb & Hc). simpl in Ha. rewrite <- app_assoc in Ha. split; [exact Ha|]. split; [exact Hb|].
    intros nu. rewrite Hc, Hs. simpl. split.
    + intros ((H & He) & Hf). split; auto. intros v' e' [Heq|Hin]; [injection Heq as <- <-; auto|auto].
    + intros (H & Hf). split; [split|]; auto.
Qed.

(** ** subtract *)
Lemma in_node_ok nu n : in_node nu n = true <-> msat nu n.
Proof. unfold in_node, msat. destruct (in_dec _ _ _); split; congruence || tauto. Qed.

Lemma subtract_spec n subs : wfn n -> (forall s, In s subs -> incl (nvars s) (nvars n)) ->
  nvars (subtract n subs) = nvars n /\ wfn (subtract n subs) /\
  forall nu, msat nu (subtract n subs) <-> msat nu n /\ forall s, In s subs -> ~ msat nu s.
Proof.
  intros Hw Hi. split; auto. split.
  - constructor; simpl; [apply Hw|]. intros r Hr. apply filter_In in Hr. apply Hw. tauto.
  - intros nu. unfold msat at 1. simpl. rewrite filter_In, forallb_forall.
    assert (Hx : forall s, In s subs -> (negb (in_node (val_of (nvars n) (map nu (nvars n))) s) = true <-> ~ msat nu s)).
    { intros s Hs. rewrite negb_true_iff, <- not_true_iff_false, in_node_ok.
      rewrite (msat_ext _ nu); [tauto|]. intros v Hv. apply val_of_in. now apply (Hi s). }
    split; intros [H1 H2]; split; auto; intros s Hs; specialize (H2 s Hs); apply Hx; auto.
Qed.

(** ** join *)
Lemma NoDup_app' {A} (a b : list A) : NoDup a -> NoDup b -> (forall x, In x a -> ~ In x b) -> NoDup (a ++ b).
Proof.
  intros Ha Hb Hd. induction Ha as [|x l Hx Hl IH]; simpl; auto. constructor.
  - rewrite in_app_iff. intros [?|?]; [tauto|]. apply (Hd x); simpl; auto.
  - apply IH. intros v Hv. apply Hd. now right.
Qed.
Lemma app_len_inj {A} (a b c d : list A) : length a = length c -> a ++ b = c ++ d -> a = c /\ b = d.
Proof.
  revert c. induction a as [|x a IH]; intros [|y c]; simpl; intros Hl H; try discriminate; auto.
  injection H as -> H. destruct (IH c) as [-> ->]; auto.
Qed.

Lemma join2_spec a b : wfn a -> wfn b -> wfn (join2 a b) /\
  (forall v, In v (nvars (join2 a b)) <-> In v (nvars a) \/ In v (nvars b)) /\
  forall nu, msat nu (join2 a b) <-> msat nu a /\ msat nu b.
Proof.
  intros Ha Hb. unfold join2. set (new := filter (fun v => negb (memv v (nvars a))) (nvars b)).
  set (shared := filter (fun v => memv v (nvars a)) (nvars b)).
  assert (Hnew : forall v, In v new <-> In v (nvars b) /\ ~ In v (nvars a)).
  { intros v. unfold new. rewrite filter_In, negb_true_iff, memv_false. tauto. }
  assert (Hsh : forall v, In v shared <-> In v (nvars b) /\ In v (nvars a)).
  { intros v. unfold shared. rewrite filter_In, memv_in. tauto. }
  split; [|split].
  - constructor; simpl.
    + assert (Hn : NoDup new) by (apply NoDup_filter; apply Hb).
      assert (Hd : forall v, In v (nvars a) -> ~ In v new) by (intros v H H'; apply Hnew in H'; tauto).
      apply NoDup_app'; auto. apply Ha.
    + intros r Hr. apply in_flat_map in Hr. destruct Hr as (ra & Hra & Hr). apply in_flat_map in Hr.
      destruct Hr as (rb & Hrb & Hr). destruct (forallb _ _); [|destruct Hr]. destruct Hr as [<-|[]].
      rewrite !app_length, map_length. rewrite (wfn_len _ Ha ra Hra). reflexivity.
  - intros v. simpl. rewrite in_app_iff, Hnew. destruct (in_dec Nat.eq_dec v (nvars a)); tauto.
  - intros nu. unfold msat. simpl. rewrite in_flat_map. split.
    + intros (ra & Hra & Hr). apply in_flat_map in Hr. destruct Hr as (rb & Hrb & Hr).
      destruct (forallb _ _) eqn:E; [|destruct Hr]. destruct Hr as [Hr|[]]. rewrite map_app in Hr.
      assert (Hsplit : ra = map nu (nvars a) /\ map (val_of (nvars b) rb) new = map nu new).
      { assert (Hlen : length ra = length (map nu (nvars a))) by (rewrite map_length; apply Ha; auto).
        apply app_len_inj; auto. }
      destruct Hsplit as [-> Hb'].
      split; auto. replace (map nu (nvars b)) with rb; auto.
      rewrite <- (val_of_map (nvars b) rb) by (apply Hb; auto). apply map_ext_in. intros v Hv.
      destruct (in_dec Nat.eq_dec v (nvars a)) as [Hva|Hva].
      * rewrite forallb_forall in E. specialize (E v (proj2 (Hsh v) (conj Hv Hva))). apply Z.eqb_eq in E.
        rewrite <- E. now apply val_of_in.
      * assert (Hvn : In v new) by (apply Hnew; auto). clear - Hb' Hvn.
        induction new as [|y l IH]; simpl in *; [tauto|]. injection Hb' as H1 H2. destruct Hvn as [->|?]; auto.
    + intros [H1 H2]. exists (map nu (nvars a)). split; auto. apply in_flat_map. exists (map nu (nvars b)). split; auto.
      assert (E : forallb (fun v => (val_of (nvars a) (map nu (nvars a)) v =? val_of (nvars b) (map nu (nvars b)) v)%Z) shared = true).
      { apply forallb_forall. intros v Hv. apply Hsh in Hv. rewrite !val_of_in by tauto. apply Z.eqb_refl. }
      rewrite E. left. rewrite map_app. f_equal. apply map_ext_in. intros v Hv. apply val_of_in. apply Hnew in Hv. tauto.
Qed.
