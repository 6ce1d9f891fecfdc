(** Proofs: functions, filters and negation as one operation. *)
From Coq Require Import List Arith ZArith Bool Lia Permutation.
From Verif Require Import TableModel EngineModel EngineSpec EngineProofs1 EngineProofs2 EngineProofs3 StageModel StageSpec.
Import ListNotations.

(** Variables that can be computed from others. *)
Inductive clo (vs : list var) (ops : list oper) : var -> Prop :=
| clo_in v : In v vs -> clo vs ops v
| clo_eq v e : In (OEq v e) ops -> (forall w, In w (e_vars e) -> clo vs ops w) -> clo vs ops v.

Lemma clo_bound r v : bound r v <-> clo (atom_vars (r_pos r)) (r_ops r) v.
Proof. split; induction 1; [left; auto | eright; eauto | left; auto | eright; eauto]. Qed.

Lemma gen_function_clo vs ops vs' fs rest : gen_function vs ops = Some (vs', fs, rest) -> forall v, In v vs' <-> clo vs ops v.
Proof.
  intros H. destruct (gen_function_spec vs ops) as (a & b & c & E & H1 & H2 & H3 & H4). rewrite H in E. injection E as <- <- <-.
  intros v. split.
  - rewrite H1. apply (fun_ok_bound (clo vs ops) ops _ _ H2).
    + intros w Hw. now left.
    + intros w e Hw. apply (Permutation_in _ (Permutation_sym H3)), in_app_iff. left. apply in_map_iff. exists (w, e). auto.
    + intros w e Hw Hb. eright; eauto.
  - induction 1 as [v Hv|v e Hin _ IH].
    + rewrite H1. apply in_app_iff. auto.
    + apply (Permutation_in _ H3), in_app_iff in Hin. destruct Hin as [Hin|Hin].
      * apply in_map_iff in Hin. destruct Hin as ([w e'] & Heq & Hin). injection Heq as -> ->.
        rewrite H1. apply in_app_iff. right. apply in_map_iff. exists (v, e). auto.
      * destruct (H4 v e Hin) as [?|Hn]; auto. exfalso. apply Hn. exact IH.
Qed.

Lemma gen_function_holds vs ops vs' fs rest : gen_function vs ops = Some (vs', fs, rest) ->
  forall o, In o ops -> (exists v e, o = OEq v e /\ In (v, e) fs /\ incl (op_vars o) vs') \/ In o rest.
Proof.
  intros H. destruct (gen_function_spec vs ops) as (a & b & c & E & H1 & H2 & H3 & H4). rewrite H in E. injection E as <- <- <-.
  intros o Ho. apply (Permutation_in _ H3), in_app_iff in Ho. destruct Ho as [Ho|Ho]; auto. left.
  apply in_map_iff in Ho. destruct Ho as ([v e] & <- & Ho). exists v, e. split; auto. split; auto. rewrite H1.
  assert (Hx : forall vs0 fs0, fun_ok vs0 fs0 -> In (v, e) fs0 -> incl (v :: e_vars e) (vs0 ++ map fst fs0)).
  { clear. intros vs0 fs0. revert vs0. induction fs0 as [|[w f] fs0 IH]; simpl; intros vs0 H Hi; [tauto|].
    destruct H as (H1 & H2 & H3). destruct Hi as [Heq|Hi].
    - injection Heq as -> ->. intros x [<-|Hx]; apply in_app_iff; simpl; auto.
    - specialize (IH _ H3 Hi). rewrite <- app_assoc in IH. exact IH. }
  apply (Hx _ _ H2 Ho).
Qed.

(** Only negated atoms that share a variable are used. *)
Definition shares (vs : list var) (a : atom) : bool := negb (forallb (fun v => negb (memv v vs)) (snd a)).
Lemma shares_spec vs a : shares vs a = true <-> exists v, In v (snd a) /\ In v vs.
Proof.
  unfold shares. rewrite negb_true_iff, <- not_true_iff_false, forallb_forall. split.
  - intros H. destruct (existsb (fun v => memv v vs) (snd a)) eqn:E.
    + apply existsb_exists in E. destruct E as (v & H1 & H2). exists v. split; auto. now apply memv_in.
    + exfalso. apply H. intros v Hv. rewrite negb_true_iff. destruct (memv v vs) eqn:Em; auto.
      exfalso. rewrite <- not_true_iff_false in E. apply E, existsb_exists. eauto.
  - intros (v & H1 & H2) H. specialize (H v H1). apply negb_true_iff, memv_false in H. auto.
Qed.

Lemma gen_negation_filter pvs atoms : forall ops,
  gen_negation pvs atoms ops = let '(l, _, o) := gen_negation pvs (filter (shares pvs) atoms) ops in (l, filter (fun a => negb (shares pvs a)) atoms, o).
Proof.
  induction atoms as [|a atoms IH]; intros ops; simpl; auto.
  destruct (forallb (fun v => negb (memv v pvs)) (snd a)) eqn:E;
    [assert (Es : shares pvs a = false) by (unfold shares; now rewrite E) | assert (Es : shares pvs a = true) by (unfold shares; now rewrite E)];
    rewrite Es; cbn [negb].
  - rewrite IH. destruct (gen_negation pvs (filter (shares pvs) atoms) ops) as [[l k] o]. reflexivity.
  - cbn [gen_negation]. rewrite E. destruct (gen_filter (pvs ++ snd a) ops) as [fs ops1]. rewrite IH.
    destruct (gen_negation pvs (filter (shares pvs) atoms) ops1) as [[l k] o]. reflexivity.
Qed.

Lemma nth_filter {A} (f : A -> bool) l : forall i j a b, nth_error (filter f l) i = Some a -> nth_error (filter f l) j = Some b -> i <> j ->
  exists i' j', nth_error l i' = Some a /\ nth_error l j' = Some b /\ i' <> j'.
Proof.
  assert (O : forall l i a, nth_error (filter f l) i = Some a -> exists i', nth_error l i' = Some a).
  { intros l0 i a H. apply nth_error_In, filter_In in H. destruct H as [H _]. now apply In_nth_error. }
  induction l as [|x l IH]; intros i j a b Hi Hj Hne; simpl in *; [destruct i; discriminate|].
  destruct (f x).
  - destruct i as [|i], j as [|j]; [congruence| | |].
    + simpl in *. injection Hi as ->. destruct (O l j b Hj) as (j' & Hj'). exists 0, (S j'). auto.
    + simpl in *. injection Hj as ->. destruct (O l i a Hi) as (i' & Hi'). exists (S i'), 0. auto.
    + simpl in *. destruct (IH i j a b Hi Hj) as (i' & j' & H1 & H2 & H3); auto. exists (S i'), (S j'). auto.
  - destruct (IH i j a b Hi Hj Hne) as (i' & j' & H1 & H2 & H3). exists (S i'), (S j'). auto.
Qed.

Section Ffn.
Context (rd : reader) (D : tag -> nat -> row -> Prop) (Hrd : rd_ok rd D).

Theorem ffn_spec vs ops negs cur last n g ops' kept n' :
  wfn n -> nvars n = vs -> (forall a, In a negs -> NoDup (snd a)) ->
  (forall i j a b v, nth_error negs i = Some a -> nth_error negs j = Some b -> i <> j -> In v (snd a) -> In v (snd b) ->
     (exists w, In w (snd a) /\ clo vs ops w) -> (exists w, In w (snd b) /\ clo vs ops w) -> clo vs ops v) ->
  gen_ffn vs ops negs = Some (g, ops', kept) -> ffn_node rd g n cur last = Some n' ->
  wfn n' /\ nvars n' = fst (fst (fst g)) /\ (forall v, In v (nvars n') <-> clo vs ops v) /\
  (forall a, In a kept <-> In a negs /\ ~ exists w, In w (snd a) /\ clo vs ops w) /\
  (forall o, In o ops' <-> In o ops /\ (exists w, In w (op_vars o) /\ ~ clo vs ops w) /\
     forall a, In a negs -> (exists w, In w (snd a) /\ clo vs ops w) -> exists w, In w (op_vars o) /\ ~ clo vs ops w /\ ~ In w (snd a)) /\
  forall nu, msat nu n' <-> msat nu n /\
    (forall o, In o ops -> (forall w, In w (op_vars o) -> clo vs ops w) -> holds nu o) /\
    (forall a, In a negs -> (exists w, In w (snd a) /\ clo vs ops w) ->
      ~ exists nu', (forall v, clo vs ops v -> nu' v = nu v) /\ before D cur (fst a) (map nu' (snd a)) /\
          forall o, In o ops -> (exists w, In w (op_vars o) /\ ~ clo vs ops w) -> (forall w, In w (op_vars o) -> clo vs ops w \/ In w (snd a)) -> holds nu' o).
Proof.
  intros Hw Hv Hnd Hloc Hg Hn. unfold gen_ffn in Hg.
  destruct (gen_function vs ops) as [[[vs' fns] ops1]|] eqn:Ef; [|discriminate].
  pose proof (gen_function_clo _ _ _ _ _ Ef) as Hclo. pose proof (gen_function_holds _ _ _ _ _ Ef) as Hholds.
  destruct (gen_function_spec vs ops) as (a0 & b0 & c0 & E & F1 & F2 & F3 & F4). rewrite Ef in E. injection E as <- <- <-.
  destruct (gen_filter vs' ops1) as [fs ops2] eqn:Efi. destruct (gen_filter_spec _ _ _ _ Efi) as (P1 & P2 & P3).
  rewrite gen_negation_filter in Hg.
  destruct (gen_negation vs' (filter (shares vs') negs) ops2) as [[l rest] ops3] eqn:En. injection Hg as <- <- <-.
  assert (Sh : forall a, shares vs' a = true <-> exists w, In w (snd a) /\ clo vs ops w).
  { intros a. rewrite shares_spec. split; intros (w & H1 & H2); exists w; split; auto; now apply Hclo. }
  assert (Dec : forall w, In w vs' \/ ~ In w vs') by (intros w; destruct (in_dec Nat.eq_dec w vs'); auto).
  assert (Ninc : forall xs ys : list var, ~ incl xs ys <-> exists w, In w xs /\ ~ In w ys).
  { intros xs ys. split.
    - intros H. destruct (existsb (fun w => negb (memv w ys)) xs) eqn:Ex.
      + apply existsb_exists in Ex. destruct Ex as (w & H1 & H2). exists w. split; auto. now apply memv_false, negb_true_iff.
      + exfalso. apply H. intros w Hw0. destruct (memv w ys) eqn:Em; [now apply memv_in|].
        exfalso. rewrite <- not_true_iff_false in Ex. apply Ex, existsb_exists. exists w. now rewrite Em.
    - intros (w & H1 & H2) H. apply H2, H, H1. }
  destruct (gen_negation_spec _ _ _ _ _ _ En) as (N0 & N1 & N2 & N3).
  { intros i j a b v Hi Hj Hij Ha Hb. destruct (nth_filter _ _ _ _ _ _ Hi Hj Hij) as (i' & j' & K1 & K2 & K3).
    apply Hclo. apply (Hloc i' j' a b v K1 K2 K3 Ha Hb); apply Sh.
    - apply nth_error_In, filter_In in Hi. tauto.
    - apply nth_error_In, filter_In in Hj. tauto. }
  { intros o Ho. apply P3 in Ho. tauto. }
  unfold ffn_node in Hn.
  assert (Wn : wfn (mkNode (nvars n) (nrows n))) by (destruct n; exact Hw).
  assert (F2' : fun_ok (nvars n) fns) by now rewrite Hv.
  destruct (fun_node_spec fns (nvars n) (nrows n) Wn F2') as (Q1 & Q2 & Q3).
  destruct (filter_node (fun_node (nvars n) fns (nrows n)) fs) as [nf|] eqn:Efn; [|discriminate].
  destruct (filter_spec _ _ _ Efn Q2) as (R1 & R2 & R3 & R4).
  assert (Hvs : nvars nf = vs') by (rewrite R1, Q1, Hv; symmetry; exact F1).
  destruct (negation_node_spec rd D Hrd nf vs' l (filter (shares vs') negs) ops2 cur last n') as (S1 & S2 & S3); auto.
  { intros a Ha. apply filter_In in Ha. apply Hnd. tauto. }
  assert (Hin1 : forall o, In o ops1 -> In o ops).
  { intros o Ho. apply (Permutation_in _ (Permutation_sym F3)), in_app_iff. auto. }
  assert (Hin2 : forall o, In o ops2 <-> In o ops /\ exists w, In w (op_vars o) /\ ~ clo vs ops w).
  { intros o. rewrite P3, Ninc. split.
    - intros (Ho & w & H1 & H2). split; auto. exists w. rewrite <- Hclo. auto.
    - intros (Ho & w & H1 & H2). rewrite <- Hclo in H2. split; [|eauto]. destruct (Hholds o Ho) as [(v & e & -> & _ & Hi)|?]; auto. exfalso. auto. }
  cbn [fst]. split; [exact S2|]. split; [exact S1|]. split; [intros v; rewrite S1; apply Hclo|]. split; [|split].
  - intros a. rewrite filter_In, negb_true_iff, <- not_true_iff_false, Sh. tauto.
  - intros o. rewrite N3, Hin2. split.
    + intros [[Ho Hx] Ha]. split; auto. split; auto. intros a Hna Hsh.
      assert (Hf : In a (filter (shares vs') negs)) by (apply filter_In; split; auto; now apply Sh).
      specialize (Ha a Hf). rewrite Ninc in Ha. destruct Ha as (w & H1 & H2); [now apply shares_spec, Sh|].
      exists w. split; auto. split; [rewrite <- Hclo|]; intros Hc; apply H2, in_app_iff; auto.
    + intros (Ho & Hx & Ha). split; auto. intros a Hf Hsh. apply filter_In in Hf. destruct Hf as [Hna Hs]. apply Ninc.
      destruct (Ha a Hna) as (w & H1 & H2 & H3); [now apply Sh|]. exists w. split; auto. rewrite in_app_iff, Hclo. tauto.
  - intros nu. rewrite S3, R4, Q3. assert (Hj : msat nu (mkNode (nvars n) (nrows n)) <-> msat nu n) by (destruct n; tauto).
    rewrite Hj. clear Hj. split.
    + intros [[[H1 H2] H3] H4]. split; auto. split.
      * intros o Ho Hb. destruct (Hholds o Ho) as [(v & e & -> & Hi & _)|Ho1]; [apply (H2 v e Hi)|].
        apply H3. apply P2. split; auto. intros w Hw0. apply Hclo. auto.
      * intros a Ha Hsh (nu' & G1 & G2 & G3). apply (H4 a).
        -- apply filter_In. split; auto. now apply Sh.
        -- now apply shares_spec, Sh.
        -- exists nu'. split; [intros v Hv0; apply G1; now apply Hclo|]. split; auto. intros o Ho Hi. apply Hin2 in Ho. destruct Ho as [Ho Hx].
           apply G3; auto. intros w Hw0. specialize (Hi w Hw0). apply in_app_iff in Hi. rewrite <- Hclo. tauto.
    + intros [H1 [H2 H3]]. split; [split; [split; auto|]|].
      * intros v e Hi. apply (H2 (OEq v e)).
        -- apply (Permutation_in _ (Permutation_sym F3)), in_app_iff. left. apply in_map_iff. exists (v, e). auto.
        -- intros w Hw0. apply Hclo. rewrite F1.
           assert (Hx : forall vs0 fs0, fun_ok vs0 fs0 -> In (v, e) fs0 -> incl (v :: e_vars e) (vs0 ++ map fst fs0)).
           { clear. intros vs0 fs0. revert vs0. induction fs0 as [|[w f] fs0 IH]; simpl; intros vs0 H Hi; [tauto|].
             destruct H as (H1 & H2 & H3). destruct Hi as [Heq|Hi].
             - injection Heq as -> ->. intros x [<-|Hx]; apply in_app_iff; simpl; auto.
             - specialize (IH _ H3 Hi). rewrite <- app_assoc in IH. exact IH. }
           apply (Hx _ _ F2 Hi). exact Hw0.
      * intros o Ho. apply P2 in Ho. destruct Ho as [Ho Hi]. apply H2; auto. intros w Hw0. apply Hclo. auto.
      * intros a Hf Hsh (nu' & G1 & G2 & G3). apply filter_In in Hf. destruct Hf as [Ha Hs]. apply (H3 a Ha); [now apply Sh|].
        exists nu'. split; [intros v Hv0; apply G1; now apply Hclo|]. split; auto. intros o Ho Hx Hi. apply G3; [apply Hin2; auto|].
        intros w Hw0. apply in_app_iff. rewrite Hclo. auto.
Qed.
End Ffn.
