(** Terms, operations, safe variables. *)
From Coq Require Import List Arith ZArith Bool Lia Permutation.
From Verif Require Import TableModel EngineModel EngineSpec EngineProofs1 NormModel NormSpec.
Import ListNotations.

Lemma term_ind' (P : term -> Prop) :
  (forall v, P (TVar v)) -> P TAnon -> (forall v, P (TEx v)) -> (forall c, P (TConst c)) ->
  (forall k ts, Forall P ts -> P (TOp k ts)) -> (forall f t ds, P t -> P (TAgg f t ds)) ->
  (forall ts, Forall P ts -> P (TComplex ts)) -> forall t, P t.
Proof.
  intros H1 H2 H3 H4 H5 H6 H7. fix IH 1. intros [v| |v|c|k ts|f t ds|ts].
  - apply H1.
  - apply H2.
  - apply H3.
  - apply H4.
  - apply H5. induction ts; constructor; [apply IH|assumption].
  - apply H6. apply IH.
  - apply H7. induction ts; constructor; [apply IH|assumption].
Qed.
Lemma nop_ind' (P : nop -> Prop) :
  (forall v, P (NVar v)) -> (forall c, P (NConst c)) -> (forall k ns, Forall P ns -> P (NOp k ns)) -> forall n, P n.
Proof.
  intros H1 H2 H3. fix IH 1. intros [v|c|k ns].
  - apply H1.
  - apply H2.
  - apply H3. induction ns; constructor; [apply IH|assumption].
Qed.

Lemma mapo_Forall2 {A B} (f : A -> option B) : forall l l', mapo f l = Some l' <-> Forall2 (fun x y => f x = Some y) l l'.
Proof.
  induction l as [|x l IH]; intros l'; simpl.
  - split; [intros E; injection E as <-; constructor|intros H; inversion H; auto].
  - destruct (f x) as [y|] eqn:Ex; [|split; [discriminate|intros H; inversion H; congruence]].
    destruct (mapo f l) as [ys|] eqn:El.
    + split.
      * intros E. injection E as <-. constructor; auto. now apply IH.
      * intros H. inversion H as [|? z ? zs Hz Hzs]; subst. apply IH in Hzs. congruence.
    + split; [discriminate|]. intros H. inversion H as [|? z ? zs Hz Hzs]; subst. apply IH in Hzs. congruence.
Qed.
Lemma mapo_ext {A B} (f g : A -> option B) l : Forall (fun x => f x = g x) l -> mapo f l = mapo g l.
Proof. induction 1 as [|x l Hx _ IH]; simpl; auto. rewrite Hx, IH. reflexivity. Qed.
Lemma mapo_total {A B} (f : A -> option B) l : (forall x, In x l -> exists y, f x = Some y) -> exists ys, mapo f l = Some ys.
Proof.
  induction l as [|x l IH]; intros H; simpl; eauto. destruct (H x) as (y & ->); [now left|]. destruct IH as (ys & ->); [intros z Hz; apply H; now right|eauto].
Qed.
Lemma mapo_map {A B C} (f : A -> option B) (g : B -> option C) : forall l l', mapo f l = Some l' ->
  forall h : A -> option C, Forall (fun x => forall y, f x = Some y -> h x = g y) l -> mapo h l = mapo g l'.
Proof.
  intros l l' E h H. apply mapo_Forall2 in E. induction E as [|x y l l' Exy _ IH]; simpl; auto.
  inversion H as [|? ? Hx Hl]; subst. rewrite (Hx y Exy), IH; auto.
Qed.

(** Expressions. *)
Lemma neval_ext n : forall nu nu', (forall v, In v (nvs n) -> nu v = nu' v) -> neval nu n = neval nu' n.
Proof.
  induction n as [v|c|k ns IH] using nop_ind'; intros nu nu' H; simpl in *.
  - f_equal. apply H. now left.
  - reflexivity.
  - rewrite (mapo_ext (neval nu) (neval nu')); auto. rewrite Forall_forall in *. intros n Hn. apply IH; auto.
    intros v Hv. apply H. apply in_flat_map. eauto.
Qed.
Lemma eval_to_expr nu n : eval_expr nu (to_expr n) = neval nu n.
Proof. unfold eval_expr, to_expr. simpl. apply neval_ext. intros v Hv. now apply val_of_in. Qed.

Lemma holds_eq nu v m : eval_expr nu (to_expr m) = Some (nu v) <-> neval nu (NOp KEqual [NVar v; m]) = Some true_val.
Proof.
  rewrite eval_to_expr. simpl. destruct (neval nu m) as [z|]; [|split; discriminate]. unfold true_val. destruct (Z.eqb_spec (nu v) z) as [->|Hn]; split; auto; try discriminate. congruence.
Qed.
Lemma holds_eq' nu v m : eval_expr nu (to_expr m) = Some (nu v) <-> neval nu (NOp KEqual [m; NVar v]) = Some true_val.
Proof.
  rewrite eval_to_expr. simpl. destruct (neval nu m) as [z|]; [|split; discriminate]. unfold true_val. destruct (Z.eqb_spec z (nu v)) as [->|Hn]; split; auto; try discriminate. congruence.
Qed.
Lemma to_oper_cases n :
  (exists v m, n = NOp KEqual [NVar v; m] /\ to_oper n = OEq v (to_expr m)) \/
  (exists v m, n = NOp KEqual [m; NVar v] /\ (forall w, m <> NVar w) /\ to_oper n = OEq v (to_expr m)) \/
  to_oper n = OFilter (to_expr n).
Proof.
  destruct n as [v|c|[|f] ns]; try (right; right; reflexivity).
  destruct ns as [|a [|b [|c ns]]]; try (right; right; destruct a; reflexivity); try (right; right; reflexivity).
  - destruct a as [v|c|k ns]; [left; exists v, b; split; destruct b; reflexivity| |]; (destruct b as [w|c'|k' ns']; [|right; right; reflexivity|right; right; reflexivity]);
      right; left; exists w; eexists; (split; [reflexivity|split; [intros; discriminate|reflexivity]]).
  - right. right. destruct a; destruct b; reflexivity.
Qed.
Lemma holds_to_oper nu n : holds nu (to_oper n) <-> neval nu n = Some true_val.
Proof.
  destruct (to_oper_cases n) as [(v & m & -> & E)|[(v & m & -> & _ & E)| E]]; rewrite E; unfold holds.
  - apply holds_eq.
  - apply holds_eq'.
  - now rewrite eval_to_expr.
Qed.
Lemma op_vars_to_oper n v : In v (op_vars (to_oper n)) <-> In v (nvs n).
Proof.
  destruct (to_oper_cases n) as [(w & m & -> & E)|[(w & m & -> & _ & E)| E]]; rewrite E; simpl; auto; try rewrite app_nil_r; try tauto.
  rewrite in_app_iff. simpl. intuition.
Qed.

(** Terms without anonymous and existential variables. *)
Definition plain_term (t : term) : Prop := has_anon t = false /\ has_ex t = false.
Lemma existsb_false {A} (f : A -> bool) l : existsb f l = false <-> forall x, In x l -> f x = false.
Proof.
  split.
  - intros H x Hx. destruct (f x) eqn:E; auto. rewrite <- H. symmetry. apply existsb_exists. eauto.
  - intros H. destruct (existsb f l) eqn:E; auto. apply existsb_exists in E. destruct E as (x & Hx & Ex). rewrite H in Ex; auto.
Qed.
Lemma plain_op k ts : plain_term (TOp k ts) <-> forall t, In t ts -> plain_term t.
Proof.
  unfold plain_term. simpl. rewrite !existsb_false. split.
  - intros [H1 H2] t Ht. auto.
  - intros H. split; intros t Ht; now apply H.
Qed.

Lemma norm_term_spec t : forall n, norm_term t = Some n -> plain_term t ->
  (forall nu ag, neval nu n = eval nu ag t) /\ forall v, In v (nvs n) <-> In v (uvars t).
Proof.
  induction t as [v| |v|c|k ts IH|f t ds _|ts _] using term_ind'; intros n E Hp; simpl in E; try discriminate;
    try (injection E as <-); try (split; [intros; reflexivity|intros w; simpl; tauto]); try (destruct Hp as [? ?]; discriminate).
  destruct (mapo norm_term ts) as [ns|] eqn:Em; [|discriminate]. injection E as <-. rewrite Forall_forall in IH.
  rewrite plain_op in Hp. split.
  - intros nu ag. simpl. erewrite <- (mapo_map norm_term (neval nu) ts ns Em (eval nu ag)); [reflexivity|].
    apply Forall_forall. intros t Ht n En. symmetry. now apply (IH t Ht n En (Hp t Ht)).
  - intros v. apply mapo_Forall2 in Em. simpl. induction Em as [|t n ts ns Etn _ IHm]; simpl; [tauto|]. rewrite !in_app_iff, IHm.
    + rewrite (proj2 (IH t (or_introl eq_refl) n Etn (Hp t (or_introl eq_refl))) v). tauto.
    + intros u Hu. apply IH. now right.
    + intros; apply Hp. now right.
Qed.
(** Being normalizable does not depend on variables. *)
Fixpoint op_term (t : term) : bool :=
  match t with TAgg _ _ _ | TComplex _ => false | TOp _ ts => forallb op_term ts | _ => true end.
Lemma norm_term_op t : op_term t = true <-> exists n, norm_term t = Some n.
Proof.
  induction t as [v| |v|c|k ts IH|f t ds _|ts _] using term_ind'; simpl; try (split; eauto; fail); try (split; [discriminate|intros (n & E); discriminate]).
  rewrite Forall_forall in IH. split.
  - intros H. rewrite forallb_forall in H. destruct (mapo_total norm_term ts) as (ns & ->); simpl; eauto. intros t Ht. apply IH; auto.
  - intros (n & E). destruct (mapo norm_term ts) as [ns|] eqn:Em; [|discriminate]. apply forallb_forall. intros t Ht. apply IH; auto.
    apply mapo_Forall2 in Em. clear - Em Ht. induction Em as [|a b l l' Hab _ IHm]; [destruct Ht|]. destruct Ht as [<-|Ht]; eauto.
Qed.
Lemma body_term_op safe t : body_term_ok safe t = true -> op_term t = true.
Proof.
  induction t as [v| |v|c|k ts IH|f t ds _|ts _] using term_ind'; simpl; auto. intros H. apply andb_prop in H. destruct H as [_ H].
  rewrite forallb_forall in *. rewrite Forall_forall in IH. auto.
Qed.

(** Aggregates. *)
Lemma aggregating_op k ts : aggregating (TOp k ts) <-> exists t, In t ts /\ aggregating t.
Proof.
  split.
  - intros (f & s & ds & H). inversion H; subst. eexists. split; eauto. eexists; eauto.
  - intros (t & Ht & f & s & ds & H). exists f, s, ds. econstructor; eauto.
Qed.
Lemma op_not_aggregating t : op_term t = true -> ~ aggregating t.
Proof.
  induction t as [v| |v|c|k ts IH|f t ds _|ts _] using term_ind'; simpl; intros H (f' & s & ds' & Ha); try (inversion Ha; fail); try discriminate.
  inversion Ha as [|? ? t Ht Ha']; subst. rewrite forallb_forall in H. rewrite Forall_forall in IH. apply (IH t Ht); auto. exists f', s, ds'. auto.
Qed.
Lemma eval_no_agg nu ag ag' t : ~ aggregating t -> eval nu ag t = eval nu ag' t.
Proof.
  induction t as [v| |v|c|k ts IH|f t ds _|ts _] using term_ind'; simpl; intros H; auto.
  - rewrite (mapo_ext (eval nu ag) (eval nu ag')); auto. rewrite Forall_forall in *. intros t Ht. apply IH; auto.
    intros Ha. apply H. apply aggregating_op. eauto.
  - exfalso. apply H. exists f, t, ds. constructor.
Qed.
Lemma eval_ext t : has_ex t = false -> forall nu nu' ag, (forall v, In v (outer_vars t) -> nu v = nu' v) -> eval nu ag t = eval nu' ag t.
Proof.
  induction t as [v| |v|c|k ts IH|f t ds _|ts _] using term_ind'; simpl; intros He nu nu' ag H; auto; try discriminate.
  - f_equal. auto.
  - rewrite (mapo_ext (eval nu ag) (eval nu' ag)); auto. rewrite Forall_forall in *. intros t Ht. apply IH; auto.
    + rewrite existsb_false in He. auto.
    + intros v Hv. apply H. apply in_flat_map. eauto.
Qed.
Lemma outer_uvars t v : In v (outer_vars t) -> In v (uvars t).
Proof.
  induction t as [w| |w|c|k ts IH|f t ds _|ts _] using term_ind'; simpl; intros H; auto; try tauto.
  apply in_flat_map in H. destruct H as (t & Ht & Hv). apply in_flat_map. exists t. split; auto. rewrite Forall_forall in IH. auto.
Qed.
Lemma uvars_outer t v : op_term t = true -> In v (uvars t) -> In v (outer_vars t).
Proof.
  induction t as [w| |w|c|k ts IH|f t ds _|ts _] using term_ind'; simpl; intros Ho H; auto; try tauto; try discriminate.
  apply in_flat_map in H. destruct H as (t & Ht & Hv). apply in_flat_map. exists t. split; auto. rewrite Forall_forall in IH. rewrite forallb_forall in Ho. auto.
Qed.

Lemma first_some_none {A} (l : list (option A)) : first_some l = None <-> forall x, In x l -> x = None.
Proof.
  induction l as [|[a|] l IH]; simpl; [intuition| |].
  - split; [discriminate|intros H; apply (H (Some a)); auto].
  - rewrite IH. split; [intros H x [<-|Hx]; auto|auto].
Qed.
Lemma first_some_in {A} (l : list (option A)) a : first_some l = Some a -> In (Some a) l.
Proof. induction l as [|[b|] l IH]; simpl; [discriminate| |auto]. intros E. injection E as <-. auto. Qed.

Lemma norm_hterm_spec t : forall n sa, norm_hterm t = Some (n, sa) -> plain_term t ->
  (forall nu, neval nu n = eval nu (Some (nu agg_out)) t) /\
  (forall v, In v (nvs n) <-> In v (outer_vars t) \/ (v = agg_out /\ aggregating t)) /\
  (match sa with None => ~ aggregating t | Some (f, s, ds) => aggregates f s ds t end).
Proof.
  induction t as [v| |v|c|k ts IH|f t ds _|ts _] using term_ind'; intros n sa E Hp; simpl in E; try discriminate;
    try (injection E as <- <-; try (destruct Hp as [? ?]; discriminate)).
  - split; [reflexivity|]. assert (Ha : ~ aggregating (TVar v)) by (intros (f' & s & ds' & H); inversion H). split; [intros w; simpl; tauto|exact Ha].
  - split; [reflexivity|]. assert (Ha : ~ aggregating (TConst c)) by (intros (f' & s & ds' & H); inversion H). split; [intros w; simpl; tauto|exact Ha].
  - destruct (mapo norm_hterm ts) as [l|] eqn:Em; [|discriminate]. injection E as <- <-. rewrite Forall_forall in IH. rewrite plain_op in Hp.
    apply mapo_Forall2 in Em. split; [|split].
    + intros nu. simpl. replace (mapo (neval nu) (map fst l)) with (mapo (eval nu (Some (nu agg_out))) ts); auto.
      induction Em as [|t [n a] ts l Et _ IHm]; simpl; auto. rewrite IHm; [|intros u Hu; apply IH; now right|intros; apply Hp; now right].
      destruct (IH t (or_introl eq_refl) n a Et (Hp t (or_introl eq_refl))) as (E1 & _). rewrite (E1 nu). reflexivity.
    + intros v. rewrite aggregating_op. simpl. induction Em as [|t [n a] ts l Et _ IHm]; simpl.
      * split; [tauto|]. intros [[]|(_ & t & [] & _)].
      * rewrite !in_app_iff, IHm; [|intros u Hu; apply IH; now right|intros; apply Hp; now right].
        destruct (IH t (or_introl eq_refl) n a Et (Hp t (or_introl eq_refl))) as (_ & E2 & _). rewrite (E2 v). split.
        -- intros [[?|(-> & Ha)]|[?|(-> & t' & Ht' & Ha)]]; auto; right; split; auto; eauto.
        -- intros [[?|?]|(-> & t' & [<-|Ht'] & Ha)]; auto. right. right. eauto.
    + assert (Hin : forall t, In t ts -> exists n a, In (n, a) l /\ norm_hterm t = Some (n, a)).
      { clear - Em. induction Em as [|t [n a] ts l Et _ IHm]; intros u Hu; [destruct Hu|]. destruct Hu as [<-|Hu]; [exists n, a; simpl; auto|].
        destruct (IHm u Hu) as (n' & a' & H1 & H2). exists n', a'. simpl; auto. }
      assert (Hin' : forall n a, In (n, a) l -> exists t, In t ts /\ norm_hterm t = Some (n, a)).
      { clear - Em. induction Em as [|t [n a] ts l Et _ IHm]; intros n' a' Hu; [destruct Hu|]. destruct Hu as [Hu|Hu]; [injection Hu as -> ->; exists t; simpl; auto|].
        destruct (IHm n' a' Hu) as (t' & H1 & H2). exists t'. simpl; auto. }
      destruct (first_some (map snd l)) as [[[f s] ds]|] eqn:Ef.
      * apply first_some_in in Ef. apply in_map_iff in Ef. destruct Ef as ([n a] & Ea & Hn). simpl in Ea. subst a.
        destruct (Hin' n _ Hn) as (t & Ht & Et). destruct (IH t Ht n _ Et (Hp t Ht)) as (_ & _ & Ha). econstructor; eauto.
      * intros Ha. apply aggregating_op in Ha. destruct Ha as (t & Ht & Ha). destruct (Hin t Ht) as (n & a & Hl & Et).
        destruct (IH t Ht n a Et (Hp t Ht)) as (_ & _ & Hx). destruct a as [[[f s] ds]|]; [|contradiction].
        assert (Some (f, s, ds) = None) by (apply (proj1 (first_some_none _) Ef); apply in_map_iff; exists (n, Some (f, s, ds)); auto). discriminate.
  - split; [reflexivity|]. split; [|constructor]. intros v. simpl. split; [intros [<-|[]]; right; split; auto; exists f, t, ds; constructor|].
    intros [[]|(-> & _)]. auto.
Qed.

(** Validated head terms. *)
Lemma agg_fold_spec (f : term -> option bool) ts : forall acc b, agg_fold f ts acc = Some b ->
  (forall t, In t ts -> exists c, f t = Some c) /\
  (b = true <-> acc = true \/ exists t, In t ts /\ f t = Some true) /\
  (acc = true -> forall t, In t ts -> f t = Some false) /\
  (forall i j t u, nth_error ts i = Some t -> nth_error ts j = Some u -> f t = Some true -> f u = Some true -> i = j).
Proof.
  induction ts as [|t ts IH]; intros acc b E; simpl in E.
  - injection E as <-. split; [intros t []|]. split; [|split; [intros _ t []|intros [|i] j t u Hi; discriminate]]. split; auto. intros [?|(t & [] & _)]; auto.
  - destruct (f t) as [c|] eqn:Et; [|discriminate]. destruct (c && acc) eqn:Eca; [discriminate|]. destruct (IH _ _ E) as (H1 & H2 & H3 & H4).
    split; [intros u [<-|Hu]; eauto|]. split; [|split].
    + rewrite H2, orb_true_iff. split.
      * intros [[->| ->]|(u & Hu & Eu)]; auto; right; [exists t; simpl; auto|exists u; simpl; auto].
      * intros [->|(u & [<-|Hu] & Eu)]; auto; [left; left; congruence|right; eauto].
    + intros -> u [<-|Hu]; [destruct c; [discriminate|auto]|]. apply H3; auto. now rewrite orb_true_r.
    + assert (Hno : c = true -> forall u, In u ts -> f u = Some false) by (intros ->; apply H3; auto).
      intros [|i] [|j] x y Hi Hj Ex Ey; auto; simpl in Hi, Hj.
      * injection Hi as <-. apply nth_error_In in Hj. rewrite (Hno ltac:(congruence) _ Hj) in Ey. discriminate.
      * injection Hj as <-. apply nth_error_In in Hi. rewrite (Hno ltac:(congruence) _ Hi) in Ex. discriminate.
      * f_equal. eauto.
Qed.
Lemma head_term_spec g t : forall b, head_term_ok g t = Some b ->
  (b = true <-> aggregating t) /\ (b = false -> op_term t = true) /\
  (forall f s ds, aggregates f s ds t -> op_term s = true /\ (forall v, s = TVar v -> ~ In v g) /\
     forall f' s' ds', aggregates f' s' ds' t -> f' = f /\ s' = s /\ ds' = ds).
Proof.
  induction t as [v| |v|c|k ts IH|f t ds IH|ts _] using term_ind'; intros b E.
  1-4: simpl in E; injection E as <-; split; [split; [discriminate|intros (f & s & ds & H); inversion H]|]; split; [reflexivity|intros f s ds H; inversion H].
  - simpl in E. apply agg_fold_spec in E. destruct E as (H1 & H2 & _ & H4). rewrite Forall_forall in IH. split; [|split].
    + rewrite H2, aggregating_op. split.
      * intros [?|(t & Ht & Et)]; [discriminate|]. exists t. split; auto. now apply (IH t Ht true Et).
      * intros (t & Ht & Ha). right. exists t. split; auto. destruct (H1 t Ht) as (c & Ec). destruct (IH t Ht c Ec) as ((_ & Q) & _). rewrite Ec, Q; auto.
    + intros ->. simpl. apply forallb_forall. intros t Ht. destruct (H1 t Ht) as ([|] & Ec).
      * assert (false = true) by (apply H2; right; eauto). discriminate.
      * now apply (IH t Ht false Ec).
    + intros f s ds Ha. inversion Ha as [|? ? t Ht Ha']; subst. destruct (H1 t Ht) as (c & Ec). destruct (IH t Ht c Ec) as (Q1 & _ & Q3). destruct (Q3 f s ds Ha') as (Q4 & Q5 & Q6).
      split; auto. split; auto. intros f' s' ds' Hb. inversion Hb as [|? ? u Hu Hb']; subst.
      destruct (H1 u Hu) as (d & Ed). destruct (IH u Hu d Ed) as (U1 & _ & _).
      assert (Hc : c = true) by (apply Q1; exists f, s, ds; auto). assert (Hd : d = true) by (apply U1; exists f', s', ds'; auto). subst.
      apply In_nth_error in Ht. apply In_nth_error in Hu. destruct Ht as (i & Hi). destruct Hu as (j & Hj).
      assert (i = j) by eauto. subst j. rewrite Hi in Hj. injection Hj as <-. auto.
  - cbn [head_term_ok] in E. destruct (match t with TVar v | TEx v => memv v g | _ => false end) eqn:Eg; [discriminate|].
    apply agg_fold_spec in E. destruct E as (H1 & H2 & H3 & _). assert (Et : head_term_ok g t = Some false) by (apply H3; simpl; auto).
    destruct (IH false Et) as (_ & Q2 & _). split; [split; [intros _; exists f, t, ds; constructor|intros _; apply H2; auto]|].
    split; [intros ->; assert (false = true) by (apply H2; auto); discriminate|].
    intros f' s ds' Ha. inversion Ha; subst. split; auto. split.
    + intros v ->. now apply memv_false.
    + intros f'' s' ds'' Hb. inversion Hb; subst. auto.
  - discriminate.
Qed.

(** Safe variables. *)
Lemma assignment_spec k ts v t : assignment k ts = Some (Some v, t) <-> equates (LOp k ts) v t.
Proof.
  unfold equates. split.
  - destruct k; [|discriminate]. destruct ts as [|a [|b [|c ts]]]; simpl; try discriminate; try (destruct a; discriminate).
    + destruct a; destruct b; try discriminate; intros E; injection E as <- <-; auto; right; (split; [reflexivity|]); repeat split; intros; discriminate.
    + destruct a; destruct b; discriminate.
  - intros [E|(E & H1 & H2 & H3)].
    + injection E as -> ->. destruct t; reflexivity.
    + injection E as -> ->. simpl. destruct t; auto; try congruence.
Qed.

Lemma safe_pass_spec (r : srule) body : forall acc, incl body (s_body r) -> (forall v, In v acc -> safe r v) -> NoDup acc ->
  exists new, safe_pass body acc = acc ++ new /\ NoDup (acc ++ new) /\ (forall v, In v (acc ++ new) -> safe r v) /\
    (new = [] -> forall l v t, In l body -> equates l v t -> has_anon t = false -> has_ex t = false -> incl (uvars t) acc -> In v acc) /\
    length new <= length body.
Proof.
  induction body as [|l body IH]; intros acc Hi Hs Hn.
  - exists []. rewrite app_nil_r. repeat split; auto. intros _ l v t [].
  - assert (Hskip : safe_pass (l :: body) acc = safe_pass body acc ->
        (forall v t, equates l v t -> has_anon t = false -> has_ex t = false -> incl (uvars t) acc -> In v acc) ->
        exists new, safe_pass (l :: body) acc = acc ++ new /\ NoDup (acc ++ new) /\ (forall v, In v (acc ++ new) -> safe r v) /\
          (new = [] -> forall l' v t, In l' (l :: body) -> equates l' v t -> has_anon t = false -> has_ex t = false -> incl (uvars t) acc -> In v acc) /\
          length new <= length (l :: body)).
    { intros E He. rewrite E. destruct (IH acc) as (new & E' & N1 & N2 & N3 & N4); auto. { intros x Hx. apply Hi. now right. }
      exists new. rewrite E'. repeat split; auto. 2:{ simpl. lia. } intros -> l' v t [<-|Hl]; eauto. }
    destruct l as [p ts|p ts|k ts].
    1,2: apply Hskip; auto; intros v' t' [E|(E & _)] _ _ _; discriminate E.
    destruct (assignment k ts) as [[[v|] t]|] eqn:Ea.
    2,3: apply Hskip; auto; [simpl; rewrite Ea; reflexivity|]; intros v' t' He; apply assignment_spec in He; congruence.
    simpl. rewrite Ea. destruct (negb (has_anon t) && negb (has_ex t) && inclb (uvars t) acc && negb (memv v acc)) eqn:Ec.
    + apply andb_prop in Ec. destruct Ec as [Ec E4]. apply andb_prop in Ec. destruct Ec as [Ec E3]. apply andb_prop in Ec. destruct Ec as [E1 E2].
      apply negb_true_iff in E1, E2, E4. apply inclb_incl in E3. apply memv_false in E4.
      assert (Hsv : safe r v).
      { apply (safe_eq r (LOp k ts) v t); [apply Hi; now left|now apply assignment_spec|auto|auto|auto]. }
      destruct (IH (acc ++ [v])) as (new & E' & N1 & N2 & N3 & N4).
      { intros x Hx. apply Hi. now right. }
      { intros w Hw. apply in_app_iff in Hw. destruct Hw as [?|[<-|[]]]; auto. }
      { apply NoDup_app'; auto; [repeat constructor; auto|]. intros w Hw [<-|[]]. auto. }
      exists (v :: new). rewrite E', <- app_assoc. simpl. rewrite <- app_assoc in N1, N2. simpl in N1, N2.
      repeat split; auto; [discriminate|simpl in *; lia].
    + pose proof Hskip as Hk. simpl in Hk. rewrite Ea, Ec in Hk. apply Hk; auto. intros v' t' He H1 H2 H3.
      apply assignment_spec in He. rewrite Ea in He. injection He as <- <-. rewrite H1, H2 in Ec. simpl in Ec.
      apply inclb_incl in H3. rewrite H3 in Ec. simpl in Ec. apply negb_false_iff in Ec. now apply memv_in.
Qed.

(** The number of variables that can still be added. *)
Definition targets (body : list literal) : list var :=
  flat_map (fun l => match l with LOp k ts => match assignment k ts with Some (Some v, _) => [v] | _ => [] end | _ => [] end) body.
Lemma safe_pass_targets body : forall acc, exists new, safe_pass body acc = acc ++ new /\ incl new (targets body).
Proof.
  induction body as [|l body IH]; intros acc; simpl; [exists []; rewrite app_nil_r; split; auto; intros x []|].
  assert (Hsk : forall x, exists new, safe_pass body x = x ++ new /\ incl new (targets (l :: body))).
  { intros x. destruct (IH x) as (new & E & Hi). exists new. split; auto. intros w Hw. unfold targets. simpl. apply in_or_app. right. auto. }
  destruct l as [p ts|p ts|k ts]; try exact (Hsk acc). destruct (assignment k ts) as [[[v|] t]|] eqn:Ea; unfold targets in Hsk; simpl in Hsk; rewrite Ea in Hsk; try exact (Hsk acc).
  destruct (_ && _); try exact (Hsk acc). destruct (Hsk (acc ++ [v])) as (new & E & Hi). exists (v :: new). rewrite E, <- app_assoc. split; auto.
  intros w [<-|Hw]; [now left|]. exact (Hi w Hw).
Qed.
Lemma targets_length body : length (targets body) <= length body.
Proof. induction body as [|[p ts|p ts|k ts] b IH]; simpl; try lia. unfold targets. simpl. fold (targets b). destruct (assignment k ts) as [[[v|] t]|]; simpl; lia. Qed.

Lemma safe_loop_spec (r : srule) : forall fuel base new, NoDup (base ++ new) -> (forall v, In v (base ++ new) -> safe r v) ->
  (forall v, In v (positive_vars (s_body r)) -> In v base) -> incl new (targets (s_body r)) ->
  length (targets (s_body r)) < fuel + length new ->
  exists l, safe_loop fuel (s_body r) (base ++ new) = Some l /\ forall v, In v l <-> safe r v.
Proof.
  induction fuel as [|fuel IH]; intros base new Hn Hs Hp Ht Hf.
  - exfalso. assert (length new <= length (targets (s_body r))).
    { apply NoDup_incl_length; auto. clear - Hn. induction base; auto. inversion Hn; auto. }
    lia.
  - simpl. destruct (safe_pass_spec r (s_body r) (base ++ new) (incl_refl _) Hs Hn) as (nw & E & N1 & N2 & N3 & N4).
    rewrite E, app_length. destruct (Nat.eqb_spec (length (base ++ new) + length nw) (length (base ++ new))) as [El|El].
    + exists (base ++ new). split; auto. assert (nw = []) by (destruct nw; auto; simpl in El; lia). subst nw. intros v. split; auto.
      intros Hv. induction Hv as [p ts v Hi Ha|l v t Hi He H1 H2 _ IHv].
      * apply in_or_app. left. apply Hp. unfold positive_vars. apply in_flat_map. exists (LPos p ts). split; auto. apply in_flat_map. exists (TVar v). simpl; auto.
      * eapply N3; eauto.
    + rewrite <- app_assoc. apply IH; auto.
      * now rewrite app_assoc.
      * now rewrite app_assoc.
      * destruct (safe_pass_targets (s_body r) (base ++ new)) as (nw' & E' & Hi). rewrite E in E'. apply app_inv_head in E'. subst nw'. intros w Hw. apply in_app_iff in Hw. destruct Hw; auto.
      * rewrite app_length. destruct nw; simpl in *; lia.
Qed.
Lemma safe_variables_spec r : exists l, safe_variables r = Some l /\ forall v, In v l <-> safe r v.
Proof.
  unfold safe_variables. rewrite <- (app_nil_r (nodup Nat.eq_dec (positive_vars (s_body r)))). apply safe_loop_spec.
  - rewrite app_nil_r. apply NoDup_nodup.
  - intros v Hv. rewrite app_nil_r in Hv. apply nodup_In in Hv. unfold positive_vars in Hv. apply in_flat_map in Hv. destruct Hv as ([p ts|p ts|k ts] & Hl & Hv); try destruct Hv.
    apply in_flat_map in Hv. destruct Hv as (t & Ht & Hv). destruct t; try destruct Hv; try contradiction. subst. econstructor; eauto.
  - intros v Hv. now apply nodup_In.
  - intros v [].
  - simpl. pose proof (targets_length (s_body r)). lia.
Qed.
