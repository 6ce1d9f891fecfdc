(** Scheduling of functions, filters and negation; the body node. *)
From Coq Require Import List Arith ZArith Bool Lia Permutation.
From Verif Require Import TableModel EngineModel EngineSpec EngineProofs1 EngineProofs2.
Import ListNotations.

Definition to_op (ve : var * expr) : oper := OEq (fst ve) (snd ve).
Definition kept (ops : list (bool * oper)) : list oper := map snd (filter fst ops).

Lemma fun_ok_app vs fs1 : forall fs2, fun_ok vs fs1 -> fun_ok (vs ++ map fst fs1) fs2 -> fun_ok vs (fs1 ++ fs2).
Proof.
  revert vs. induction fs1 as [|[v e] fs1 IH]; simpl; intros vs fs2 H1 H2; [now rewrite app_nil_r in H2|].
  destruct H1 as (Ha & Hb & Hc). repeat split; auto. apply IH; auto. now rewrite <- app_assoc.
Qed.

Lemma fn_pass_spec ops : forall vs ops' vs' fs, fn_pass ops vs = (ops', vs', fs) ->
  vs' = vs ++ map fst fs /\ fun_ok vs fs /\
  Permutation (kept ops) (map to_op fs ++ kept ops') /\
  (fs = [] -> forall v e, In (OEq v e) (kept ops') -> In v vs \/ ~ incl (e_vars e) vs).
Proof.
  induction ops as [|[k o] rest IH]; intros vs ops' vs' fs H; simpl in H.
  - injection H as <- <- <-. rewrite app_nil_r. repeat split; auto; try (intros _ v e []).
  - assert (Hdef : forall ops1 vs1 fs1, fn_pass rest vs = (ops1, vs1, fs1) ->
       (k = true -> forall v e, o = OEq v e -> In v vs \/ ~ incl (e_vars e) vs) ->
       ops' = (k, o) :: ops1 -> vs' = vs1 -> fs = fs1 ->
       vs' = vs ++ map fst fs /\ fun_ok vs fs /\ Permutation (kept ((k, o) :: rest)) (map to_op fs ++ kept ops') /\
       (fs = [] -> forall v e, In (OEq v e) (kept ops') -> In v vs \/ ~ incl (e_vars e) vs)).
    { intros ops1 vs1 fs1 E Hk -> -> ->. destruct (IH _ _ _ _ E) as (H1 & H2 & H3 & H4). repeat split; auto.
      - unfold kept in *. simpl. destruct k; simpl; auto. apply Permutation_cons_app. exact H3.
      - intros Hf v e Hin. unfold kept in *. simpl in Hin. destruct k; simpl in Hin; [|apply H4; auto].
        destruct Hin as [->|Hin]; [|apply H4; auto]. eapply Hk; eauto. }
    destruct k; [destruct o as [v e|e]|].
    + destruct (memv v vs) eqn:Ev.
      * destruct (fn_pass rest vs) as [[ops1 vs1] fs1] eqn:E. injection H as <- <- <-. eapply Hdef; eauto.
        intros _ v0 e0 H0. injection H0 as <- <-. left. now apply memv_in.
      * destruct (inclb (e_vars e) vs) eqn:Ei.
        -- destruct (fn_pass rest (vs ++ [v])) as [[ops1 vs1] fs1] eqn:E. injection H as <- <- <-.
           destruct (IH _ _ _ _ E) as (H1 & H2 & H3 & H4). simpl. repeat split.
           ++ rewrite H1, <- app_assoc. reflexivity.
           ++ now apply memv_false.
           ++ now apply inclb_incl.
           ++ exact H2.
           ++ unfold kept in *. simpl. constructor. exact H3.
           ++ discriminate.
        -- destruct (fn_pass rest vs) as [[ops1 vs1] fs1] eqn:E. injection H as <- <- <-. eapply Hdef; eauto.
           intros _ v0 e0 H0. injection H0 as <- <-. right. intros Hc. apply inclb_incl in Hc. congruence.
    + destruct (fn_pass rest vs) as [[ops1 vs1] fs1] eqn:E. injection H as <- <- <-. eapply Hdef; eauto. intros _ v0 e0 H0. discriminate.
    + destruct (fn_pass rest vs) as [[ops1 vs1] fs1] eqn:E. injection H as <- <- <-. eapply Hdef; eauto. discriminate.
Qed.

Lemma fn_loop_spec fuel : forall ops vs, length (kept ops) < fuel ->
  exists ops' vs' fs, fn_loop fuel ops vs = Some (ops', vs', fs) /\
   vs' = vs ++ map fst fs /\ fun_ok vs fs /\ Permutation (kept ops) (map to_op fs ++ kept ops') /\
   (forall v e, In (OEq v e) (kept ops') -> In v vs' \/ ~ incl (e_vars e) vs').
Proof.
  induction fuel as [|f IH]; intros ops vs Hl; [lia|]. simpl.
  destruct (fn_pass ops vs) as [[ops1 vs1] fs1] eqn:E.
  destruct (fn_pass_spec _ _ _ _ _ E) as (H1 & H2 & H3 & H4).
  destruct (Nat.eqb_spec (length vs1) (length vs)) as [Hn|Hn].
  - assert (fs1 = []) as ->. { rewrite H1, app_length, map_length in Hn. destruct fs1; auto. simpl in Hn. lia. }
    exists ops1, vs1, []. repeat split; auto. subst vs1. simpl. rewrite app_nil_r. auto.
  - assert (Hf : fs1 <> []). { intros ->. apply Hn. rewrite H1. simpl. now rewrite app_nil_r. }
    destruct (IH ops1 vs1) as (ops2 & vs2 & fs2 & -> & H5 & H6 & H7 & H8).
    { apply Permutation_length in H3. rewrite app_length, map_length in H3. destruct fs1; [tauto|]. simpl in H3. lia. }
    exists ops2, vs2, (fs1 ++ fs2). split; auto. split; [|split; [|split]]; auto.
    + rewrite H5, H1, map_app, app_assoc. reflexivity.
    + apply fun_ok_app; auto. now rewrite <- H1.
    + rewrite H3, H7, map_app, app_assoc. reflexivity.
Qed.

Lemma kept_all ops : kept (map (fun o => (true, o)) ops) = ops.
Proof. unfold kept. induction ops; simpl; auto. now rewrite IHops. Qed.

Theorem gen_function_spec vs ops :
  exists vs' fs rest, gen_function vs ops = Some (vs', fs, rest) /\
   vs' = vs ++ map fst fs /\ fun_ok vs fs /\ Permutation ops (map to_op fs ++ rest) /\
   (forall v e, In (OEq v e) rest -> In v vs' \/ ~ incl (e_vars e) vs').
Proof.
  unfold gen_function.
  destruct (fn_loop_spec (S (length ops)) (map (fun o => (true, o)) ops) vs) as (ops' & vs' & fs & -> & H1 & H2 & H3 & H4).
  { rewrite kept_all. lia. }
  rewrite kept_all in H3. exists vs', fs, (kept ops'). auto.
Qed.

Lemma gen_filter_spec vs ops fs rest : gen_filter vs ops = (fs, rest) ->
  Permutation ops (fs ++ rest) /\ (forall o, In o fs <-> In o ops /\ incl (op_vars o) vs) /\
  (forall o, In o rest <-> In o ops /\ ~ incl (op_vars o) vs).
Proof.
  unfold gen_filter. revert fs rest. induction ops as [|o ops IH]; simpl; intros fs rest H.
  - injection H as <- <-. simpl. split; auto. split; intros; tauto.
  - destruct (partition _ ops) as [f1 r1]. destruct (IH _ _ eq_refl) as (H1 & H2 & H3).
    destruct (inclb (op_vars o) vs) eqn:E; injection H as <- <-.
    + apply inclb_incl in E. split; [simpl; now constructor|]. split; intros o'; simpl; rewrite ?H2, ?H3.
      * split; [intros [->|?]; tauto|]. intros [[->|?] ?]; tauto.
      * split; [tauto|]. intros [[->|?] ?]; tauto.
    + assert (En : ~ incl (op_vars o) vs) by (intros Hc; apply inclb_incl in Hc; congruence).
      split; [now apply Permutation_cons_app|]. split; intros o'; simpl; rewrite ?H2, ?H3.
      * split; [tauto|]. intros [[->|?] ?]; tauto.
      * split; [intros [->|?]; tauto|]. intros [[->|?] ?]; tauto.
Qed.

(** Bound variables are the variables of the function generator's output. *)
Lemma fun_ok_bound (P : var -> Prop) ops vs fs : fun_ok vs fs ->
  (forall v, In v vs -> P v) ->
  (forall v e, In (v, e) fs -> In (OEq v e) ops) ->
  (forall v e, In (OEq v e) ops -> (forall w, In w (e_vars e) -> P w) -> P v) ->
  forall v, In v (vs ++ map fst fs) -> P v.
Proof.
  revert vs. induction fs as [|[v e] fs IH]; simpl; intros vs Hok Hvs Hin Hcl; [rewrite app_nil_r; auto|].
  destruct Hok as (H1 & H2 & H3). intros w Hw.
  apply (IH (vs ++ [v])); auto.
  - intros x Hx. apply in_app_iff in Hx. destruct Hx as [Hx|[<-|[]]]; auto.
    apply (Hcl v e); auto. 
  - rewrite <- app_assoc. exact Hw.
Qed.

Lemma gen_function_bound r order vs' fs rest : incl (atom_vars (r_pos r)) order ->
  gen_function (restrict order (atom_vars (r_pos r))) (r_ops r) = Some (vs', fs, rest) ->
  forall v, In v vs' <-> bound r v.
Proof.
  intros Hi H. destruct (gen_function_spec (restrict order (atom_vars (r_pos r))) (r_ops r)) as (a & b & c & E & H1 & H2 & H3 & H4).
  rewrite H in E. injection E as <- <- <-.
  assert (Hr : forall v, In v (restrict order (atom_vars (r_pos r))) <-> In v (atom_vars (r_pos r))).
  { intros v. rewrite restrict_in. split; [tauto|]. intros Hv. split; auto. }
  intros v. split.
  - rewrite H1. apply (fun_ok_bound (bound r) (r_ops r) _ _ H2).
    + intros w Hw. constructor. now apply Hr.
    + intros w e Hw. apply (Permutation_in _ (Permutation_sym H3)), in_app_iff. left.
      apply in_map_iff. exists (w, e). auto.
    + intros w e Hw Hb. apply (bound_eq r w e); auto.
  - induction 1 as [v Hv|v e Hin _ IH].
    + rewrite H1. apply in_app_iff. left. now apply Hr.
    + apply (Permutation_in _ H3), in_app_iff in Hin. destruct Hin as [Hin|Hin].
      * apply in_map_iff in Hin. destruct Hin as ([w e'] & Heq & Hin). injection Heq as -> ->.
        rewrite H1. apply in_app_iff. right. apply in_map_iff. exists (v, e). auto.
      * destruct (H4 v e Hin) as [?|Hn]; auto. exfalso. apply Hn. exact IH.
Qed.

(** Negation: every operation with an unbound variable is used by the atom that contains this variable. *)
Lemma gen_negation_spec pvs atoms : forall ops l rest ops', gen_negation pvs atoms ops = (l, rest, ops') ->
  (forall i j a b v, nth_error atoms i = Some a -> nth_error atoms j = Some b -> i <> j -> In v (snd a) -> In v (snd b) -> In v pvs) ->
  (forall o, In o ops -> ~ incl (op_vars o) pvs) ->
  (exists used, Permutation ops (used ++ ops')) /\
  (forall a fs pv, In (a, fs, pv) l -> In a atoms /\ (exists v, In v (snd a) /\ In v pvs) /\
       (forall o, In o fs <-> In o ops /\ incl (op_vars o) (pvs ++ snd a)) /\
       pv = filter (fun v => memv v (snd a)) pvs) /\
  (forall a, In a atoms -> (exists v, In v (snd a) /\ In v pvs) -> exists fs pv, In (a, fs, pv) l) /\
  (forall o, In o ops' <-> In o ops /\ forall a, In a atoms -> (exists v, In v (snd a) /\ In v pvs) -> ~ incl (op_vars o) (pvs ++ snd a)).
Proof.
  induction atoms as [|a atoms IH]; simpl; intros ops l rest ops' H Hn Hu.
  - injection H as <- <- <-. split; [exists []; reflexivity|]. split; [intros ? ? ? []|]. split; [intros ? []|].
    intros o. split; [intros Ho; split; auto; intros ? []|tauto].
  - assert (Hn' : forall i j a b v, nth_error atoms i = Some a -> nth_error atoms j = Some b -> i <> j -> In v (snd a) -> In v (snd b) -> In v pvs).
    { intros i j a0 b v Hi Hj Hij. apply (Hn (S i) (S j)); auto. }
    destruct (forallb (fun v => negb (memv v pvs)) (snd a)) eqn:E.
    + destruct (gen_negation pvs atoms ops) as [[l1 r1] o1] eqn:E1. injection H as <- <- <-.
      destruct (IH _ _ _ _ E1) as (H1 & H2 & H3 & H4); auto.
      assert (Hno : forall v, In v (snd a) -> ~ In v pvs).
      { rewrite forallb_forall in E. intros v Hv. specialize (E v Hv). rewrite negb_true_iff in E. now apply memv_false. }
      split; auto. split; [|split].
      * intros b fs pv Hb. destruct (H2 b fs pv Hb) as (Q1 & Q2). auto.
      * intros b [<-|Hb] Hs; auto. exfalso. destruct Hs as (v & Hv & Hp). now apply (Hno v).
      * intros o. rewrite H4. split; intros [Ho Hf]; split; auto. intros b [<-|Hb] Hs; auto.
        exfalso. destruct Hs as (v & Hv & Hp). now apply (Hno v).
    + destruct (gen_filter (pvs ++ snd a) ops) as [fs ops1] eqn:Ef.
      destruct (gen_filter_spec _ _ _ _ Ef) as (Hp & Hf & Hr).
      destruct (gen_negation pvs atoms ops1) as [[l1 r1] o1] eqn:E1. injection H as <- <- <-.
      destruct (IH _ _ _ _ E1) as (H1 & H2 & H3 & H4); auto.
      { intros o Ho. apply Hr in Ho. apply Hu. tauto. }
      assert (Hyes : exists v, In v (snd a) /\ In v pvs).
      { assert (Hx : ~ forall v, In v (snd a) -> negb (memv v pvs) = true) by (intros Hc; rewrite <- forallb_forall in Hc; congruence).
        clear - Hx. induction (snd a) as [|v l IH]; [exfalso; apply Hx; intros ? []|].
        destruct (in_dec Nat.eq_dec v pvs) as [Hi|Hi]; [exists v; auto|].
        destruct IH as (w & Hw & Hp); [|exists w; auto]. intros Hc. apply Hx. intros w [<-|Hw]; auto.
        rewrite negb_true_iff. now apply memv_false. }
      assert (Hsep : forall o b, In o ops -> In b atoms -> incl (op_vars o) (pvs ++ snd a) -> ~ incl (op_vars o) (pvs ++ snd b)).
      { intros o b Ho Hb Ha Hc. apply (Hu o Ho). intros v Hv. specialize (Ha v Hv). specialize (Hc v Hv).
        apply in_app_iff in Ha. apply in_app_iff in Hc. destruct Ha as [?|Ha]; auto. destruct Hc as [?|Hc]; auto.
        apply In_nth_error in Hb. destruct Hb as (j & Hj). apply (Hn 0 (S j) a b v); auto. }
      split; [|split; [|split]].
      * destruct H1 as (used & H1). exists (fs ++ used). rewrite Hp, H1. now rewrite app_assoc.
      * intros b fs0 pv [Heq|Hb].
        -- injection Heq as <- <- <-. auto.
        -- destruct (H2 b fs0 pv Hb) as (Q1 & Q2 & Q3 & Q4). split; auto. split; auto. split; auto.
           intros o. rewrite Q3, Hr. split; [tauto|]. intros [Ho Hi]. split; auto. split; auto. intros Hc. now apply (Hsep o b).
      * intros b [<-|Hb] Hs; [exists fs, (filter (fun v => memv v (snd a)) pvs); auto|].
        destruct (H3 b Hb Hs) as (fs0 & pv & Hi). exists fs0, pv. auto.
      * intros o. rewrite H4, Hr. split.
        -- intros [[Ho Hi] Hx]. split; auto. intros b [<-|Hb]; auto.
        -- intros [Ho Hx]. split; [split; auto|]. intros b Hb. apply Hx. auto.
Qed.

Lemma mapM_forall {A B} (f : A -> option B) l ns : mapM f l = Some ns ->
  (forall x, In x l -> exists y, f x = Some y /\ In y ns) /\ (forall y, In y ns -> exists x, In x l /\ f x = Some y).
Proof.
  revert ns. induction l as [|x l IH]; simpl; intros ns H.
  - injection H as <-. split; [intros ? []|intros ? []].
  - destruct (f x) as [y|] eqn:E; [|discriminate]. destruct (mapM f l) as [ys|]; [|discriminate]. injection H as <-.
    destruct (IH ys eq_refl) as [H1 H2]. split.
    + intros z [<-|Hz]; [exists y; auto|]. destruct (H1 z Hz) as (w & Hw & Hi). exists w. auto.
    + intros w [<-|Hw]; [exists x; auto|]. destruct (H2 w Hw) as (z & Hz & Hf). exists z. auto.
Qed.

Definition upto (D : tag -> nat -> row -> Prop) (cur : nat) : interp := fun p r => exists s, s < cur /\ D p s r.

Section Body.
Context (rd : reader) (D : tag -> nat -> row -> Prop) (Hrd : rd_ok rd D).

Lemma negation_node_spec n pvs negs (atoms : list atom) ops cur last n' :
  wfn n -> nvars n = pvs ->
  (forall a, In a atoms -> NoDup (snd a)) ->
  (forall a fs pv, In (a, fs, pv) negs -> In a atoms /\ (exists v, In v (snd a) /\ In v pvs) /\
       (forall o, In o fs <-> In o ops /\ incl (op_vars o) (pvs ++ snd a)) /\
       pv = filter (fun v => memv v (snd a)) pvs) ->
  (forall a, In a atoms -> (exists v, In v (snd a) /\ In v pvs) -> exists fs pv, In (a, fs, pv) negs) ->
  negation_node rd n negs cur last = Some n' ->
  nvars n' = pvs /\ wfn n' /\
  forall nu, msat nu n' <-> msat nu n /\
    forall a, In a atoms -> (exists v, In v (snd a) /\ In v pvs) ->
      ~ exists nu', (forall v, In v pvs -> nu' v = nu v) /\ upto D cur (fst a) (map nu' (snd a)) /\
          forall o, In o ops -> incl (op_vars o) (pvs ++ snd a) -> holds nu' o.
Proof.
  intros Hw Hv Hnd Hnegs Hall H. unfold negation_node in H.
  match type of H with option_map _ (mapM ?f negs) = _ => set (F := f) in H end.
  destruct (mapM F negs) as [subs|] eqn:E; [|discriminate]. injection H as <-.
  destruct (mapM_forall _ _ _ E) as [E1 E2].
  assert (Hsub : forall a fs pv s, In (a, fs, pv) negs -> F (a, fs, pv) = Some s ->
             incl (nvars s) pvs /\ forall nu, msat nu s <->
               exists nu', (forall v, In v pvs -> nu' v = nu v) /\ upto D cur (fst a) (map nu' (snd a)) /\
                 forall o, In o ops -> incl (op_vars o) (pvs ++ snd a) -> holds nu' o).
  { intros a fs pv s Hin Hs. destruct (Hnegs a fs pv Hin) as (Ha & Hsh & Hfs & ->). unfold F in Hs.
    destruct (atom_node_spec rd D Hrd a RAll cur last (Hnd a Ha)) as (na & Ena & H1 & H2 & H3). rewrite Ena in Hs. simpl in Hs.
    destruct (filter_node na fs) as [nf|] eqn:Enf; [|discriminate].
    destruct (filter_spec _ _ _ Enf H2) as (K1 & K2 & K3 & K4).
    destruct (project_spec _ _ _ Hs K2) as (H4 & H5 & H6 & H7).
    { apply NoDup_filter. rewrite <- Hv. apply Hw. }
    split. { rewrite H4. intros v Hf. apply filter_In in Hf. tauto. }
    intros nu. rewrite H7. split.
    - intros (nu' & Hag & Hs'). exists (fun v => if in_dec Nat.eq_dec v pvs then nu v else nu' v).
      assert (Hsame : forall v, In v (snd a) -> nu' v = (if in_dec Nat.eq_dec v pvs then nu v else nu' v)).
      { intros v Hva. destruct (in_dec Nat.eq_dec v pvs) as [Hi|Hi]; auto. apply Hag. apply filter_In. split; auto. now apply memv_in. }
      apply K4 in Hs'. destruct Hs' as [Hs' Hops]. split; [|split].
      + intros v Hvp. destruct (in_dec Nat.eq_dec v pvs); tauto.
      + apply H3 in Hs'. destruct Hs' as (t & Ht & Hd). exists t. unfold in_range in Ht. simpl in Ht. split; [lia|].
        erewrite map_ext_in; [exact Hd|]. intros v Hva. simpl. symmetry. auto.
      + intros o Ho Hi. assert (Hof : In o fs) by (apply Hfs; auto). rewrite <- (holds_ext nu'); auto.
        intros v Hvo. apply Hsame. rewrite <- H1. apply (K3 o Hof v Hvo).
    - intros (nu' & Hag & (t & Ht & Hd) & Hops). exists nu'. split.
      + intros v Hf. apply filter_In in Hf. apply Hag. tauto.
      + apply K4. split.
        * apply H3. exists t. split; auto. unfold in_range. simpl. lia.
        * intros o Ho. apply Hfs in Ho. apply Hops; tauto. }
  assert (Hin : forall s, In s subs -> exists a fs pv, In (a, fs, pv) negs /\ F (a, fs, pv) = Some s).
  { intros s Hs. destruct (E2 s Hs) as ([[a fs] pv] & Hi & Hf). eauto. }
  destruct (subtract_spec n subs Hw) as (G1 & G2 & G3).
  { intros s Hs. destruct (Hin s Hs) as (a & fs & pv & Ha & Hf). rewrite Hv. now apply (Hsub a fs pv s). }
  split; [now rewrite G1|]. split; auto. intros nu. rewrite G3. split; intros [Hn Hx]; split; auto.
  - intros a Ha Hsh. destruct (Hall a Ha Hsh) as (fs & pv & Hi). destruct (E1 (a, fs, pv) Hi) as (s & Hs & His).
    destruct (Hsub a fs pv s Hi Hs) as [_ Hm]. rewrite <- Hm. auto.
  - intros s Hs. destruct (Hin s Hs) as (a & fs & pv & Hi & Hf). destruct (Hsub a fs pv s Hi Hf) as [_ Hm]. rewrite Hm.
    destruct (Hnegs a fs pv Hi) as (Ha & Hsh & _). auto.
Qed.

Lemma matches_ext r I M nu nu' : (forall v, bound r v -> nu v = nu' v) -> matches r I M nu -> matches r I M nu'.
Proof.
  intros He [H1 H2 H3]. constructor.
  - intros p xs Hp. rewrite <- (map_ext_in nu nu'); auto. intros v Hv. apply He. constructor. apply in_flat_map. exists (p, xs). auto.
  - intros o Ho. rewrite <- (holds_ext nu nu'); auto. intros v Hv. apply He. now apply Ho.
  - intros p xs Hp (nu2 & Hag & Hm). apply (H3 p xs Hp). exists nu2. split; auto. intros v Hv. rewrite Hag, He; auto.
Qed.

Theorem body_node_spec r cur last n ops : wf_rule r -> last <= cur ->
  body_node rd r cur last = Some (n, ops) ->
  wfn n /\ (forall v, In v (nvars n) <-> bound r v) /\
  (forall o, In o ops <-> agg_op r o) /\ (exists l, Permutation (r_ops r) (l ++ ops)) /\
  forall nu, msat nu n <-> matches r (upto D cur) (upto D cur) nu /\
     (r_pos r = [] \/ exists p xs s, In (p, xs) (r_pos r) /\ last <= s < cur /\ D p s (map nu xs)).
Proof.
  intros Hwf Hle H. unfold body_node in H.
  destruct (wf_order r Hwf) as [Hond Hoincl].
  destruct (seminaive_spec rd D Hrd true (r_pos r) (r_order r) cur last) as (j & Ej & J1 & J2 & J3); auto.
  { intros [p xs] Ha. apply (wf_atoms r Hwf p). apply in_app_iff. auto. }
  rewrite Ej in H.
  destruct (gen_function (restrict (r_order r) (atom_vars (r_pos r))) (r_ops r)) as [[[vs fns] ops1]|] eqn:Eg; [|discriminate].
  pose proof (gen_function_bound r (r_order r) vs fns ops1 Hoincl Eg) as Hb.
  destruct (gen_function_spec (restrict (r_order r) (atom_vars (r_pos r))) (r_ops r)) as (a' & b' & c' & E' & F1 & F2 & F3 & F4).
  rewrite Eg in E'. injection E' as <- <- <-.
  destruct (gen_filter vs ops1) as [fs ops2] eqn:Ef. destruct (gen_filter_spec _ _ _ _ Ef) as (P1 & P2 & P3).
  destruct (gen_negation vs (r_neg r) ops2) as [[negs rest] ops3] eqn:En.
  destruct (gen_negation_spec _ _ _ _ _ _ En) as (N0 & N1 & N2 & N3).
  { intros i k [p xs] [q ys] v Hi Hk Hik Hv1 Hv2. apply Hb. apply (wf_neg_local r Hwf i k p xs q ys v); auto. }
  { intros o Ho. apply P3 in Ho. tauto. }
  assert (Wj : wfn (mkNode (nvars j) (nrows j))) by (destruct j; exact J2).
  assert (F2' : fun_ok (nvars j) fns) by now rewrite J1.
  destruct (fun_node_spec fns (nvars j) (nrows j) Wj F2') as (Q1 & Q2 & Q3).
  destruct (filter_node (fun_node (nvars j) fns (nrows j)) fs) as [nf|] eqn:Efn; [|discriminate].
  destruct (filter_spec _ _ _ Efn Q2) as (R1 & R2 & R3 & R4).
  destruct (negation_node rd nf negs cur last) as [n1|] eqn:Enn; [|discriminate]. injection H as <- <-.
  assert (Hvs : nvars nf = vs). { rewrite R1, Q1, J1. symmetry. exact F1. }
  destruct (negation_node_spec nf vs negs (r_neg r) ops2 cur last n1) as (S1 & S2 & S3); auto.
  { intros [p xs] Ha. apply (wf_atoms r Hwf p). apply in_app_iff. auto. }
  assert (Hbody : forall o, body_op r o <-> (exists v e, o = OEq v e /\ In (v, e) fns) \/ In o fs).
  { intros o. split.
    - intros [Ho Hob]. apply (Permutation_in _ F3), in_app_iff in Ho. destruct Ho as [Ho|Ho].
      + apply in_map_iff in Ho. destruct Ho as ([v e] & <- & Ho). left. exists v, e. auto.
      + right. apply P2. split; auto. intros v Hv. apply Hb. auto.
    - intros [(v & e & -> & Hin)|Hin].
      + split. { apply (Permutation_in _ (Permutation_sym F3)), in_app_iff. left. apply in_map_iff. exists (v, e). auto. }
        assert (Hx : forall vs0 fs0, fun_ok vs0 fs0 -> In (v, e) fs0 -> incl (v :: e_vars e) (vs0 ++ map fst fs0)).
        { clear. intros vs0 fs0. revert vs0. induction fs0 as [|[w f] fs0 IH]; simpl; intros vs0 H Hi; [tauto|].
          destruct H as (H1 & H2 & H3). destruct Hi as [Heq|Hi].
          - injection Heq as -> ->. intros x [<-|Hx]; apply in_app_iff; simpl; auto.
          - specialize (IH _ H3 Hi). rewrite <- app_assoc in IH. exact IH. }
        intros w Hw. apply Hb. rewrite F1. apply (Hx _ _ F2 Hin). exact Hw.
      + apply P2 in Hin. destruct Hin as [Hin Hincl]. split.
        { apply (Permutation_in _ (Permutation_sym F3)), in_app_iff. auto. }
        intros w Hw. apply Hb. auto. }
  assert (Hleft : forall o, In o ops2 <-> In o (r_ops r) /\ ~ body_op r o).
  { intros o. rewrite P3. split.
    + intros [Ho Hni]. split. { apply (Permutation_in _ (Permutation_sym F3)), in_app_iff. auto. }
      intros [_ Hc]. apply Hni. intros v Hv. apply Hb. auto.
    + intros [Ho Hnb]. assert (Hni : ~ incl (op_vars o) vs).
      { intros Hc. apply Hnb. split; auto. intros w Hw. apply Hb. auto. }
      split; auto. apply (Permutation_in _ F3), in_app_iff in Ho. destruct Ho as [Ho|Ho]; auto.
      exfalso. apply Hnb. apply Hbody. left. apply in_map_iff in Ho. destruct Ho as ([v e] & <- & Ho). exists v, e. auto. }
  assert (Hneg_op : forall xs o, neg_op r xs o <-> In o ops2 /\ incl (op_vars o) (vs ++ xs)).
  { intros xs o. rewrite Hleft. unfold neg_op, incl. split.
    - intros (T1 & T2 & T3). split; auto. intros w Hw. apply in_app_iff. destruct (T3 w Hw) as [?|?]; auto. left. now apply Hb.
    - intros ((T1 & T2) & T3). split; auto. split; auto. intros w Hw. specialize (T3 w Hw). apply in_app_iff in T3.
      destruct T3 as [Hq|Hq]; auto. left. now apply Hb. }
  assert (Hshare : forall a, In a (r_neg r) -> exists v, In v (snd a) /\ In v vs).
  { intros [p xs] Ha. destruct (wf_neg r Hwf p xs Ha) as (v & Hv & Hbv). exists v. split; auto. now apply Hb. }
  split; auto. split; [|split; [|split]].
  - intros v. rewrite S1. apply Hb.
  - intros o. rewrite N3. split.
    + intros [Ho Hx]. pose proof (proj1 (Hleft o) Ho) as [T1 T2]. split; auto. split; auto.
      intros p xs Hp Hno. apply Hneg_op in Hno. apply (Hx (p, xs) Hp); [apply (Hshare _ Hp)|]. apply Hno.
    + intros (T1 & T2 & T3). split; [apply Hleft; auto|]. intros [p xs] Hp _ Hi. apply (T3 p xs Hp). apply Hneg_op. split; auto. apply Hleft. auto.
  - destruct N0 as (used & N0). exists (map to_op fns ++ fs ++ used). rewrite F3, P1, N0, <- !app_assoc. reflexivity.
  - intros nu. rewrite S3, R4, Q3.
    assert (Hj : msat nu (mkNode (nvars j) (nrows j)) <-> msat nu j) by (destruct j; tauto).
    rewrite Hj, J3. clear Hj. simpl. split.
    + intros [[[[Hp Hnew] Hf] Hfs] Hneg]. split.
      * constructor.
        -- intros p xs Hin. apply (Hp (p, xs) Hin).
        -- intros o Ho. apply Hbody in Ho. destruct Ho as [(v & e & -> & Hi)|Hi]; auto. simpl. auto.
        -- intros p xs Hin (nu' & Hag & Hm & Hno). apply (Hneg (p, xs) Hin (Hshare _ Hin)).
           exists nu'. split; [|split; auto].
           ++ intros v Hv. apply Hag. now apply Hb.
           ++ intros o Ho Hi. apply Hno. apply Hneg_op. auto.
      * destruct Hnew as [?|([p xs] & s & Hi & Hs & Hd)]; auto. right. exists p, xs, s. auto.
    + intros [[Hp Ho Hn] Hnew]. split; [split; [split; [split|]|]|].
      * intros [p xs] Hin. apply (Hp p xs Hin).
      * destruct Hnew as [?|(p & xs & s & Hi & Hs & Hd)]; auto. right. exists (p, xs), s. auto.
      * intros v e Hin. apply (Ho (OEq v e)). apply Hbody. eauto.
      * intros o Hin. apply Ho. apply Hbody. auto.
      * intros [p xs] Hin _ (nu' & Hag & Hm & Hno). apply (Hn p xs Hin). exists nu'. split; [|split; auto].
        -- intros v Hv. apply Hag. now apply Hb.
        -- intros o Hoo. apply Hneg_op in Hoo. apply Hno; tauto.
Qed.
End Body.
