(** Semi-naive evaluation and scheduling of operations, stated without proof-internal notions; tools for
    concrete programs. *)
From Coq Require Import List Arith ZArith Bool Lia Permutation Sorted.
From Verif Require Import TableModel TableSpec TableProofs TableProofs2 EngineModel EngineSpec EngineProofs1 EngineProofs2 EngineProofs3 EngineProofs4 EngineProofs5 EngineProofs6 EngineProofs7 EngineProofs8 EngineProofs9 EngineProofs10 EngineProofs11 EngineProofs12.
From Verif Require Import StrategyModel StrategySpec.
Import ListNotations.

Theorem seminaive_matches ops m : ordered ops -> run manager_new ops = Some m ->
  forall b (atoms : list atom) order cur last,
  (forall a, In a atoms -> NoDup (snd a)) -> NoDup order -> incl (atom_vars atoms) order -> start_of b last <= cur ->
  exists n, seminaive_node (manager_reader m) b atoms order cur last = Some n /\
    (forall v, In v (nvars n) <-> In v (atom_vars atoms)) /\
    forall nu, In (map nu (nvars n)) (nrows n) <->
      (forall a, In a atoms -> stored ops (fst a) 0 cur (map nu (snd a))) /\
      (atoms = [] \/ exists a, In a atoms /\ stored ops (fst a) (start_of b last) cur (map nu (snd a))).
Proof.
  intros Ho Hr b atoms order cur last H1 H2 H3 H4. assert (Es : start_of b last = new_start b last) by (unfold start_of, new_start; destruct b; lia).
  destruct (seminaive_spec (manager_reader m) (facts_at ops) (manager_rd ops m Ho Hr) b atoms order cur last H1 H2 H3) as (n & E & N1 & N2 & N3); [lia|].
  exists n. split; auto. split.
  - intros v. rewrite N1, restrict_in. split; [tauto|auto].
  - intros nu. rewrite Es. change (msat nu n <-> (forall a, In a atoms -> stored ops (fst a) 0 cur (map nu (snd a))) /\
      (atoms = [] \/ exists a, In a atoms /\ stored ops (fst a) (new_start b last) cur (map nu (snd a)))). rewrite N3. split.
    + intros [A B]. split.
      * intros a Ha. apply stored_facts. destruct (A a Ha) as (s & ? & ?). exists s. split; auto. lia.
      * destruct B as [?|(a & s & ? & ? & ?)]; auto. right. exists a. split; auto. apply stored_facts. eauto.
    + intros [A B]. split.
      * intros a Ha. specialize (A a Ha). apply stored_facts in A. destruct A as (s & ? & ?). exists s. split; auto. lia.
      * destruct B as [?|(a & ? & B)]; auto. right. apply stored_facts in B. destruct B as (s & ? & ?). exists a, s. auto.
Qed.

Lemma newest ops (atoms : list atom) (nu : var -> Z) cur : atoms <> [] -> (forall a, In a atoms -> stored ops (fst a) 0 cur (map nu (snd a))) ->
  exists s, s < cur /\ (forall a, In a atoms -> stored ops (fst a) 0 (S s) (map nu (snd a))) /\
    exists a, In a atoms /\ stored ops (fst a) s (S s) (map nu (snd a)).
Proof.
  induction atoms as [|a [|a' atoms] IH]; [congruence| |]; intros _ Hall.
  - specialize (Hall a (or_introl eq_refl)). apply stored_facts in Hall. destruct Hall as (s & Hs & Hd). exists s. split; [lia|]. split.
    + intros x [<-|[]]. apply stored_facts. exists s. split; auto. lia.
    + exists a. split; [left; auto|]. exact Hd.
  - destruct IH as (s & Hs & H1 & H2); [discriminate|intros; apply Hall; right; auto|].
    specialize (Hall a (or_introl eq_refl)). apply stored_facts in Hall. destruct Hall as (t & Ht & Hd).
    assert (Hmono : forall p x lo hi hi', hi <= hi' -> stored ops p lo hi x -> stored ops p lo hi' x).
    { intros p x lo hi hi' Hle Hst. apply stored_facts in Hst. destruct Hst as (u & Hu & Hd'). apply stored_facts. exists u. split; auto. lia. }
    destruct (Nat.le_gt_cases t s) as [Hle|Hle].
    + exists s. split; auto. split.
      * intros x [<-|Hx]; auto. apply stored_facts. exists t. split; auto. lia.
      * destruct H2 as (x & Hx & Hst). exists x. split; auto.
    + exists t. split; [lia|]. split.
      * intros x [<-|Hx]; [apply stored_facts; exists t; split; auto; lia|]. apply (Hmono _ _ 0 (S s)); [lia|auto].
      * exists a. split; [left; auto|]. exact Hd.
Qed.

Lemma applications_cover steps : forall prev s, StronglySorted lt (prev :: steps) -> prev <= s -> (exists c, In c steps /\ s < c) ->
  exists l c, In (l, c) (applications prev steps) /\ l <= s < c.
Proof.
  induction steps as [|c steps IH]; intros prev s Hso Hle (c0 & Hc0 & Hs); [destruct Hc0|].
  destruct (Nat.lt_ge_cases s c) as [Hl|Hl]; [exists prev, c; simpl; auto|].
  destruct (IH c s) as (l & c' & Hin & Hb); auto.
  - inversion Hso; auto.
  - destruct Hc0 as [<-|Hc0]; [lia|]. exists c0. auto.
  - exists l, c'. simpl. auto.
Qed.

Theorem seminaive_history ops steps : StronglySorted lt (0 :: steps) ->
  forall (atoms : list atom) (nu : var -> Z) cur, atoms <> [] -> In cur steps -> (forall a, In a atoms -> stored ops (fst a) 0 cur (map nu (snd a))) ->
  exists last cur', In (last, cur') (applications 0 steps) /\
    (forall a, In a atoms -> stored ops (fst a) 0 cur' (map nu (snd a))) /\
    exists a, In a atoms /\ stored ops (fst a) last cur' (map nu (snd a)).
Proof.
  intros Hso atoms nu cur Hne Hcur Hall. destruct (newest ops atoms nu cur Hne Hall) as (s & Hs & H1 & a & Ha & H2).
  destruct (applications_cover steps 0 s Hso ltac:(lia)) as (l & c & Hin & Hb); [eauto|].
  exists l, c. split; auto. split.
  - intros x Hx. specialize (H1 x Hx). apply stored_facts in H1. destruct H1 as (u & Hu & Hd). apply stored_facts. exists u. split; auto. lia.
  - exists a. split; auto. apply stored_facts in H2. destruct H2 as (u & Hu & Hd). apply stored_facts. exists u. split; auto. lia.
Qed.

(** ** Operations *)

Lemma fun_ok_nth vs fs : fun_ok vs fs -> forall k v e, nth_error fs k = Some (v, e) ->
  incl (e_vars e) (vs ++ map fst (firstn k fs)) /\ ~ In v (vs ++ map fst (firstn k fs)).
Proof.
  revert vs. induction fs as [|[v0 e0] fs IH]; intros vs Hok [|k] v e Hk; try discriminate; simpl in *.
  - injection Hk as <- <-. rewrite app_nil_r. tauto.
  - destruct Hok as (_ & _ & Hok). specialize (IH _ Hok k v e Hk). now rewrite <- app_assoc in IH.
Qed.

Theorem functions_scheduled vs ops :
  exists vs' fs rest, gen_function vs ops = Some (vs', fs, rest) /\
    Permutation ops (map (fun ve => OEq (fst ve) (snd ve)) fs ++ rest) /\ vs' = vs ++ map fst fs /\
    (forall k v e, nth_error fs k = Some (v, e) ->
       incl (e_vars e) (vs ++ map fst (firstn k fs)) /\ ~ In v (vs ++ map fst (firstn k fs))) /\
    (forall v e, In (OEq v e) rest -> In v vs' \/ ~ incl (e_vars e) vs').
Proof.
  destruct (gen_function_spec vs ops) as (vs' & fs & rest & H0 & H1 & H2 & H3 & H4). exists vs', fs, rest. split; auto. split; auto. split; auto. split; auto.
  apply fun_ok_nth. exact H2.
Qed.

Lemma body_op_dec r vs o : (forall v, In v vs <-> bound r v) -> In o (r_ops r) -> (incl (op_vars o) vs <-> body_op r o).
Proof.
  intros Hv Ho. unfold body_op, incl. split.
  - intros Hi. split; auto. intros w Hw. apply Hv. auto.
  - intros [_ Hb] w Hw. apply Hv. auto.
Qed.

Theorem operations_scheduled r : incl (atom_vars (r_pos r)) (r_order r) ->
  exists vs fns ops1 fs ops2,
    gen_function (restrict (r_order r) (atom_vars (r_pos r))) (r_ops r) = Some (vs, fns, ops1) /\
    gen_filter vs ops1 = (fs, ops2) /\
    Permutation (r_ops r) (map (fun ve => OEq (fst ve) (snd ve)) fns ++ fs ++ ops2) /\
    (forall v, In v vs <-> bound r v) /\
    (forall o, In o fs -> body_op r o) /\
    (forall o, In o ops2 <-> In o (r_ops r) /\ ~ body_op r o).
Proof.
  intros Hi. destruct (functions_scheduled (restrict (r_order r) (atom_vars (r_pos r))) (r_ops r)) as (vs & fns & ops1 & E & P & V & K & R).
  destruct (gen_filter vs ops1) as [fs ops2] eqn:Ef. destruct (gen_filter_spec _ _ _ _ Ef) as (F1 & F2 & F3).
  pose proof (gen_function_bound r (r_order r) vs fns ops1 Hi E) as Hb.
  exists vs, fns, ops1, fs, ops2. split; auto. split; auto. split; [|split; auto; split].
  - etransitivity; [exact P|]. now apply Permutation_app_head.
  - intros o Ho. apply F2 in Ho. destruct Ho as [Ho Hv]. apply (body_op_dec r vs o Hb); auto.
    apply (Permutation_in _ (Permutation_sym P)), in_app_iff. auto.
  - intros o. rewrite F3. split.
    + intros [Ho Hn]. assert (Hio : In o (r_ops r)) by (apply (Permutation_in _ (Permutation_sym P)), in_app_iff; auto).
      split; auto. rewrite <- (body_op_dec r vs o Hb Hio). exact Hn.
    + intros [Ho Hn]. rewrite <- (body_op_dec r vs o Hb Ho) in Hn. split; auto.
      apply (Permutation_in _ P), in_app_iff in Ho. destruct Ho as [Ho|Ho]; auto. exfalso. apply Hn.
      apply in_map_iff in Ho. destruct Ho as ([v e] & <- & Hin). apply In_nth_error in Hin. destruct Hin as (k & Hk).
      destruct (K k v e Hk) as [K1 _]. intros w Hw. simpl in Hw. rewrite V. destruct Hw as [<-|Hw].
      * apply in_app_iff. right. apply in_map_iff. exists (v, e). split; auto. eapply nth_error_In; eauto.
      * specialize (K1 w Hw). apply in_app_iff in K1. apply in_app_iff. destruct K1 as [?|K1]; auto. right.
        apply in_map_iff in K1. destruct K1 as (x & <- & Hx). apply in_map. rewrite <- (firstn_skipn k fns). apply in_app_iff. auto.
Qed.

(** ** Values in reachable states *)

Theorem occurs_bound {T} pr (next : T -> option bool -> option (option nat * T)) s0 e z : wf_program pr -> invents_no_nulls pr ->
  reachable pr next s0 e -> occurs e z -> (0 <= z)%Z \/ exists n, n < e_nulls e /\ z = null_val n.
Proof.
  intros Hwf Hnn He (p & x & Hp & Hx & Hz). destruct (reachable_inv _ _ _ _ Hwf He) as (H & ops & Inv & _).
  apply (M_facts pr e H ops Inv) in Hx. destruct Hx as (s & Hs). pose proof (step_bound pr e H ops Inv _ _ _ Hs) as Hb.
  rewrite (cnt_end pr e H ops Inv). apply (val_ok_mono (cnt H s)); [apply (cnt_mono pr e H ops Inv); auto|].
  eapply values_ok; eauto.
Qed.

(** Fact ids in reachable states. *)
Theorem engine_fact_ids {T} cls pr (next : T -> option bool -> option (option nat * T)) s0 e p : wf_program pr -> reachable pr next s0 e ->
  invents_no_nulls pr \/ plain pr p ->
  ((forall s x y, at_step e p s x -> at_step e p s y -> x <> [] /\ last_class cls x = last_class cls y) ->
   forall i x, row_by_id (e_manager e) p i = Some x <-> exists s, table_row_id cls (e_manager e) p x = Some (i, s)) /\
  (forall x, x <> [] -> result e p x <-> exists i s, table_row_id cls (e_manager e) p x = Some (i, s)) /\
  (forall x i s, table_row_id cls (e_manager e) p x = Some (i, s) -> at_step e p s x) /\
  (forall x, match find_table_row (e_manager e) p x with
             | Some s => at_step e p s x
             | None => ~ result e p x
             end).
Proof.
  intros Hwf He Hp. destruct (reachable_inv _ _ _ _ Hwf He) as (H & ops & Inv & _).
  pose proof (i_ord _ _ _ _ Inv) as Ho. pose proof (i_run _ _ _ _ Inv) as Hr. split; [|split; [|split]].
  - intros Hu i x. eapply fact_ids_bijective; eauto; [apply (i_nodup _ _ _ _ Inv)|eapply once_inv; eauto|].
    intros s a b Ha Hb. apply (Hu s); now apply (at_step_facts pr e H ops Inv).
  - intros x Hx. rewrite (M_facts pr e H ops Inv). apply (fact_id_step cls ops (e_manager e) p x Hx Ho Hr).
  - intros x i s Hi. apply (at_step_facts pr e H ops Inv). apply (fact_id_right_step cls ops _ _ _ _ _ Ho Hr Hi).
  - intros x. pose proof (find_table_row_ok ops (e_manager e) p x Ho Hr) as Hf. destruct (find_table_row (e_manager e) p x) as [s|].
    + apply (at_step_facts pr e H ops Inv). apply Hf.
    + intros Hx. apply (M_facts pr e H ops Inv) in Hx. destruct Hx as (s & Hs). now apply (Hf s).
Qed.

Theorem negation_scheduled : forall r vs ops l kept rest,
  (forall i j p xs q ys v, nth_error (r_neg r) i = Some (p, xs) -> nth_error (r_neg r) j = Some (q, ys) ->
     i <> j -> In v xs -> In v ys -> bound r v) ->
  (forall v, In v vs <-> bound r v) -> (forall o, In o ops <-> In o (r_ops r) /\ ~ body_op r o) ->
  gen_negation vs (r_neg r) ops = (l, kept, rest) ->
  (forall p xs fs pv, In ((p, xs), fs, pv) l -> In (p, xs) (r_neg r) /\ (exists v, In v xs /\ bound r v) /\
     (forall o, In o fs <-> neg_op r xs o) /\ forall v, In v pv <-> bound r v /\ In v xs) /\
  (forall p xs v, In (p, xs) (r_neg r) -> In v xs -> bound r v -> exists fs pv, In ((p, xs), fs, pv) l) /\
  ((forall p xs, In (p, xs) (r_neg r) -> exists v, In v xs /\ bound r v) -> forall o, In o rest <-> agg_op r o).
Proof.
  intros r vs ops l kept rest Hloc Hb Hops E.
  destruct (gen_negation_spec _ _ _ _ _ _ E) as (_ & N1 & N2 & N3).
  { intros i j [p xs] [q ys] v Hi Hj Hij Hx Hy. apply Hb. eapply (Hloc i j); eauto. }
  { intros o Ho Hi. apply Hops in Ho. destruct Ho as [Ho Hn]. apply Hn. split; auto. intros w Hw. apply Hb. auto. }
  assert (Hno : forall xs o, neg_op r xs o <-> In o ops /\ incl (op_vars o) (vs ++ xs)).
  { intros xs o. rewrite Hops. unfold neg_op, incl. split.
    - intros (Q1 & Q2 & Q3). split; auto. intros w Hw. apply in_app_iff. destruct (Q3 w Hw) as [?|?]; auto. left. now apply Hb.
    - intros ((Q1 & Q2) & Q3). split; auto. split; auto. intros w Hw. specialize (Q3 w Hw). apply in_app_iff in Q3.
      destruct Q3 as [Hq|Hq]; auto. left. now apply Hb. }
  split; [|split].
  - intros p xs fs pv Hi. destruct (N1 _ _ _ Hi) as (Q1 & (v & Q2 & Q3) & Q4 & ->). simpl in *. split; auto. split; [exists v; split; auto; now apply Hb|].
    split; [intros o; rewrite Q4, Hno; tauto|]. intros w. rewrite filter_In, memv_in, Hb. tauto.
  - intros p xs v Hi Hv Hbv. apply N2; auto. exists v. split; auto. now apply Hb.
  - intros Hsh o. rewrite N3, Hops. unfold agg_op. split.
    + intros [[Q1 Q2] Q3]. split; auto. split; auto. intros p xs Hi Hn. apply Hno in Hn. apply (Q3 (p, xs) Hi); [|apply Hn].
      destruct (Hsh p xs Hi) as (v & Hv & Hbv). exists v. split; auto. now apply Hb.
    + intros (Q1 & Q2 & Q3). split; auto. intros [p xs] Hi _ Hc. apply (Q3 p xs Hi). apply Hno. split; auto. apply Hops. auto.
Qed.

(** ** Concrete programs *)

(** Sufficient conditions that can be checked by computation, for rules without operations and
    aggregates. *)
Definition posb (r : rule) (v : var) : bool := memv v (atom_vars (r_pos r)).
Definition nodupv (l : list nat) : bool := length (nodup Nat.eq_dec l) =? length l.
Definition simple_rule (r : rule) : bool :=
  match r_agg r, r_ops r with None, [] => true | _, _ => false end &&
  forallb (fun a => forallb (fun v => posb r v || (count_occ Nat.eq_dec (flat_map snd (r_neg r)) v <=? 1)) (snd a)) (r_neg r) &&
  forallb (fun a => nodupv (snd a)) (r_pos r ++ r_neg r) &&
  nodupv (r_order r) && inclb (atom_vars (r_pos r)) (r_order r) &&
  nodupv (r_exorder r) && inclb (head_vars r) (r_exorder r) &&
  forallb (fun a => existsb (posb r) (snd a)) (r_neg r) &&
  forallb (fun a => forallb (fun t => match t with
      | HVar v => posb r v
      | HEx v => negb (posb r v) && forallb (fun b => negb (memv v (snd b))) (r_neg r)
      | HConst _ => true end) (snd a)) (r_head r).

Lemma nodupv_ok (l : list nat) : nodupv l = true -> NoDup l.
Proof.
  unfold nodupv. intros H. apply Nat.eqb_eq in H. revert H.
  assert (Hle : forall l : list nat, length (nodup Nat.eq_dec l) <= length l).
  { induction l0 as [|x r IH]; simpl; auto. destruct (in_dec Nat.eq_dec x r); simpl; lia. }
  induction l as [|x r IH]; simpl; intros H; constructor.
  - destruct (in_dec Nat.eq_dec x r); auto. specialize (Hle r). lia.
  - destruct (in_dec Nat.eq_dec x r); [specialize (Hle r); lia|]. simpl in H. apply IH. lia.
Qed.

Lemma simple_rule_bound r : r_ops r = [] -> forall v, bound r v <-> In v (atom_vars (r_pos r)).
Proof. intros E v. split; [|now constructor]. induction 1 as [|v e Hin]; auto. rewrite E in Hin. destruct Hin. Qed.

Lemma count_two (l : list atom) v : forall i j a b, nth_error l i = Some a -> nth_error l j = Some b -> i < j ->
  In v (snd a) -> In v (snd b) -> 2 <= count_occ Nat.eq_dec (flat_map snd l) v.
Proof.
  induction l as [|x l IH]; intros [|i] [|j] a b Hi Hj Hij Ha Hb; try discriminate; try lia; simpl in *.
  - injection Hi as ->. rewrite count_occ_app. apply (count_occ_In Nat.eq_dec) in Ha.
    assert (Hx : In v (flat_map snd l)) by (apply in_flat_map; exists b; split; auto; eapply nth_error_In; eauto).
    apply (count_occ_In Nat.eq_dec) in Hx. unfold var in *. lia.
  - rewrite count_occ_app. assert (Hl : i < j) by lia. specialize (IH i j a b Hi Hj Hl Ha Hb). unfold var in *. lia.
Qed.

Lemma simple_rule_ok r : simple_rule r = true -> wf_rule r.
Proof.
  unfold simple_rule. rewrite !andb_true_iff. intros ((((((((H1 & H0) & H2) & H3) & H4) & H5) & H6) & H7) & H8).
  destruct (r_agg r) as [?|] eqn:Ea; [discriminate|]. destruct (r_ops r) as [|o l] eqn:Eo; [|discriminate].
  pose proof (simple_rule_bound r Eo) as Hb. rewrite forallb_forall in H2, H7, H8.
  constructor; rewrite ?Ea; try discriminate.
  - intros p xs Hi. apply nodupv_ok. apply (H2 _ Hi).
  - split; [now apply nodupv_ok|now apply inclb_incl].
  - split; [now apply nodupv_ok|now apply inclb_incl].
  - rewrite Eo. intros o [].
  - rewrite Eo. simpl. intros. lia.
  - intros p xs Hi. specialize (H7 _ Hi). simpl in H7. apply existsb_exists in H7. destruct H7 as (v & Hv & Hp). exists v. split; auto.
    apply Hb. now apply memv_in.
  - intros i j p xs q ys v Hi Hj Hij Hx Hy. rewrite forallb_forall in H0. pose proof (H0 _ (nth_error_In _ _ Hi)) as H9. simpl in H9.
    rewrite forallb_forall in H9. specialize (H9 v Hx). apply orb_prop in H9. destruct H9 as [H9|H9]; [apply Hb; now apply memv_in|].
    exfalso. apply Nat.leb_le in H9. assert (i < j \/ j < i) as [Hl|Hl] by lia.
    + pose proof (count_two _ v i j _ _ Hi Hj Hl Hx Hy). lia.
    + pose proof (count_two _ v j i _ _ Hj Hi Hl Hy Hx). lia.
  - intros k a v Hk Ht _. specialize (H8 a (nth_error_In _ _ Hk)). rewrite forallb_forall in H8. specialize (H8 _ Ht). simpl in H8.
    apply Hb. now apply memv_in.
  - intros v (a & Ha & Hv). apply hatom_ex_vars in Hv. pose proof (H8 a Ha) as H8a. rewrite forallb_forall in H8a. specialize (H8a _ Hv). simpl in H8a.
    apply andb_prop in H8a. destruct H8a as [Hx Hy]. rewrite negb_true_iff in Hx. split; [|split].
    + rewrite Hb. now apply memv_false.
    + intros a' Ha' Ht. pose proof (H8 a' Ha') as H9. rewrite forallb_forall in H9. specialize (H9 _ Ht). simpl in H9. congruence.
    + intros p xs Hi Hin. rewrite forallb_forall in Hy. specialize (Hy _ Hi). simpl in Hy. rewrite negb_true_iff in Hy. apply memv_false in Hy. auto.
Qed.

Definition simple_program (pr : program) : bool :=
  forallb (fun r => simple_rule r && forallb (fun a => Nat.even (fst a)) (r_pos r ++ r_neg r) && forallb (fun a => Nat.even (fst a)) (r_head r) &&
    forallb (fun a => forallb (fun t => match t with HConst c => (0 <=? c)%Z | _ => true end) (snd a)) (r_head r)) (p_rules pr) &&
  forallb Nat.even (edb_preds pr) && forallb (fun f => forallb (Z.leb 0) (snd f)) (p_facts pr) &&
  forallb (fun f => forallb (forallb (Z.leb 0)) (snd f)) (p_imports pr).

Lemma even_user p : Nat.even p = true -> user_tag p.
Proof. intros H i E. subst. unfold sat_tag in H. rewrite Nat.even_succ in H. rewrite Nat.odd_mul in H. discriminate. Qed.

Lemma simple_program_ok pr : simple_program pr = true -> wf_program pr /\ invents_no_nulls pr.
Proof.
  unfold simple_program. rewrite !andb_true_iff. intros (((H1 & H2) & H3) & H4). rewrite forallb_forall in H1, H2, H3, H4.
  assert (Hr : forall r, In r (p_rules pr) -> simple_rule r = true /\ (forall a, In a (r_pos r ++ r_neg r) -> Nat.even (fst a) = true) /\
    (forall a, In a (r_head r) -> Nat.even (fst a) = true) /\ forall a t, In a (r_head r) -> In t (snd a) -> match t with HConst c => (0 <= c)%Z | _ => True end).
  { intros r Hin. specialize (H1 r Hin). rewrite !andb_true_iff in H1. destruct H1 as (((A & B) & C) & E). rewrite forallb_forall in B, C, E. repeat split; auto.
    intros a t Ha Ht. specialize (E a Ha). rewrite forallb_forall in E. specialize (E t Ht). destruct t; auto. now apply Z.leb_le. }
  assert (Hs : forall r, In r (p_rules pr) -> r_ops r = [] /\ r_agg r = None).
  { intros r Hin. destruct (Hr r Hin) as [Hs _]. unfold simple_rule in Hs. rewrite !andb_true_iff in Hs. destruct Hs as ((((((((Hs & _) & _) & _) & _) & _) & _) & _) & _).
    destruct (r_agg r), (r_ops r); try discriminate; auto. }
  split; constructor.
  - intros r Hin. apply simple_rule_ok. now apply Hr.
  - intros r Hin. destruct (Hr r Hin) as (_ & A & B & _). split; [intros p xs Hi; apply even_user; apply (A _ Hi)|intros a Ha; apply even_user; auto].
  - intros p Hp. apply even_user. auto.
  - intros p r z Hi Hz. specialize (H3 _ Hi). rewrite forallb_forall in H3. apply Z.leb_le. now apply H3.
  - intros p rows r z Hi Hr' Hz. specialize (H4 _ Hi). simpl in H4. rewrite forallb_forall in H4. specialize (H4 r Hr'). rewrite forallb_forall in H4. apply Z.leb_le. now apply H4.
  - intros rl a c Hin Ha Hc. destruct (Hr rl Hin) as (_ & _ & _ & E). apply (E a _ Ha Hc).
  - intros rl v e args z Hin Hi. destruct (Hs rl Hin) as [E _]. rewrite E in Hi. destruct Hi.
  - intros rl a k args z Hin E'. destruct (Hs rl Hin) as [_ E]. congruence.
Qed.
