(** The engine's state after any number of rule applications. *)
From Coq Require Import List Arith ZArith Bool Lia Permutation Sorted.
From Verif Require Import TableModel TableSpec TableProofs TableProofs2 EngineModel EngineSpec EngineProofs1 EngineProofs2 EngineProofs3 EngineProofs4 EngineProofs5 EngineProofs6 EngineProofs7.
Import ListNotations.

(** ** Only facts of earlier steps matter *)

Section Ext.
Context (D D' : tag -> nat -> row -> Prop) (cur : nat).
Context (Heq : forall p s r, s < cur -> D p s r <-> D' p s r).

Lemma upto_ext p r : upto D cur p r <-> upto D' cur p r.
Proof. unfold upto. split; intros (s & Hs & Hd); exists s; split; auto; now apply Heq. Qed.

Lemma matches_iff r I I' M M' nu : (forall p x, I p x <-> I' p x) -> (forall p x, M p x <-> M' p x) ->
  matches r I M nu -> matches r I' M' nu.
Proof.
  intros HI HM [H1 H2 H3]. constructor; auto.
  - intros p xs Hp. apply HI. auto.
  - intros p xs Hp (nu' & Ha & Hm). apply (H3 p xs Hp). exists nu'. split; auto. split; [now apply HM|tauto].
Qed.

Lemma new_match_ext r last nu : new_match D r cur last nu -> new_match D' r cur last nu.
Proof.
  intros [H1 H2]. split.
  - eapply matches_iff; eauto using upto_ext.
  - destruct H2 as [?|(p & xs & s & Hi & Hs & Hd)]; auto. right. exists p, xs, s. repeat split; auto; try lia. apply Heq; auto. lia.
Qed.
End Ext.

Section Ext2.
Context (D D' : tag -> nat -> row -> Prop) (cur : nat).
Context (Heq : forall p s r, s < cur -> D p s r <-> D' p s r).
Let Heq' : forall p s r, s < cur -> D' p s r <-> D p s r.
Proof. intros p s r H. symmetry. auto. Qed.

Lemma new_match_iff r last nu : new_match D r cur last nu <-> new_match D' r cur last nu.
Proof. split; [apply new_match_ext; exact Heq|apply new_match_ext; exact Heq']. Qed.

Lemma agg_new_iff r ag last mu : agg_new D r ag cur last mu <-> agg_new D' r ag cur last mu.
Proof.
  unfold agg_new. split; intros (nu & z & L & H1 & H2 & H3 & H4); exists nu, z, L; (split; [now apply new_match_iff|]); (split; [auto|]); (split; [|auto]);
   intros t; rewrite H3; split; intros (nu' & Q1 & Q2 & Q3); exists nu'; (split; [now apply new_match_iff|auto]).
Qed.

Lemma sat_new_iff r start nu : sat_new D r cur start nu <-> sat_new D' r cur start nu.
Proof.
  unfold sat_new, head_sat. split; intros (mu & H1 & H2 & H3); exists mu; (split; [auto|]); (split; [intros a Ha; eapply upto_ext; [|apply H2; auto]; auto|]);
   (destruct H3 as [?|(a & s & Ha & Hs & Hd)]; [auto|right; exists a, s; split; auto; split; auto; apply Heq; auto; lia]).
Qed.

Lemma exec_ok_ext r i hf last ctr results ctr' : exec_ok D r i hf cur last ctr results ctr' -> exec_ok D' r i hf cur last ctr results ctr'.
Proof.
  pose proof (upto_ext D D' cur Heq) as Hu.
  intros [X1 X2 X3 X4 X5 X6 X7 X8 X10 X9]. constructor; auto.
  - destruct X5 as (W & HW & X5). exists W. split; auto. intros p row Hn Hp. destruct (X5 p row Hn Hp) as [(nu & mu & k & a & Q1 & Q2 & Q3 & Q4 & Q5 & Q6 & Q7 & Q8)|(ag & mu & k & a & Q1 & Q2 & Q3 & Q4 & Q5 & Q6 & Q7)].
    + left. exists nu, mu, k, a. split; [now apply new_match_iff|]. repeat (split; [solve [auto]|]). split.
      * intros Hx. rewrite <- Hu. auto.
      * intros Hx. destruct (Q8 Hx) as (R1 & R2 & R3 & R4). split; [auto|]. split; [auto|]. split; [intros Hc; apply R3; now apply sat_new_iff|now rewrite <- Hu].
    + right. exists ag, mu, k, a. repeat (split; [solve [auto]|]). split; [now apply agg_new_iff|]. repeat (split; [solve [auto]|]). rewrite <- Hu. auto.
  - intros HS nu Hm. destruct X6 with (nu := nu) as (mu & Hmu & Hh).
    + intros f Hf. apply Hu in Hf. destruct (HS f Hf) as (mu & E & Ha). exists mu. split; auto. intros a Hin Hex. apply Hu. auto.
    + now apply new_match_iff.
    + exists mu. split; auto. intros k a Hk Hag. rewrite <- Hu. eauto.
  - intros ag k a mu Hra Hk Hn. rewrite <- Hu. eapply X7; eauto. now apply agg_new_iff.
  - intros f Hf. destruct (X8 f Hf) as [Hn (mu & E & Ha)]. rewrite <- Hu. split; auto. exists mu. split; auto.
    intros a Hin Hex. rewrite <- Hu. auto.
  - intros Hise (nu0 & Hnm) nu Hs. rewrite <- Hu. apply X10; auto; [exists nu0; now apply new_match_iff|now apply sat_new_iff].
  - intros Hno. apply X9. intros nu Hm. apply (Hno nu). now apply new_match_iff.
Qed.
End Ext2.

(** ** Logs of engine histories *)

Lemma ordered_nil : ordered [].
Proof. intros b a p H. destruct b; [constructor|discriminate]. Qed.

Lemma ordered_snoc ops o : ordered ops -> (forall p, StronglySorted lt (map fst (log (ops ++ [o]) p))) -> ordered (ops ++ [o]).
Proof.
  intros Ho Hs b a p Heq. destruct a as [|x a] using rev_ind.
  - rewrite app_nil_r in Heq. rewrite <- Heq. auto.
  - clear IHa. rewrite app_assoc in Heq. apply app_inj_tail in Heq. destruct Heq as [Heq _]. eapply Ho; eauto.
Qed.

Lemma ordered_log ops p : ordered ops -> StronglySorted lt (map fst (log ops p)).
Proof. intros H. apply (H ops [] p). now rewrite app_nil_r. Qed.

Lemma log_registers (f : nat -> nat -> op) {A} (g : A -> op) l : forall ops, ordered ops ->
  (forall x, In x l -> exists q n, g x = OpRegister q n) ->
  ordered (ops ++ map g l) /\
  forall p, (forall x n, In x l -> g x <> OpRegister p n) -> log (ops ++ map g l) p = log ops p.
Proof.
  clear f. induction l as [|x l IH]; simpl; intros ops Ho Hg.
  - rewrite app_nil_r. auto.
  - destruct (Hg x) as (q & n & Hx); auto.
    assert (Ho' : ordered (ops ++ [g x])).
    { apply ordered_snoc; auto. intros p. rewrite log_snoc, Hx. simpl. destruct (p =? q); [constructor|]. now apply ordered_log. }
    destruct (IH (ops ++ [g x]) Ho') as [H1 H2]; auto.
    rewrite <- app_assoc in H1, H2. simpl in H1, H2. split; auto. intros p Hp. rewrite H2.
    + rewrite log_snoc, Hx. simpl. destruct (Nat.eqb_spec p q) as [->|]; auto. exfalso. eapply Hp; eauto.
    + intros y m Hy. apply Hp. auto.
Qed.

Lemma log_registers_nil {A} (g : A -> op) l : forall ops,
  (forall x, In x l -> exists q n, g x = OpRegister q n) -> (forall p, log ops p = []) -> forall p, log (ops ++ map g l) p = [].
Proof.
  induction l as [|x l IH]; simpl; intros ops Hg Hn p; [rewrite app_nil_r; auto|].
  replace (ops ++ g x :: map g l) with ((ops ++ [g x]) ++ map g l) by now rewrite <- app_assoc.
  apply IH; auto. intros q. rewrite log_snoc. destruct (Hg x) as (q' & n & ->); auto. simpl. rewrite Hn. now destruct (q =? q').
Qed.

Lemma log_edbs pr l : forall ops, NoDup l -> ordered ops -> (forall p, In p l -> log ops p = []) ->
  ordered (ops ++ map (fun p => OpEdb p (edb_sources pr p)) l) /\
  forall p, log (ops ++ map (fun p => OpEdb p (edb_sources pr p)) l) p =
    if in_dec Nat.eq_dec p l then (if length (edb_sources pr p) =? 0 then [] else [(0, concat (edb_sources pr p))]) else log ops p.
Proof.
  induction l as [|q l IH]; intros ops Hn Ho Hl; [cbn [map]|cbn [map]].
  - rewrite app_nil_r. split; auto.
  - inversion Hn; subst.
    assert (Hq : forall p, log (ops ++ [OpEdb q (edb_sources pr q)]) p =
       if p =? q then (if length (edb_sources pr q) =? 0 then [] else [(0, concat (edb_sources pr q))]) else log ops p).
    { intros p. rewrite log_snoc. cbn [log1]. destruct (Nat.eqb_spec p q) as [->|]; cbn [andb]; auto.
      rewrite (Hl q) by (simpl; auto). destruct (length (edb_sources pr q) =? 0); auto. }
    destruct (IH (ops ++ [OpEdb q (edb_sources pr q)])) as [H3 H4]; auto.
    + apply ordered_snoc; auto. intros p. rewrite Hq. destruct (p =? q); [|now apply ordered_log].
      destruct (length _ =? 0); simpl; repeat constructor.
    + intros p Hp. rewrite Hq. destruct (Nat.eqb_spec p q) as [->|]; [tauto|]. apply Hl. simpl. auto.
    + rewrite <- app_assoc in H3, H4. cbn [app] in H3, H4. split; auto. intros p. rewrite H4, Hq.
      destruct (in_dec Nat.eq_dec p l) as [Hi|Hi], (in_dec Nat.eq_dec p (q :: l)) as [Hj|Hj]; auto.
      * exfalso. apply Hj. simpl. auto.
      * destruct Hj as [<-|Hj]; [|tauto]. now rewrite Nat.eqb_refl.
      * destruct (Nat.eqb_spec p q) as [->|]; auto. exfalso. apply Hj. simpl. auto.
Qed.

Lemma log_combines l : forall ops, ordered ops -> ordered (ops ++ map OpCombinePredicate l) /\
  forall p, log (ops ++ map OpCombinePredicate l) p = log ops p.
Proof.
  induction l as [|q l IH]; simpl; intros ops Ho; [rewrite app_nil_r; auto|].
  assert (Hl : forall p, log (ops ++ [OpCombinePredicate q]) p = log ops p) by (intros p; now rewrite log_snoc).
  destruct (IH (ops ++ [OpCombinePredicate q])) as [H1 H2].
  { apply ordered_combine; auto. }
  rewrite <- app_assoc in H1, H2. simpl in *. split; auto. intros p. rewrite H2. apply Hl.
Qed.

(** The input facts. *)
Definition edb (pr : program) (p : tag) (r : row) : Prop :=
  In (p, r) (p_facts pr) \/ exists rows, In (p, rows) (p_imports pr) /\ In r rows.

Lemma edb_sources_in pr p r : In r (concat (edb_sources pr p)) <-> edb pr p r.
Proof.
  unfold edb_sources, edb. rewrite concat_app, in_app_iff. split.
  - intros [H|H].
    + right. apply in_concat in H. destruct H as (rows & Hr & Hi). apply in_map_iff in Hr. destruct Hr as ([q rows'] & <- & Hf).
      apply filter_In in Hf. destruct Hf as [Hf He]. apply Nat.eqb_eq in He. simpl in *. subst. eauto.
    + left. destruct (filter (fun x => fst x =? p) (p_facts pr)) as [|f l] eqn:E; [destruct H|].
      cbn [concat] in H. rewrite app_nil_r in H. apply in_map_iff in H. destruct H as ([q r'] & <- & Hf).
      rewrite <- E in Hf. apply filter_In in Hf. destruct Hf as [Hf He]. apply Nat.eqb_eq in He. simpl in *. subst. auto.
  - intros [H|(rows & H & Hr)].
    + right. assert (Hf : In (p, r) (filter (fun x => fst x =? p) (p_facts pr))) by (apply filter_In; split; auto; apply Nat.eqb_refl).
      destruct (filter (fun x => fst x =? p) (p_facts pr)) as [|f l] eqn:E; [destruct Hf|].
      cbn [concat]. rewrite app_nil_r. apply in_map_iff. exists (p, r). auto.
    + left. apply in_concat. exists rows. split; auto. apply in_map_iff. exists (p, rows). split; auto.
      apply filter_In. split; auto. apply Nat.eqb_refl.
Qed.

Lemma edb_in_preds pr p r : edb pr p r -> In p (edb_preds pr).
Proof.
  intros H. unfold edb_preds. apply nodup_In, in_app_iff. destruct H as [H|(rows & H & _)].
  - right. apply in_map_iff. exists (p, r). auto.
  - left. apply in_map_iff. exists (p, rows). auto.
Qed.

Lemma init_ops_log pr : wf_program pr -> ordered (init_ops pr) /\
  forall p, (In p (edb_preds pr) -> log (init_ops pr) p = if length (edb_sources pr p) =? 0 then [] else [(0, concat (edb_sources pr p))]) /\
            (~ In p (edb_preds pr) -> log (init_ops pr) p = []).
Proof.
  intros Hwf. unfold init_ops.
  destruct (log_registers (fun _ _ => OpCombinePredicate 0) (fun pa => OpRegister (fst pa) (snd pa)) (p_preds pr) [] ordered_nil) as [A1 _]; [intros; eauto|].
  assert (A2 : forall p, log ([] ++ map (fun pa => OpRegister (fst pa) (snd pa)) (p_preds pr)) p = []).
  { apply log_registers_nil; auto. intros; eauto. }
  cbn [app] in A1, A2. set (o1 := map (fun pa => OpRegister (fst pa) (snd pa)) (p_preds pr)) in *.
  destruct (log_edbs pr (edb_preds pr) o1 (NoDup_nodup _ _) A1) as [B1 B2]; [auto|].
  set (o2 := map (fun p => OpEdb p (edb_sources pr p)) (edb_preds pr)) in *.
  rewrite app_assoc.
  set (sats := flat_map _ _).
  assert (Hs : exists l : list (nat * nat), sats = map (fun x => OpRegister (sat_tag (fst x)) (snd x)) l).
  { unfold sats. generalize (combine (seq 0 (length (p_rules pr))) (p_rules pr)) as l. induction l as [|[i r] l (l' & IH)]; simpl; [exists []; auto|].
    destruct (is_existential r); simpl; [exists ((i, length (frontier_list r)) :: l'); simpl; now rewrite IH|eauto]. }
  destruct Hs as (l & ->). rewrite app_assoc.
  destruct (log_registers (fun _ _ => OpCombinePredicate 0) (fun x => OpRegister (sat_tag (fst x)) (snd x)) l (o1 ++ o2) B1) as [C1 C2]; [intros; eauto|].
  destruct (log_combines (p_outputs pr) _ C1) as [D1 D2]. split; auto. intros p. rewrite D2. split; intros Hp.
  - rewrite C2.
    + rewrite B2. destruct (in_dec Nat.eq_dec p (edb_preds pr)); tauto.
    + intros x n Hx Heq. injection Heq as Heq _. apply (wf_tags_edb pr Hwf p Hp (fst x)). auto.
  - assert (Hn : log (o1 ++ o2) p = []). { rewrite B2. destruct (in_dec Nat.eq_dec p (edb_preds pr)); [tauto|]. apply A2. }
    clear - Hn. assert (Hx : forall ops, log ops p = [] -> log (ops ++ map (fun x : nat * nat => OpRegister (sat_tag (fst x)) (snd x)) l) p = []).
    { induction l as [|x l IH]; simpl; intros ops H; [now rewrite app_nil_r|].
      replace (ops ++ OpRegister (sat_tag (fst x)) (snd x) :: map (fun x => OpRegister (sat_tag (fst x)) (snd x)) l)
        with ((ops ++ [OpRegister (sat_tag (fst x)) (snd x)]) ++ map (fun x => OpRegister (sat_tag (fst x)) (snd x)) l) by now rewrite <- app_assoc.
      apply IH. rewrite log_snoc. simpl. now destruct (p =? sat_tag (fst x)). }
    auto.
Qed.

(** ** Reading facts *)

Definition facts_at (ops : list op) : tag -> nat -> row -> Prop := fun p s r => stored ops p s (S s) r.

Lemma stored_facts ops p lo hi r : stored ops p lo hi r <-> exists s, lo <= s < hi /\ facts_at ops p s r.
Proof.
  unfold facts_at, stored. split.
  - intros (s & rows & Hi & Hs & Hr). exists s. split; auto. exists s, rows. repeat split; auto; lia.
  - intros (s & Hs & t & rows & Hi & Ht & Hr). exists t, rows. repeat split; auto; lia.
Qed.

Lemma manager_rd ops m : ordered ops -> run manager_new ops = Some m -> rd_ok (manager_reader m) (facts_at ops).
Proof.
  intros Ho Hr p lo hi. unfold manager_reader. destruct (range_reads ops m Ho Hr p lo hi) as (ids & -> & Hi).
  simpl. eexists. split; [reflexivity|]. intros r. rewrite in_flat_map, <- stored_facts, <- Hi. unfold rows_of. tauto.
Qed.

Lemma result_facts ops e : ordered ops -> run manager_new ops = Some (e_manager e) ->
  forall p r, result e p r <-> exists s, facts_at ops p s r.
Proof.
  intros Ho Hr p r. unfold result, predicate_rows.
  destruct (combine_predicate_ok ops (e_manager e) p Ho Hr) as (m' & res & -> & _ & _ & _ & Hres).
  assert (Hlog : (exists s, facts_at ops p s r) <-> exists s rows, In (s, rows) (log ops p) /\ In r rows).
  { unfold facts_at, stored. split.
    - intros (s & t & rows & ? & ? & ?). eauto.
    - intros (s & rows & ? & ?). exists s, s, rows. repeat split; auto. }
  rewrite Hlog. destruct res as [id|].
  - rewrite <- Hres. split; [intros (rows & H & Hi); injection H as <-; auto|eauto].
  - split; [intros (rows & H & Hi); injection H as <-; destruct Hi|]. intros (s & rows & Hi & Hr'). exfalso. eapply Hres; eauto.
Qed.

(** ** Applications *)

Record app_rec := mkApp { a_rule : nat; a_resp : bool; a_c : nat; a_c' : nat }.

(** The step at which a rule was last applied in a history (application k happens at step k+1), 0 if never. *)
Fixpoint last_app (H : list app_rec) (i k : nat) (acc : nat) : nat :=
  match H with
  | [] => acc
  | a :: H' => last_app H' i (S k) (if a_rule a =? i then k else acc)
  end.

Lemma last_app_snoc H a i : forall k acc, last_app (H ++ [a]) i k acc = if a_rule a =? i then k + length H else last_app H i k acc.
Proof.
  induction H as [|b H IH]; simpl; intros k acc.
  - rewrite Nat.add_0_r. reflexivity.
  - rewrite IH. rewrite Nat.add_succ_r. reflexivity.
Qed.

Lemma last_app_spec H i : last_app H i 1 0 <= length H /\
  (last_app H i 1 0 = 0 -> forall k a, nth_error H k = Some a -> a_rule a <> i) /\
  (forall l, last_app H i 1 0 = S l -> exists a, nth_error H l = Some a /\ a_rule a = i /\
     forall k b, l < k -> nth_error H k = Some b -> a_rule b <> i).
Proof.
  induction H as [|x H IH] using rev_ind.
  - simpl. repeat split; auto; [intros _ [|k] a; discriminate|discriminate].
  - rewrite last_app_snoc, app_length. simpl. destruct IH as (H1 & H2 & H3).
    destruct (Nat.eqb_spec (a_rule x) i) as [He|He]; (split; [lia|split]).
    + discriminate.
    + intros l Hl. injection Hl as <-. exists x. rewrite nth_error_app2, Nat.sub_diag by lia. repeat split; auto.
      intros k b Hk Hb. exfalso. assert (k < length (H ++ [x])) by (apply nth_error_Some; congruence). rewrite app_length in *. simpl in *. lia.
    + intros H0 k a Ha. destruct (lt_dec k (length H)) as [Hk|Hk].
      * rewrite nth_error_app1 in Ha by lia. eauto.
      * rewrite nth_error_app2 in Ha by lia. destruct (k - length H) as [|[|]]; simpl in Ha; try discriminate. congruence.
    + intros l Hl. destruct (H3 l Hl) as (a & Ha & Hi & Hno). exists a.
      assert (l < length H) by (apply nth_error_Some; congruence).
      rewrite nth_error_app1 by lia. repeat split; auto. intros k b Hk Hb. destruct (lt_dec k (length H)) as [Hk'|Hk'].
      * rewrite nth_error_app1 in Hb by lia. eauto.
      * rewrite nth_error_app2 in Hb by lia. destruct (k - length H) as [|[|]]; simpl in Hb; try discriminate. congruence.
Qed.

(** The state after the history [H], with the table history [ops]. *)
Record einv (pr : program) (e : engine) (H : list app_rec) (ops : list op) : Prop := {
  i_run : run manager_new ops = Some (e_manager e);
  i_ord : ordered ops;
  i_nodup : forall o, In o ops -> nodup_op o;
  i_step : e_step e = S (length H);
  i_hist : e_history e = map a_rule H;
  i_bound : forall p s rows, In (s, rows) (log ops p) -> s < e_step e;
  i_last : forall i, e_last e i = last_app H i 1 0;
  i_nulls : e_nulls e = match rev H with [] => 0 | a :: _ => a_c' a end;
  i_edb : forall p r, facts_at ops p 0 r <-> edb pr p r;
  i_apps : forall k a, nth_error H k = Some a -> exists r results,
     nth_error (p_rules pr) (a_rule a) = Some r /\
     a_c a = match k with 0 => 0 | S k' => match nth_error H k' with Some b => a_c' b | None => 0 end end /\
     exec_ok (facts_at ops) r (a_rule a) (has_facts pr r) (S k) (last_app (firstn k H) (a_rule a) 1 0) (a_c a) results (a_c' a) /\
     (forall p x, facts_at ops p (S k) x <-> new_in results p x) /\
     (a_resp a = false -> forall p x, ~ new_in results p x) }.

Lemma init_einv pr e : wf_program pr -> engine_init pr = Some e -> einv pr e [] (init_ops pr).
Proof.
  intros Hwf H. unfold engine_init in H. destruct (run manager_new (init_ops pr)) as [m|] eqn:E; [|discriminate]. injection H as <-.
  destruct (init_ops_log pr Hwf) as [H1 H2]. constructor; simpl; auto.
  - intros o Ho. unfold init_ops in Ho. rewrite !in_app_iff in Ho. destruct Ho as [Ho|[Ho|[Ho|Ho]]].
    + apply in_map_iff in Ho. destruct Ho as (x & <- & _). simpl. auto.
    + apply in_map_iff in Ho. destruct Ho as (x & <- & _). simpl. auto.
    + apply in_flat_map in Ho. destruct Ho as (x & _ & Hx). destruct (is_existential (snd x)); [|destruct Hx].
      destruct Hx as [<-|[]]. simpl. auto.
    + apply in_map_iff in Ho. destruct Ho as (x & <- & _). simpl. auto.
  - intros p s rows Hi. destruct (H2 p) as [Ha Hb]. destruct (in_dec Nat.eq_dec p (edb_preds pr)) as [Hp|Hp].
    + rewrite (Ha Hp) in Hi. destruct (length _ =? 0); [destruct Hi|]. destruct Hi as [Hi|[]]. injection Hi as <- <-. lia.
    + rewrite (Hb Hp) in Hi. destruct Hi.
  - intros p r. unfold facts_at, stored. destruct (H2 p) as [Ha Hb]. destruct (in_dec Nat.eq_dec p (edb_preds pr)) as [Hp|Hp].
    + rewrite (Ha Hp). rewrite <- edb_sources_in. destruct (Nat.eqb_spec (length (edb_sources pr p)) 0) as [Hl|Hl].
      * destruct (edb_sources pr p); [|discriminate]. simpl. split; [intros (? & ? & [] & _)|tauto].
      * split.
        -- intros (s & rows & [Hi|[]] & Hs & Hr). injection Hi as <- <-. auto.
        -- intros Hr. exists 0, (concat (edb_sources pr p)). simpl. auto.
    + rewrite (Hb Hp). split; [intros (? & ? & [] & _)|]. intros Hr. exfalso. apply Hp. eapply edb_in_preds; eauto.
  - intros [|k] a; discriminate.
Qed.

Lemma add_results_updated results : forall m step m' ps, add_results m step results = Some (m', ps) ->
  ps = map fst (filter (fun qr => negb (length (snd qr) =? 0)) results).
Proof.
  induction results as [|[p rows] rest IH]; simpl; intros m step m' ps H; [congruence|].
  destruct rows as [|r rows]; simpl; [eauto|].
  destruct (add_subtable _ p step _) as [m2|]; [|discriminate].
  destruct (add_results m2 step rest) as [[m3 ps']|] eqn:E; [|discriminate]. injection H as <- <-. simpl. f_equal. eauto.
Qed.

Lemma facts_at_log ops ops' : (forall p, log ops' p = log ops p) -> forall p s r, facts_at ops' p s r <-> facts_at ops p s r.
Proof. intros H p s r. unfold facts_at, stored. rewrite H. tauto. Qed.

Theorem apply_einv pr e H ops i e' b : wf_program pr -> einv pr e H ops -> engine_apply pr e i = Some (e', b) ->
  exists a ops', einv pr e' (H ++ [a]) ops' /\ a_rule a = i /\ a_resp a = b /\
    (forall p s x, s < e_step e -> (facts_at ops' p s x <-> facts_at ops p s x)).
Proof.
  intros Hwf I Ha. unfold engine_apply in Ha. destruct (nth_error (p_rules pr) i) as [r|] eqn:Er; [|discriminate].
  destruct I as [I1 I2 Ind I3 I4 I5 I6 I7 I8 I9].
  pose proof (manager_rd ops (e_manager e) I2 I1) as Hrd.
  destruct (execute_rule (manager_reader (e_manager e)) i r (has_facts pr r) (e_step e) (e_last e i) (e_nulls e)) as [[results nulls]|] eqn:Ee; [|discriminate].
  destruct (add_results (e_manager e) (e_step e) results) as [[m updated]|] eqn:Ear; [|discriminate].
  assert (Hin : In r (p_rules pr)) by (eapply nth_error_In; eauto).
  assert (Hlast : e_last e i < e_step e).
  { rewrite I6, I3. destruct (last_app_spec H i) as [? _]. lia. }
  pose proof (execute_rule_spec (manager_reader (e_manager e)) (facts_at ops) Hrd r i (has_facts pr r) (e_step e) (e_last e i) (e_nulls e) results nulls
     (wf_rules pr Hwf r Hin) Hlast (proj2 (wf_tags_rules pr Hwf r Hin)) Ee) as X.
  set (ops1 := ops ++ [OpStep (e_step e) results]).
  assert (Hfil : forall p, exists l, filter (fun qr => (fst qr =? p) && negb (length (snd qr) =? 0)) results = l /\ length l <= 1).
  { intros p. eexists. split; [reflexivity|]. pose proof (x_tags _ _ _ _ _ _ _ _ _ X) as Hn. clear - Hn.
    induction results as [|[q rows] rest IH]; [simpl; lia|].
    simpl in Hn. inversion Hn; subst. specialize (IH H2). cbn [filter fst snd]. destruct (Nat.eqb_spec q p) as [->|]; [|exact IH].
    destruct (negb (length rows =? 0)); [|exact IH].
    assert (E : filter (fun qr : tag * list row => (fst qr =? p) && negb (length (snd qr) =? 0)) rest = []).
    { clear - H1. induction rest as [|[q' rows'] rest IH]; simpl; auto. simpl in H1. destruct (Nat.eqb_spec q' p) as [->|]; simpl; [tauto|]. apply IH. tauto. }
    cbn [andb length]. apply le_n_S. apply Nat.eq_le_incl. change 0 with (length (@nil (tag * list row))). f_equal. exact E. }
  assert (Hlog1 : forall p, log ops1 p = log ops p ++ map (fun qr => (e_step e, snd qr))
                 (filter (fun qr => (fst qr =? p) && negb (length (snd qr) =? 0)) results)).
  { intros p. unfold ops1. rewrite log_snoc. reflexivity. }
  assert (Hord1 : ordered ops1).
  { unfold ops1. apply ordered_snoc; auto. intros p. change (StronglySorted lt (map fst (log ops1 p))). rewrite Hlog1, map_app. destruct (Hfil p) as (l & -> & Hl).
    destruct l as [|x [|y l]]; simpl in *; [rewrite app_nil_r; now apply ordered_log| |lia].
    apply ss_snoc; [now apply ordered_log|]. intros y Hy. apply in_map_iff in Hy. destruct Hy as ([s rows] & <- & Hy). simpl. eapply I5; eauto. }
  assert (Hrun1 : run manager_new ops1 = Some m).
  { unfold ops1. rewrite run_snoc, I1. simpl. rewrite Ear. reflexivity. }
  destruct (defrag_ok updated ops1 m (e_frag e) (S (e_step e)) Hord1 Hrun1) as (m' & f' & extra & Ed & Hrun2 & Hord2 & Hlog2 & Hextra).
  rewrite Ed in Ha. injection Ha as <- <-.
  pose proof (add_results_updated _ _ _ _ _ Ear) as Hup.
  assert (Hfacts : forall p s x, facts_at (ops1 ++ extra) p s x <-> facts_at ops p s x \/ (s = e_step e /\ new_in results p x)).
  { intros p s x. rewrite (facts_at_log ops1) by auto. unfold facts_at, stored. rewrite Hlog1. split.
    - intros (t & rows & Hi & Ht & Hx). apply in_app_iff in Hi. destruct Hi as [Hi|Hi]; [left; eauto|].
      apply in_map_iff in Hi. destruct Hi as ([q rows'] & Hq & Hi). injection Hq as <- <-. apply filter_In in Hi. destruct Hi as [Hi Hb].
      apply andb_prop in Hb. destruct Hb as [Hb _]. apply Nat.eqb_eq in Hb. simpl in *. subst. right. split; [lia|]. exists rows'. auto.
    - intros [(t & rows & Hi & Ht & Hx)|(-> & rows & Hi & Hx)].
      + exists t, rows. rewrite in_app_iff. auto.
      + exists (e_step e), rows. rewrite in_app_iff. repeat split; auto. right. apply in_map_iff. exists (p, rows). split; auto.
        apply filter_In. split; auto. simpl. rewrite Nat.eqb_refl. simpl. destruct rows; [destruct Hx|reflexivity]. }
  assert (Hfnew : forall p x, ~ facts_at ops p (e_step e) x).
  { intros p x (t & rows & Hi & Ht & Hx). specialize (I5 _ _ _ Hi). lia. }
  exists (mkApp i (negb (length updated =? 0)) (e_nulls e) nulls), (ops1 ++ extra).
  split; [|split; [reflexivity|split; [reflexivity|intros p s x Hs; rewrite Hfacts; split; [intros [?|[? _]]; auto; lia|auto]]]].
  constructor; simpl; auto.
  - (* nodup *) intros o Ho. apply in_app_iff in Ho. destruct Ho as [Ho|Ho].
    + unfold ops1 in Ho. apply in_app_iff in Ho. destruct Ho as [Ho|[<-|[]]]; auto. simpl. intros p rows Hp. eapply (x_rows _ _ _ _ _ _ _ _ _ X); eauto.
    + destruct (Hextra o Ho) as (q & lo & hi & ->). simpl. auto.
  - rewrite app_length, I3. simpl. lia.
  - rewrite map_app, I4. reflexivity.
  - intros p s rows Hi. rewrite Hlog2, Hlog1 in Hi. apply in_app_iff in Hi. destruct Hi as [Hi|Hi].
    + specialize (I5 _ _ _ Hi). lia.
    + apply in_map_iff in Hi. destruct Hi as (x & Hx & _). injection Hx as <- _. lia.
  - intros j. rewrite last_app_snoc. simpl. rewrite Nat.eqb_sym. destruct (Nat.eqb_spec i j); [lia|auto].
  - now rewrite rev_app_distr.
  - intros p x. rewrite Hfacts, I8. split; [|auto]. intros [?|[Hs _]]; auto. lia.
  - intros k a Hk. destruct (lt_dec k (length H)) as [Hl|Hl].
    + rewrite nth_error_app1 in Hk by lia. destruct (I9 k a Hk) as (r' & results' & R1 & R2 & R3 & R4 & R5).
      exists r', results'. split; auto. split.
      { destruct k; auto. rewrite nth_error_app1 by lia. auto. }
      split; [|split; auto].
      * rewrite firstn_app. replace (k - length H) with 0 by lia. simpl. rewrite app_nil_r.
        eapply exec_ok_ext; [|exact R3]. intros p s x Hs. rewrite Hfacts. split; auto. intros [?|[? _]]; auto. lia.
      * intros p x. rewrite Hfacts, R4. split; auto. intros [?|[? _]]; auto. lia.
    + assert (k = length H) as ->.
      { assert (k < length (H ++ [mkApp i (negb (length updated =? 0)) (e_nulls e) nulls])) by (apply nth_error_Some; congruence). rewrite app_length in *. simpl in *. lia. }
      rewrite nth_error_app2, Nat.sub_diag in Hk by lia. injection Hk as <-. simpl. exists r, results. split; auto. split.
      { rewrite I7. destruct H as [|a0 H0] using rev_ind; auto. rewrite rev_app_distr, app_length. simpl.
        rewrite Nat.add_1_r. rewrite <- app_assoc. rewrite nth_error_app2, Nat.sub_diag by lia. reflexivity. }
      split; [|split].
      * rewrite firstn_app, firstn_all, Nat.sub_diag. simpl. rewrite app_nil_r, <- I6, <- I3.
        eapply exec_ok_ext; [|exact X]. intros p s x Hs. rewrite Hfacts. split; auto. intros [?|[? _]]; auto. lia.
      * intros p x. rewrite <- I3, Hfacts. split; [|auto]. intros [Hc|[_ ?]]; auto. exfalso. eapply Hfnew; eauto.
      * intros Hb p x (rows & Hi & Hx). rewrite negb_false_iff in Hb. apply Nat.eqb_eq in Hb. destruct updated; [|discriminate].
        assert (Hin' : In p (map fst (filter (fun qr => negb (length (snd qr) =? 0)) results))).
        { apply in_map_iff. exists (p, rows). split; auto. apply filter_In. split; auto. simpl. destruct rows; [destruct Hx|reflexivity]. }
        rewrite <- Hup in Hin'. destruct Hin'.
Qed.
