(** Proofs about the bindings that rules with imports request. *)
From Coq Require Import String List Arith Bool Lia Permutation Sorted.
From Verif Require Import RequestModel RequestSpec.
Import ListNotations.
Local Open Scope list_scope.

Lemma mem_In : forall v l, mem v l = true <-> In v l.
Proof.
  intros v l. unfold mem. rewrite existsb_exists. split.
  - intros [w [H E]]. apply String.eqb_eq in E. subst. exact H.
  - intros H. exists v. split; [exact H | apply String.eqb_refl].
Qed.

Lemma index_some : forall v l i, index v l = Some i -> nth_error l i = Some v.
Proof.
  intros v. induction l as [|w l IH]; intros i H; cbn in H; [discriminate|].
  destruct (String.eqb w v) eqn:E; [injection H as <-; apply String.eqb_eq in E; subst; reflexivity|].
  destruct (index v l) as [j|] eqn:Ej; cbn in H; [|discriminate]. injection H as <-. cbn. apply IH. reflexivity.
Qed.

Lemma index_In : forall v l, In v l -> exists i, index v l = Some i.
Proof.
  intros v. induction l as [|w l IH]; intros H; [destruct H|]. cbn.
  destruct (String.eqb w v) eqn:E; [exists 0; reflexivity|].
  destruct H as [-> | H]; [rewrite String.eqb_refl in E; discriminate|].
  destruct (IH H) as [i Hi]. exists (S i). rewrite Hi. reflexivity.
Qed.

Lemma insert_perm : forall n l, Permutation (insert n l) (n :: l).
Proof.
  intros n. induction l as [|m l IH]; [apply Permutation_refl|]. cbn.
  destruct (n <=? m); [apply Permutation_refl|].
  eapply Permutation_trans; [apply perm_skip; exact IH | apply perm_swap].
Qed.

Lemma sort_perm : forall l, Permutation (sort l) l.
Proof.
  induction l as [|n l IH]; [apply Permutation_refl|]. cbn.
  eapply Permutation_trans; [apply insert_perm | apply perm_skip; exact IH].
Qed.

Lemma insert_sorted : forall n l, StronglySorted le l -> StronglySorted le (insert n l).
Proof.
  intros n. induction l as [|m l IH]; intros H; [repeat constructor|]. cbn.
  inversion H as [|? ? Hs Hf]; subst. destruct (Nat.leb_spec n m).
  - constructor; [exact H|]. constructor; [lia|]. eapply Forall_impl; [|exact Hf]. intros; lia.
  - constructor; [apply IH; exact Hs|]. apply Forall_forall. intros x Hx.
    apply (Permutation_in _ (insert_perm n l)) in Hx. destruct Hx as [<- | Hx]; [lia|].
    rewrite Forall_forall in Hf. apply Hf. exact Hx.
Qed.

Lemma sort_sorted : forall l, StronglySorted le (sort l).
Proof. induction l as [|n l IH]; [constructor|]. cbn. apply insert_sorted. exact IH. Qed.

Lemma sorted_unique : forall l m, StronglySorted le l -> StronglySorted le m -> NoDup l -> NoDup m -> (forall x, In x l <-> In x m) -> l = m.
Proof.
  induction l as [|a l IH]; intros [|b m] Hl Hm Nl Nm H; [reflexivity| | |].
  - destruct (proj2 (H b) (or_introl eq_refl)).
  - destruct (proj1 (H a) (or_introl eq_refl)).
  - inversion Hl as [|? ? Sl Fl]; inversion Hm as [|? ? Sm Fm]; inversion Nl as [|? ? Al Dl]; inversion Nm as [|? ? Bm Dm]; subst.
    rewrite Forall_forall in Fl, Fm.
    assert (a = b) as ->.
    { destruct (proj1 (H a) (or_introl eq_refl)) as [E | E]; [symmetry; exact E|].
      destruct (proj2 (H b) (or_introl eq_refl)) as [E' | E']; [exact E'|].
      apply Fm in E. apply Fl in E'. lia. }
    f_equal. apply IH; try assumption. intros x. split; intros Hx.
    + destruct (proj1 (H x) (or_intror Hx)) as [<- | E]; [contradiction|exact E].
    + destruct (proj2 (H x) (or_intror Hx)) as [<- | E]; [contradiction|exact E].
Qed.

Lemma seq_sorted : forall n k, StronglySorted le (seq k n).
Proof.
  induction n as [|n IH]; intros k; [constructor|]. cbn. constructor; [apply IH|].
  apply Forall_forall. intros x Hx. apply in_seq in Hx. lia.
Qed.

Lemma subset_spec : forall bound vars i, In i (subset_of bound vars) <-> exists v, In v vars /\ index v bound = Some i.
Proof.
  intros bound vars i. unfold subset_of. split.
  - intros H. apply (Permutation_in _ (sort_perm _)) in H. apply in_flat_map in H. destruct H as [v [Hv H]].
    destruct (index v bound) as [j|] eqn:E; [|destruct H]. destruct H as [<- | []]. exists v. auto.
  - intros [v [Hv E]]. apply (Permutation_in _ (Permutation_sym (sort_perm _))). apply in_flat_map.
    exists v. split; [exact Hv|]. rewrite E. left. reflexivity.
Qed.

Lemma subset_NoDup : forall bound vars, NoDup vars -> NoDup (subset_of bound vars).
Proof.
  intros bound vars H. unfold subset_of. eapply Permutation_NoDup; [apply Permutation_sym; apply sort_perm|].
  induction vars as [|v vars IH]; [constructor|]. inversion H as [|? ? Hn Hd]; subst. cbn.
  destruct (index v bound) as [j|] eqn:E; [|apply IH; exact Hd]. cbn. constructor; [|apply IH; exact Hd].
  intros Hj. apply in_flat_map in Hj. destruct Hj as [w [Hw Hj]].
  destruct (index w bound) as [j'|] eqn:E'; [|destruct Hj]. destruct Hj as [-> | []].
  apply index_some in E, E'. rewrite E in E'. injection E' as ->. contradiction.
Qed.

(** Bound positions and bound variables correspond. *)
Lemma flagged_filter_from : forall (f : string -> bool) l n,
  Forall2 (fun k v => n <= k /\ nth_error l (k - n) = Some v)
    (flat_map (fun e : nat * bool => if snd e then [fst e] else []) (combine (seq n (List.length l)) (map f l))) (filter f l).
Proof.
  intros f. induction l as [|v l IH]; intros n; [constructor|]. cbn.
  assert (H : Forall2 (fun k w => n <= k /\ nth_error (v :: l) (k - n) = Some w)
    (flat_map (fun e : nat * bool => if snd e then [fst e] else []) (combine (seq (S n) (List.length l)) (map f l))) (filter f l)).
  { specialize (IH (S n)). induction IH as [|k w ks ws [Hk Hw] _ IH']; [constructor|]. constructor; [|exact IH'].
    split; [lia|]. replace (k - n) with (S (k - S n)) by lia. exact Hw. }
  destruct (f v); [|exact H]. cbn. constructor; [|exact H]. split; [lia|]. replace (n - n) with 0 by lia. reflexivity.
Qed.

Lemma flagged_filter : forall (f : string -> bool) l, Forall2 (fun k v => nth_error l k = Some v) (flagged (map f l)) (filter f l).
Proof.
  intros f l. unfold flagged. rewrite map_length. pose proof (flagged_filter_from f l 0) as H.
  induction H as [|k w ks ws [Hk Hw] _ IH']; [constructor|]. constructor; [|exact IH'].
  rewrite Nat.sub_0_r in Hw. exact Hw.
Qed.

Lemma Forall2_nth : forall {A B} (P : A -> B -> Prop) l m, Forall2 P l m -> forall i x y, i < List.length m -> P (nth i l x) (nth i m y).
Proof.
  intros A B P l m H. induction H as [|a b l m Hab _ IH]; intros i x y Hi; [cbn in Hi; lia|].
  destruct i; [exact Hab|]. cbn in *. apply IH. lia.
Qed.

Lemma at_flagged : forall (f : string -> bool) l (s : assignment) t,
  (forall k v, nth_error l k = Some v -> f v = true -> nth k t 0 = s v) -> at_positions (flagged (map f l)) t = map s (filter f l).
Proof.
  intros f l s t H. pose proof (flagged_filter f l) as F.
  assert (G : Forall (fun v => f v = true) (filter f l)) by (apply Forall_forall; intros x Hx; apply filter_In in Hx; tauto).
  unfold at_positions. induction F as [|k v ks vs Hk _ IH]; [reflexivity|]. inversion G; subst. cbn. f_equal; [apply H; assumption | apply IH; assumption].
Qed.

Lemma origin_spec : forall v input, In v (concat input) -> exists vars, nth_error input (origin v input) = Some vars /\ In v vars.
Proof.
  intros v. induction input as [|vars input IH]; intros H; [destruct H|]. cbn.
  destruct (mem v vars) eqn:E.
  - exists vars. split; [reflexivity | apply mem_In; exact E].
  - cbn in H. apply in_app_or in H. destruct H as [H | H]; [apply mem_In in H; congruence|]. cbn. apply IH. exact H.
Qed.

Lemma disjoint_inputs : forall (input : list (list string)) v a b, NoDup (concat input) -> In a input -> In b input -> In v a -> In v b -> a = b.
Proof.
  induction input as [|x input IH]; intros v a b H Ha Hb Va Vb; [destruct Ha|]. cbn in H.
  assert (D : forall c, In c input -> In v c -> In v x -> False).
  { intros c Hc Vc Vx. clear - H Hc Vc Vx. induction x as [|y x IHx]; [destruct Vx|]. cbn in H. inversion H; subst.
    destruct Vx as [-> | Vx]; [|apply IHx; assumption]. apply H2. apply in_or_app. right. apply in_concat. exists c. auto. }
  assert (N : NoDup (concat input)).
  { clear - H. induction x as [|y x IHx]; [exact H|]. cbn in H. inversion H; subst. apply IHx. assumption. }
  destruct Ha as [-> | Ha], Hb as [-> | Hb]; [reflexivity | exfalso; eauto | exfalso; eauto | eapply IH; eassumption].
Qed.

Lemma NoDup_concat_in : forall (input : list (list string)) vars, NoDup (concat input) -> In vars input -> NoDup vars.
Proof.
  induction input as [|x input IH]; intros vars H Hi; [destruct Hi|]. cbn in H. destruct Hi as [-> | Hi].
  - clear - H. induction vars as [|y x IHx]; [constructor|]. cbn in H. inversion H; subst. constructor; [|apply IHx; assumption].
    intros Hy. apply H2. apply in_or_app. left. exact Hy.
  - apply IH; [|exact Hi]. clear - H. induction x as [|y x IHx]; [exact H|]. cbn in H. inversion H; subst. apply IHx. assumption.
Qed.

Section entries.
  Variables (input : list (list string)) (a : import_atom).
  Hypothesis Hinput : NoDup (concat input).
  Hypothesis Ha : NoDup (i_vars a).
  Let bound := bound_variables input a.

  (** The entries before the subset is removed. *)
  Definition raw_of (vars : list string) : list entry :=
    match subset_of bound vars with
    | [] => []
    | i :: rest => [(mk_pattern (i_pred a) (bound_flags input a) (Some (i :: rest)), map (fun j => nth j bound EmptyString) (i :: rest), origin (nth i bound EmptyString) input)]
    end.

  Definition good_entry (e : entry) : Prop :=
    p_pred (fst (fst e)) = i_pred a /\
    (exists vars, nth_error input (snd e) = Some vars /\ incl (snd (fst e)) vars) /\
    forall (s : assignment) t, (forall k v, nth_error (i_vars a) k = Some v -> In v (concat input) -> nth k t 0 = s v) ->
      at_positions (positions (fst (fst e))) t = map s (snd (fst e)).

  Lemma bound_In : forall v, In v bound <-> In v (i_vars a) /\ In v (concat input).
  Proof. intros v. unfold bound, bound_variables. rewrite filter_In, mem_In. tauto. Qed.

  Lemma bound_NoDup : NoDup bound.
  Proof. unfold bound, bound_variables. apply NoDup_filter. exact Ha. Qed.

  Lemma subset_lt : forall vars i, In i (subset_of bound vars) -> i < List.length bound /\ In (nth i bound EmptyString) vars.
  Proof.
    intros vars i H. apply subset_spec in H. destruct H as [v [Hv E]]. apply index_some in E. split.
    - apply nth_error_Some. rewrite E. discriminate.
    - rewrite (nth_error_nth _ _ EmptyString E). exact Hv.
  Qed.

  Lemma raw_good : forall vars e, In vars input -> In e (raw_of vars) -> good_entry e.
  Proof.
    intros vars e Hv He. unfold raw_of in He. pose proof (subset_lt vars) as L.
    destruct (subset_of bound vars) as [|i rest] eqn:E; [destruct He|]. destruct He as [<- | []].
    split; [reflexivity|]. cbn [fst snd]. split.
    - destruct (L i (or_introl eq_refl)) as [Li Hi].
      assert (Hc : In (nth i bound EmptyString) (concat input)) by (apply in_concat; exists vars; auto).
      destruct (origin_spec _ _ Hc) as [vars' [Hn Hv']]. exists vars'. split; [exact Hn|].
      assert (vars' = vars) as -> by (eapply disjoint_inputs; [exact Hinput | eapply nth_error_In; exact Hn | exact Hv | exact Hv' | exact Hi]).
      intros x Hx. apply in_map_iff in Hx. destruct Hx as [j [<- Hj]]. apply L. exact Hj.
    - intros s t Hag. unfold positions, at_positions. cbn [p_subset p_bound]. rewrite !map_map. apply map_ext_in. intros j Hj.
      destruct (L j Hj) as [Lj Hin].
      unfold bound_flags. pose proof (flagged_filter (fun v => mem v (concat input)) (i_vars a)) as F.
      pose proof (Forall2_nth _ _ _ F j 0 EmptyString Lj) as N. cbv beta in N. apply Hag; [exact N|].
      apply in_concat. exists vars. auto.
  Qed.

  Lemma single_good : forall p b o, flat_map raw_of input = [(p, b, o)] -> good_entry (mk_pattern (p_pred p) (p_bound p) None, b, o).
  Proof.
    intros p b o H.
    assert (He : In (p, b, o) (flat_map raw_of input)) by (rewrite H; left; reflexivity).
    apply in_flat_map in He. destruct He as [vars [Hv He]]. pose proof (raw_good vars _ Hv He) as [G1 [G2 G3]].
    split; [exact G1|]. split; [exact G2|]. cbn [fst snd] in *. clear G1 G2 G3.
    unfold raw_of in He. pose proof (subset_lt vars) as L.
    destruct (subset_of bound vars) as [|i rest] eqn:E; [destruct He|]. destruct He as [He | []].
    injection He as <- <- <-. cbn [p_bound p_pred].
    assert (W : forall j, j < List.length bound -> In j (i :: rest)).
    { intros j Lj. assert (Hb : In (nth j bound EmptyString) bound) by (apply nth_In; exact Lj).
      pose proof (proj1 (bound_In _) Hb) as [_ Hc]. apply in_concat in Hc. destruct Hc as [vars' [Hv' Hw]].
      assert (Hj : In j (subset_of bound vars')).
      { apply subset_spec. exists (nth j bound EmptyString). split; [exact Hw|]. destruct (index_In _ _ Hb) as [j' E'].
        rewrite E'. apply index_some in E'. f_equal. eapply NoDup_nth_error; [exact bound_NoDup| |].
        - apply nth_error_Some. rewrite E'. discriminate.
        - rewrite E'. symmetry. apply nth_error_nth'. exact Lj. }
      destruct (subset_of bound vars') as [|i' rest'] eqn:E'; [destruct Hj|].
      assert (Hr : In (mk_pattern (i_pred a) (bound_flags input a) (Some (i' :: rest')), map (fun j => nth j bound EmptyString) (i' :: rest'), origin (nth i' bound EmptyString) input) (flat_map raw_of input)).
      { apply in_flat_map. exists vars'. split; [exact Hv'|]. unfold raw_of. rewrite E'. left. reflexivity. }
      rewrite H in Hr. destruct Hr as [Hr | []]. apply (f_equal (fun e : entry => p_subset (fst (fst e)))) in Hr. cbn [fst p_subset] in Hr.
      injection Hr as -> ->. exact Hj. }
    assert (S : i :: rest = seq 0 (List.length bound)).
    { apply sorted_unique.
      - rewrite <- E. apply sort_sorted.
      - apply seq_sorted.
      - rewrite <- E. apply subset_NoDup. eapply NoDup_concat_in; eassumption.
      - apply seq_NoDup.
      - intros x. rewrite in_seq. split; intros Hx; [destruct (L x Hx); lia | apply W; lia]. }
    intros s t Hag.
    transitivity (map s bound).
    - unfold positions. cbn [p_subset p_bound]. unfold bound_flags. apply at_flagged. intros k v Hk Hm. apply Hag; [exact Hk | apply mem_In; exact Hm].
    - change (map s bound = map s (map (fun j => nth j bound EmptyString) (i :: rest))). rewrite S. f_equal. clear. generalize bound. intros l. induction l as [|x l IH]; [reflexivity|]. cbn. f_equal. rewrite <- seq_shift, map_map. exact IH.
  Qed.

  Lemma entries_raw : entries input a = match flat_map raw_of input with [(p, b, o)] => [(mk_pattern (p_pred p) (p_bound p) None, b, o)] | _ => flat_map raw_of input end.
  Proof. reflexivity. Qed.

  Lemma entries_good : forall e, In e (entries input a) -> good_entry e.
  Proof.
    intros e He. rewrite entries_raw in He.
    assert (R : In e (flat_map raw_of input) -> good_entry e).
    { intros H. apply in_flat_map in H. destruct H as [vars [Hv H]]. eapply raw_good; eassumption. }
    destruct (flat_map raw_of input) as [|[[p b] o] [|x rest]] eqn:E; [destruct He| |].
    - destruct He as [<- | []]. apply single_good. exact E.
    - apply R. exact He.
  Qed.

  Lemma entries_nonempty : (exists v, In v (i_vars a) /\ In v (concat input)) -> entries input a <> [].
  Proof.
    intros [v [H1 H2]]. assert (N : flat_map raw_of input <> []).
    { apply in_concat in H2. destruct H2 as [vars [Hv Hw]]. assert (Hb : In v bound) by (apply bound_In; split; [exact H1 | apply in_concat; exists vars; auto]).
      destruct (index_In _ _ Hb) as [j Ej]. assert (Hj : In j (subset_of bound vars)) by (apply subset_spec; exists v; auto).
      intros E. assert (R : raw_of vars = []).
      { destruct (raw_of vars) as [|x l] eqn:Er; [reflexivity|]. exfalso.
        assert (In x (flat_map raw_of input)) by (apply in_flat_map; exists vars; rewrite Er; split; [exact Hv | left; reflexivity]). rewrite E in H. destruct H. }
      unfold raw_of in R. destruct (subset_of bound vars); [destruct Hj | discriminate]. }
    rewrite entries_raw. destruct (flat_map raw_of input) as [|[[p b] o] [|x rest]]; [contradiction | discriminate | discriminate].
  Qed.
End entries.

Lemma project_map : forall (s : assignment) vars b, incl b vars -> project vars b (map s vars) = map s b.
Proof.
  intros s vars b H. unfold project. apply map_ext_in. intros v Hv. destruct (index_In v vars (H v Hv)) as [i Ei]. rewrite Ei.
  apply index_some in Ei. apply nth_error_nth. apply map_nth_error. exact Ei.
Qed.

Section run.
  Variable source : string -> row -> Prop.
  Variable fetch : string -> list (list nat * list row * list row) -> row -> Prop.
  Hypothesis Hfetch : delivers source fetch.

  Lemma tables_apply : forall s r inputs p t, In t (s_tables (apply fetch s r inputs) p) <-> In t (s_tables s p) \/ In t (current r inputs p).
  Proof.
    intros s r inputs p t. cbn [s_tables apply]. rewrite in_app_iff. unfold fresh. rewrite filter_In.
    destruct (in_dec (list_eq_dec Nat.eq_dec) t (s_tables s p)); cbn; intuition discriminate.
  Qed.

  Lemma fresh_In : forall s r inputs p t, In t (fresh s r inputs p) <-> In t (current r inputs p) /\ ~ In t (s_tables s p).
  Proof.
    intros s r inputs p t. unfold fresh. rewrite filter_In.
    destruct (in_dec (list_eq_dec Nat.eq_dec) t (s_tables s p)); cbn; intuition discriminate.
  Qed.

  Lemma current_entry : forall r inputs p t, In t (current r inputs p) -> exists a b o, In a (r_atoms r) /\ In (p, b, o) (entries (r_input r) a).
  Proof.
    intros r inputs p t H. apply in_flat_map in H. destruct H as [[[q b] o] [He H]]. cbn [fst snd] in H.
    destruct (pattern_dec q p) as [-> | N]; [|destruct H]. apply in_flat_map in He. destruct He as [a [Ha He]]. exists a, b, o. auto.
  Qed.

  Lemma run_snoc : forall h x, run fetch (h ++ [x]) = apply fetch (run fetch h) (fst x) (snd x).
  Proof. intros h x. unfold run. rewrite fold_left_app. reflexivity. Qed.

  Lemma run_sound : forall h q t, s_imported (run fetch h) q t -> source q t.
  Proof.
    induction h as [|x h IH] using rev_ind; intros q t H; [destruct H|]. rewrite run_snoc in H. cbn [s_imported apply] in H.
    destruct H as [H | [a [_ [_ H]]]]; [apply IH; exact H|]. apply (proj1 (Hfetch _ _ _) H).
  Qed.

  Lemma run_tables : forall h r inputs p t, In (r, inputs) h -> In t (current r inputs p) -> In t (s_tables (run fetch h) p).
  Proof.
    induction h as [|x h IH] using rev_ind; intros r inputs p t Hin H; [destruct Hin|]. rewrite run_snoc. apply tables_apply.
    apply in_app_or in Hin. destruct Hin as [Hin | [-> | []]]; [left; eapply IH; eassumption | right; exact H].
  Qed.

  Variable program : list rule.
  Hypothesis Hgood : forall r, In r program -> good_rule r.
  Hypothesis Hsame : same_patterns program.

  Definition complete_state (s : state) : Prop :=
    forall r ps p t, In r program -> In ps (products r) -> In p ps ->
      (forall p', In p' ps -> In (at_positions (positions p') t) (s_tables s p')) -> source (p_pred p) t -> s_imported s (p_pred p) t.

  Lemma all_or_one : forall (s : state) t ps, (forall p, In p ps -> In (at_positions (positions p) t) (s_tables s p)) \/
    exists p, In p ps /\ ~ In (at_positions (positions p) t) (s_tables s p).
  Proof.
    intros s t. induction ps as [|p ps IH]; [left; intros p []|].
    destruct (in_dec (list_eq_dec Nat.eq_dec) (at_positions (positions p) t) (s_tables s p)) as [H | H].
    - destruct IH as [IH | [q [Hq IH]]]; [left; intros q [<- | Hq]; auto | right; exists q; split; [right; exact Hq | exact IH]].
    - right. exists p. split; [left; reflexivity | exact H].
  Qed.

  Lemma complete_apply : forall s r inputs, In r program -> complete_state s -> complete_state (apply fetch s r inputs).
  Proof.
    intros s r inputs Hr C r0 ps p t Hr0 Hps Hp Ht Hs. cbn [s_imported apply].
    destruct (all_or_one s t ps) as [A | [q [Hq A]]]; [left; eapply C; eassumption|]. right.
    pose proof (Ht q Hq) as Tq. apply tables_apply in Tq. destruct Tq as [Tq | Tq]; [contradiction|].
    pose proof (proj2 (fresh_In s r inputs q _) (conj Tq A)) as Fq.
    destruct (current_entry _ _ _ _ Tq) as [a0 [b0 [o0 [Ha0 He0]]]].
    destruct (Hsame r0 r q ps (map (fun e : entry => fst (fst e)) (entries (r_input r) a0)) Hr0 Hr Hps) as [ps'' [Hps'' [I1 I2]]];
      [apply in_map_iff; exists a0; auto | exact Hq | apply in_map_iff; exists (q, b0, o0); auto |].
    apply in_map_iff in Hps''. destruct Hps'' as [a [<- Ha]]. exists a. split; [exact Ha|].
    destruct (Hgood r Hr) as [G1 G2]. destruct (G2 a Ha) as [G3 G4].
    assert (Epred : i_pred a = p_pred p).
    { pose proof (I1 _ Hp) as Hp'. apply in_map_iff in Hp'. destruct Hp' as [e [<- He]].
      destruct (entries_good (r_input r) a G1 G3 e He) as [Ep _]. symmetry. exact Ep. }
    split; [exact Epred|]. apply (proj2 (Hfetch _ _ _)); [exact Hs|]. split.
    - intros ks old new Hf. apply in_map_iff in Hf. destruct Hf as [e [Ee He]]. injection Ee as <- <- <-.
      assert (Hi : In (fst (fst e)) ps) by (apply I2; apply in_map_iff; exists e; auto).
      pose proof (Ht _ Hi) as T. cbn [s_tables apply] in T. apply in_app_or in T. exact T.
    - pose proof (I1 _ Hq) as Hq'. apply in_map_iff in Hq'. destruct Hq' as [e [Ee He]].
      exists (positions (fst (fst e))), (s_tables s (fst (fst e))), (fresh s r inputs (fst (fst e))). split; [apply in_map_iff; exists e; auto|].
      rewrite Ee. exact Fq.
  Qed.

  Lemma run_complete : forall h, (forall r inputs, In (r, inputs) h -> In r program) -> complete_state (run fetch h).
  Proof.
    induction h as [|x h IH] using rev_ind; intros Hh.
    - intros r ps p t _ _ Hp Ht _. destruct (Ht p Hp).
    - rewrite run_snoc. destruct x as [r inputs]. apply complete_apply; [apply (Hh r inputs); apply in_or_app; right; left; reflexivity|].
      apply IH. intros r' i' Hi. apply (Hh r' i'). apply in_or_app. left. exact Hi.
  Qed.

  Lemma imported_complete : forall h r s a t, (forall r inputs, In (r, inputs) h -> In r program) -> In r program -> seen h r s -> In a (r_atoms r) ->
    agrees r a s t -> source (i_pred a) t -> s_imported (run fetch h) (i_pred a) t.
  Proof.
    intros h r s a t Hh Hr Hseen Ha Hag Hs. destruct (Hgood r Hr) as [G1 G2]. destruct (G2 a Ha) as [G3 G4].
    pose proof (entries_nonempty (r_input r) a G4) as N.
    destruct (entries (r_input r) a) as [|e0 es] eqn:Ee; [contradiction|].
    assert (G : forall e, In e (e0 :: es) -> good_entry (r_input r) a e) by (rewrite <- Ee; apply entries_good; assumption).
    destruct (G e0 (or_introl eq_refl)) as [Ep _]. rewrite <- Ep. rewrite <- Ep in Hs.
    apply (run_complete h Hh r (map (fun e : entry => fst (fst e)) (e0 :: es))); [exact Hr | | left; reflexivity | | exact Hs].
    - apply in_map_iff. exists a. split; [rewrite Ee; reflexivity | exact Ha].
    - intros p' Hp'. apply in_map_iff in Hp'. destruct Hp' as [e [<- He]]. destruct (G e He) as [_ [[vars [Hn Hi]] Hat]].
      rewrite (Hat s t Hag). destruct (Hseen _ _ Hn) as [inputs [Hin Hrow]].
      eapply run_tables; [exact Hin|]. apply in_flat_map. exists e. split.
      + apply in_flat_map. exists a. split; [exact Ha | rewrite Ee; exact He].
      + destruct (pattern_dec (fst (fst e)) (fst (fst e))) as [_ | X]; [|contradiction]. apply in_map_iff. exists (map s vars). split; [|exact Hrow].
        rewrite (nth_error_nth _ _ [] Hn). apply project_map. exact Hi.
  Qed.
End run.

Lemma flagged_length : forall flags n, List.length (flat_map (fun e : nat * bool => if snd e then [fst e] else []) (combine (seq n (List.length flags)) flags)) =
  List.length (filter (fun b : bool => b) flags).
Proof. induction flags as [|b flags IH]; intros n; [reflexivity|]. cbn. destruct b; cbn; rewrite IH; reflexivity. Qed.

Lemma entry_arity : forall input a p b o, NoDup (List.concat input) -> NoDup (i_vars a) -> In (p, b, o) (entries input a) -> List.length b = arity p.
Proof.
  intros input a p b o H1 H2 H. destruct (entries_good input a H1 H2 _ H) as [_ [_ G]]. specialize (G (fun _ => 0) []).
  cbn [fst snd] in G. assert (E : at_positions (positions p) [] = map (fun _ => 0) b) by (apply G; intros k v _ _; destruct k; reflexivity).
  apply (f_equal (@List.length nat)) in E. unfold at_positions in E. rewrite !map_length in E. rewrite <- E. unfold positions, arity.
  destruct (p_subset p); [apply map_length | apply flagged_length].
Qed.

Lemma product_pred : forall r a p, good_rule r -> In a (r_atoms r) -> In p (map (fun e : entry => fst (fst e)) (entries (r_input r) a)) -> p_pred p = i_pred a.
Proof.
  intros r a p [G1 G2] Ha H. destruct (G2 a Ha) as [G3 _]. apply in_map_iff in H. destruct H as [e [<- He]].
  destruct (entries_good (r_input r) a G1 G3 e He) as [E _]. exact E.
Qed.

Lemma own_same : forall program, (forall r, In r program -> good_rule r) ->
  (forall r r' a a', In r program -> In r' program -> In a (r_atoms r) -> In a' (r_atoms r') -> i_pred a = i_pred a' -> r = r' /\ a = a') -> same_patterns program.
Proof.
  intros program G U r r' p ps ps' Hr Hr' Hps Hps' Hp Hp'. apply in_map_iff in Hps, Hps'.
  destruct Hps as [a [Ea Ha]], Hps' as [a' [Ea' Ha']]. rewrite <- Ea in Hp. rewrite <- Ea' in Hp'.
  pose proof (product_pred r a p (G r Hr) Ha Hp) as E. pose proof (product_pred r' a' p (G r' Hr') Ha' Hp') as E'.
  destruct (U r r' a a' Hr Hr' Ha Ha') as [-> ->]; [congruence|].
  exists ps. split; [|split; intros x Hx; exact Hx]. apply in_map_iff. exists a'. split; assumption.
Qed.

Lemma nothing_fresh : forall fetch h r inputs,
  (forall i t, In t (nth i inputs []) -> exists inputs', In (r, inputs') h /\ In t (nth i inputs' [])) -> forall p, fresh (run fetch h) r inputs p = [].
Proof.
  intros fetch h r inputs H p. destruct (fresh (run fetch h) r inputs p) as [|t l] eqn:E; [reflexivity|]. exfalso.
  assert (J : In t (fresh (run fetch h) r inputs p)) by (rewrite E; left; reflexivity).
  apply (proj1 (fresh_In (run fetch h) r inputs p t)) in J. destruct J as [I N]. apply N. apply in_flat_map in I. destruct I as [e [He I]]. revert I. destruct (pattern_dec (fst (fst e)) p) as [Ep | X] eqn:Ed; intros I; [|destruct I].
  apply in_map_iff in I. destruct I as [u [<- Hu]]. destruct (H _ _ Hu) as [inputs' [Hin Hu']].
  eapply run_tables; [exact Hin|]. apply in_flat_map. exists e. split; [exact He|]. rewrite Ed. apply in_map_iff. exists u. auto.
Qed.
