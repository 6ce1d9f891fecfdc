(** Merging in rules with positive imports. *)
From Coq Require Import String List Arith Bool Lia.
From Verif Require Import QueryModel QuerySpec QueryProofs1 QueryProofs2 RuleMergeModel RuleMergeSpec RuleMergeProofs1 RuleMergeProofs2.
Import ListNotations.
Local Open Scope list_scope.

(** ** Equalities of a body *)
Lemma equalities_fold body : forall m, fold_left (fun m l => match l with LEqual x c => (x, c) :: m | _ => m end) body m = 
  fold_left (fun m l => match l with LEqual x c => (x, c) :: m | _ => m end) body [] ++ m.
Proof.
  induction body as [|l body IH]; intros m; cbn [fold_left]; auto. destruct l as [p vs|p vs|x c|k xs]; try apply IH.
  rewrite IH, (IH [(x, c)]). now rewrite <- app_assoc.
Qed.
Lemma in_equalities body x c : In (x, c) (equalities body) <-> In (LEqual x c) body.
Proof.
  unfold equalities. induction body as [|l body IH]; cbn [fold_left]; [tauto|]. destruct l as [p vs|p vs|y d|k xs].
  - rewrite IH. cbn. split; [auto|intros [H|H]; [discriminate|auto]].
  - rewrite IH. cbn. split; [auto|intros [H|H]; [discriminate|auto]].
  - rewrite equalities_fold, in_app_iff, IH. cbn. split.
    + intros [H|[H|[]]]; [auto|left; congruence].
    + intros [H|H]; [right; left; congruence|auto].
  - rewrite IH. cbn. split; [auto|intros [H|H]; [discriminate|auto]].
Qed.
Lemma value_of_in eqs x c : value_of eqs x = Some c -> In (x, c) eqs.
Proof.
  unfold value_of. destruct (find _ eqs) as [(y, d)|] eqn:F; [|discriminate]. intros [= ->]. apply find_some in F. destruct F as (F & Q).
  apply String.eqb_eq in Q. cbn in Q. now subst.
Qed.
Lemma value_of_some eqs x c : In (x, c) eqs -> exists d, value_of eqs x = Some d.
Proof.
  intros H. unfold value_of. destruct (find _ eqs) as [(y, d)|] eqn:F; [eauto|]. apply (find_none _ _ F) in H. cbn in H. now rewrite String.eqb_refl in H.
Qed.
Lemma value_of_body body x c : one_constant body -> (value_of (equalities body) x = Some c <-> In (LEqual x c) body).
Proof.
  intros O. split; intros H; [now apply in_equalities, value_of_in|]. assert (G := H). apply in_equalities, value_of_some in G. destruct G as (d & G).
  rewrite G. f_equal. apply (O x); auto. now apply in_equalities, value_of_in.
Qed.

Section rules.
  Variable order : list string -> list string.
  Variable sparql : nat -> bool.
  Hypothesis Ho : set_listing order.
  Variable ends : nat -> endpoint.

  Section clauses.
    Variable eqs : list (string * nat).
    Hypothesis He : forall x c, value_of eqs x = Some c -> sparql c = true.

    Lemma constants_some vars : forall k, exists cs, constants_at sparql k vars eqs = Some cs.
    Proof.
      induction vars as [|x vars IH]; intros k; cbn [constants_at]; [eauto|]. destruct (IH (S k)) as (cs & E). 
      destruct (value_of eqs x) as [c|] eqn:V; [|eauto]. rewrite (He x c V), E. eauto.
    Qed.

    Lemma position_some v vars : In v vars -> has_value eqs v = false -> forall k, exists i, position k v vars eqs = Some i.
    Proof.
      induction vars as [|x vars IH]; intros H V k; [destruct H|]. cbn [position]. destruct (position (S k) v vars eqs) as [i|] eqn:P; [eauto|].
      destruct H as [-> |H]; [rewrite String.eqb_refl, V; cbn; eauto|]. destruct (IH H V (S k)) as (i & Q). congruence.
    Qed.

    Lemma positions_some lvars rvars vs : (forall v, In v vs -> In v lvars /\ In v rvars /\ has_value eqs v = false) ->
      exists js, positions vs lvars rvars eqs = Some js.
    Proof.
      induction vs as [|v vs IH]; intros H; cbn [positions]; [eauto|]. destruct (H v ltac:(now left)) as (A & B & C).
      destruct (position_some v lvars A C 0) as (i & ->). destruct (position_some v rvars B C 0) as (j & ->).
      destruct IH as (js & ->); [intros w Hw; apply H; now right|]. eauto.
    Qed.

    Lemma merge_some l r : good_clause ends l -> good_clause ends r -> c_endpoint l = c_endpoint r ->
      (forall v, In v (c_vars l) -> In v (c_vars r) -> has_value eqs v = false) ->
      exists c, try_merge order sparql l r eqs = Done c /\ c_endpoint c = c_endpoint l /\ c_pred c = c_pred l /\
        forall v, In v (c_vars c) -> (In v (c_vars l) \/ In v (c_vars r)) /\ has_value eqs v = false.
    Proof.
      intros (_ & _ & _ & _ & (il & lvs & Gl) & _) (_ & _ & _ & _ & (ir & rvs & Gr) & _) En D. unfold try_merge. rewrite En, Nat.eqb_refl.
      destruct (constants_some (c_vars l) 0) as (lc & ->). destruct (constants_some (c_vars r) 0) as (rc & ->).
      destruct (positions_some (c_vars l) (c_vars r) (order (nodup string_dec (filter (fun v => mem v (c_vars r)) (c_vars l))))) as (js & ->).
      { intros v Hv. rewrite (proj1 Ho _ v), nodup_In, filter_In in Hv. destruct Hv as (A & B). apply mem_In in B. auto. }
      rewrite Gl, Gr. cbn [merge_patterns rename_project]. eexists. split; [reflexivity|]. cbn [c_endpoint c_pred c_vars]. split; auto. split; auto.
      intros v Hv. apply filter_In in Hv. destruct Hv as (Hv & V). apply negb_true_iff in V. split; auto. apply in_app_or in Hv. destruct Hv as [Hv|Hv]; auto.
      apply filter_In in Hv. tauto.
    Qed.

    Lemma merge_all_holds rest : forall l, Forall (good_clause ends) (l :: rest) -> (forall c, In c rest -> c_endpoint c = c_endpoint l) ->
      (forall v, In v (c_vars l) -> has_value eqs v = false) ->
      exists c, merge_all order sparql l rest eqs = Done c /\ good_clause ends c /\ c_pred c = c_pred l /\
        (forall s, respects eqs s -> (clause_holds ends c s <-> forall x, In x (l :: rest) -> clause_holds ends x s)) /\
        forall v, In v (c_vars c) -> has_value eqs v = false.
    Proof.
      induction rest as [|r rest IH]; intros l F En V; cbn [merge_all].
      - inversion F as [|? ? G _]; subst. exists l. split; auto. split; auto. split; auto. split; auto. intros s R. split; [intros H x [<- |[]]; auto|intros H; apply H; now left].
      - inversion F as [|? ? G F']; subst. inversion F' as [|? ? Gr F'']; subst. 
        destruct (merge_some l r G Gr) as (m & M & En' & Pm & Vm); [symmetry; apply En; now left|auto|]. rewrite M.
        destruct (merge_holds order sparql Ho ends eqs l r m G Gr M) as (Gm & Hm).
        destruct (IH m) as (c & A & B & C & D & K); auto.
        + intros c Hc. rewrite En'. apply En. now right.
        + intros v Hv. now apply Vm.
        + exists c. split; auto. split; auto. split; [congruence|]. split; auto. intros s R. rewrite (D s R). split.
          * intros H x [<- |[<- |Hx]]; [apply (Hm s R), H; now left|apply (Hm s R), H; now left|apply H; now right].
          * intros H x [<- |Hx]; [apply (Hm s R); split; apply H; cbn; auto|apply H; cbn; auto].
    Qed.

    Lemma merge_and_push_holds imports : imports <> [] -> Forall (good_clause ends) imports ->
      (forall c d, In c imports -> In d imports -> c_endpoint c = c_endpoint d) ->
      (forall i j c d v, nth_error imports i = Some c -> nth_error imports j = Some d -> i <> j -> In v (c_vars c) -> In v (c_vars d) -> has_value eqs v = false) ->
      exists c, merge_and_push order sparql imports eqs = Done c /\ In (c_pred c) (map c_pred imports) /\
        (forall s, respects eqs s -> (clause_holds ends c s <-> forall x, In x imports -> clause_holds ends x s)) /\
        forall v, In v (c_vars c) -> has_value eqs v = false.
    Proof.
      intros N F En D. destruct imports as [|l [|r rest]]; [congruence| |]; cbn [merge_and_push].
      - inversion F as [|? ? G _]; subst. eexists. split; [reflexivity|]. split; [cbn; auto|]. split.
        + intros s R. rewrite (push_holds order sparql Ho ends eqs l s G (constants_some _ 0) R). split; [intros H x [<- |[]]; auto|intros H; apply H; now left].
        + intros v Hv. cbn in Hv. apply filter_In in Hv. now apply negb_true_iff.
      - inversion F as [|? ? G F']; subst. inversion F' as [|? ? Gr F'']; subst. cbn [merge_all].
        destruct (merge_some l r G Gr) as (m & M & En' & Pm & Vm); [apply En; cbn; auto|intros v Hl Hr; apply (D 0 1 l r v); auto|]. rewrite M.
        destruct (merge_holds order sparql Ho ends eqs l r m G Gr M) as (Gm & Hm).
        destruct (merge_all_holds rest m) as (c & A & B & C & K & L); auto.
        + intros c Hc. rewrite En'. apply En; cbn; auto.
        + intros v Hv. now apply Vm.
        + exists c. split; auto. split; [rewrite C, Pm; cbn; auto|]. split; auto. intros s R. rewrite (K s R). split.
          * intros H x [<- |[<- |Hx]]; [apply (Hm s R), H; now left|apply (Hm s R), H; now left|apply H; now right].
          * intros H x [<- |Hx]; [apply (Hm s R); split; apply H; cbn; auto|apply H; cbn; auto].
    Qed.
  End clauses.

  Variable other : nat -> list nat -> Prop.

  Section rule.
    Variable r : rule.
    Hypothesis Hn : r_imports r <> [].
    Hypothesis Hpos : forall neg c, In (neg, c) (r_imports r) -> neg = false /\ good_clause ends c.
    Hypothesis Hend : forall n m c d, In (n, c) (r_imports r) -> In (m, d) (r_imports r) -> c_endpoint c = c_endpoint d.
    Hypothesis Hone : one_constant (r_body r).
    Hypothesis Hsparql : forall x c, In (LEqual x c) (r_body r) -> sparql c = true.
    Hypothesis Hdiff : forall i j n m c d v, nth_error (r_imports r) i = Some (n, c) -> nth_error (r_imports r) j = Some (m, d) -> i <> j ->
      In v (c_vars c) -> In v (c_vars d) -> ~ In v (constant_vars (r_body r)).
    Let eqs := equalities (r_body r).

    Lemma in_constant_vars x : In x (constant_vars (r_body r)) <-> has_value eqs x = true.
    Proof.
      rewrite has_value_not. unfold constant_vars, eqs. rewrite in_flat_map. split.
      - intros ([p vs|p vs|y c|k xs] & H & G); cbn in G; try destruct G as [<- |[]]; try contradiction. exists c. now apply value_of_body.
      - intros (c & H). apply value_of_body in H; auto. exists (LEqual x c). split; auto. now left.
    Qed.

    Lemma positive_part imports : (forall neg c, In (neg, c) imports -> neg = false) ->
      flat_map (fun i : bool * clause => if Bool.eqb (fst i) false then [snd i] else []) imports = map snd imports /\
      flat_map (fun i : bool * clause => if Bool.eqb (fst i) true then [snd i] else []) imports = [].
    Proof.
      induction imports as [|(n, c) imports IH]; cbn; intros H; auto. rewrite (H n c ltac:(now left)). cbn.
      destruct IH as (-> & ->); [intros m d G; apply (H m d); now right|]. auto.
    Qed.

    Lemma in_snd x : In x (map snd (r_imports r)) <-> In (false, x) (r_imports r).
    Proof.
      rewrite in_map_iff. split; [intros ((n, c) & <- & H); destruct (Hpos n c H) as (-> & _); auto|intros H; exists (false, x); auto].
    Qed.

    Lemma merged_clause : exists c, merge_and_push order sparql (map snd (r_imports r)) eqs = Done c /\ In (c_pred c) (map c_pred (map snd (r_imports r))) /\
      (forall s, respects eqs s -> (clause_holds ends c s <-> forall x, In (false, x) (r_imports r) -> clause_holds ends x s)) /\
      forall v, In v (c_vars c) -> has_value eqs v = false.
    Proof.
      destruct (merge_and_push_holds eqs) with (imports := map snd (r_imports r)) as (c & A & B & C & D).
      - intros x c H. apply (Hsparql x). now apply value_of_body in H.
      - destruct (r_imports r); [congruence|discriminate].
      - apply Forall_forall. intros x Hx. apply in_snd in Hx. now apply (Hpos false x).
      - intros c d Hc Hd. apply in_snd in Hc, Hd. eapply Hend; eauto.
      - intros i j c d v Hi Hj Nij Hc Hd. rewrite nth_error_map in Hi, Hj. destruct (nth_error (r_imports r) i) as [(n1, c1)|] eqn:Ei; [|discriminate].
        destruct (nth_error (r_imports r) j) as [(n2, c2)|] eqn:Ej; [|discriminate]. cbn in Hi, Hj. injection Hi as Q1. injection Hj as Q2. subst c1 c2.
        destruct (has_value eqs v) eqn:V; auto. exfalso. apply in_constant_vars in V. exact (Hdiff i j n1 n2 c d v Ei Ej Nij Hc Hd V).
      - exists c. split; auto. split; auto. split; auto. intros s R. rewrite (C s R). split; intros H x Hx; apply H; now apply in_snd.
    Qed.

    Lemma body_respects I s : (forall l, In l (r_body r) -> literal_holds other I l s) -> respects eqs s.
    Proof. intros H x c V. apply value_of_body in V; auto. exact (H _ V). Qed.

    Lemma merge_rule_form inel : (forall a, In a (r_head r) -> inel (fst a) = false) -> exists c,
      merge_and_push order sparql (map snd (r_imports r)) eqs = Done c /\
      (merge_rule order sparql inel r = Done (mk_rule (r_head r) (r_body r) [(false, c)], []) \/
       merge_rule order sparql inel r = Done (mk_rule (r_head r) (drop_equalities (r_body r) eqs ++ [LPos (c_pred c) (c_vars c)]) [], [c])).
    Proof.
      intros Hi. destruct merged_clause as (c & A & _). exists c. split; auto. unfold merge_rule.
      assert (B : existsb (fun a => inel (fst a)) (r_head r) = false).
      { destruct (existsb _ (r_head r)) eqn:X; auto. apply existsb_exists in X. destruct X as (a & Ha & X). rewrite Hi in X; [discriminate|auto]. }
      rewrite B. destruct (r_imports r) as [|i0 is0] eqn:Ei; [congruence|]. cbn [orb]. rewrite <- Ei in *.
      destruct (positive_part (r_imports r)) as (-> & ->); [intros n d H; apply (Hpos n d H)|]. fold eqs. rewrite A. cbn [merge_and_push update_import].
      destruct (match eqs with [] => true | _ => _ end); auto.
    Qed.

    Lemma kept_matches c I s : merge_and_push order sparql (map snd (r_imports r)) eqs = Done c ->
      matches ends other I r s <-> matches ends other I (mk_rule (r_head r) (r_body r) [(false, c)]) s.
    Proof.
      intros Hc. destruct merged_clause as (c' & A & _ & B & _). rewrite Hc in A. injection A as <-. unfold matches. cbn [r_body r_imports]. split.
      - intros (H & G). split; auto. intros neg x [Q|[]]. injection Q as <- <-. apply (B s (body_respects I s H)). intros x Hx. apply (G false x Hx).
      - intros (H & G). split; auto. intros neg x Hx. destruct (Hpos neg x Hx) as (-> & _). specialize (G false c (or_introl eq_refl)). cbn in G.
        apply (proj1 (B s (body_respects I s H)) G). exact Hx.
    Qed.

    Lemma moved_derives c I p row : merge_and_push order sparql (map snd (r_imports r)) eqs = Done c ->
      (forall n x, In (n, x) (r_imports r) -> (forall t, ~ I (c_pred x) t) /\ forall l, In l (r_body r) -> match l with LPos q _ | LNeg q _ => q <> c_pred x | _ => True end) ->
      (forall x, In x (constant_vars (r_body r)) -> (forall q vs, In (q, vs) (r_head r) -> ~ In x vs) /\
        forall l, In l (r_body r) -> In x (literal_vars l) -> exists d, l = LEqual x d) ->
      (derives ends other I r p row <->
       derives ends other (with_imports ends I [c]) (mk_rule (r_head r) (drop_equalities (r_body r) eqs ++ [LPos (c_pred c) (c_vars c)]) []) p row).
    Proof.
      intros Hc Hfresh Hcon. destruct merged_clause as (c' & A & P & B & V). rewrite Hc in A. injection A as <-.
      assert (Pc : (forall t, ~ I (c_pred c) t) /\ forall l, In l (r_body r) -> match l with LPos q _ | LNeg q _ => q <> c_pred c | _ => True end).
      { apply in_map_iff in P. destruct P as (x & Q & Hx). apply in_snd in Hx. rewrite <- Q. exact (Hfresh false x Hx). }
      destruct Pc as (Pc1 & Pc2).
      assert (Same : forall l s, In l (r_body r) -> (literal_holds other (with_imports ends I [c]) l s <-> literal_holds other I l s)).
      { intros l s Hl. specialize (Pc2 l Hl). destruct l as [q vs|q vs|x d|k xs]; cbn; try reflexivity; unfold with_imports.
        - split; [intros [H|(d & [<- |[]] & Q & _)]; [auto|congruence]|auto].
        - split; [intros H G; apply H; auto|intros H [G|(d & [<- |[]] & Q & _)]; [auto|congruence]]. }
      unfold derives, matches. cbn [r_body r_imports r_head]. split.
      - intros (s & vs & (H & G) & Hh & ->). exists s, vs. split; auto. split; [|intros neg x []]. intros l Hl. apply in_app_or in Hl. destruct Hl as [Hl|[<- |[]]].
        + unfold drop_equalities in Hl. apply filter_In in Hl. destruct Hl as (Hl & _). apply Same; auto.
        + cbn. right. exists c. split; [now left|]. split; auto. rewrite map_map.
          apply (B s (body_respects I s H)). intros x Hx. exact (G false x Hx).
      - intros (s & vs & (H & _) & Hh & ->).
        set (s' := fun x => match value_of eqs x with Some d => d | None => s x end).
        assert (Sv : forall xs, (forall x, In x xs -> has_value eqs x = false) -> map s' xs = map s xs).
        { intros xs Hxs. apply map_ext_in. intros x Hx. specialize (Hxs x Hx). unfold s', has_value in *. destruct (value_of eqs x); [discriminate|auto]. }
        assert (R : respects eqs s') by (intros x d Hd; unfold s'; now rewrite Hd).
        assert (NotC : forall x l, In l (r_body r) -> In x (literal_vars l) -> (forall d, l <> LEqual x d) -> has_value eqs x = false).
        { intros x l Hl Hx N. destruct (has_value eqs x) eqn:Vx; auto. exfalso. apply in_constant_vars in Vx. destruct (Hcon x Vx) as (_ & K).
          destruct (K l Hl Hx) as (d & Q). exact (N d Q). }
        exists s', vs. split; [|split; auto].
        + split.
          * intros l Hl.
            assert (Keep : (forall x d, l <> LEqual x d) -> literal_holds other I l s).
            { intros N. apply Same; auto. apply H, in_or_app. left. apply filter_In. split; auto. destruct l; auto. exfalso. eapply N; eauto. }
            destruct l as [q xs|q xs|x d|k xs]; cbn in *.
            -- rewrite Sv; [apply Keep; discriminate|]. intros x Hx. apply (NotC x _ Hl Hx). discriminate.
            -- rewrite Sv; [apply Keep; discriminate|]. intros x Hx. apply (NotC x _ Hl Hx). discriminate.
            -- apply R. now apply value_of_body.
            -- rewrite Sv; [apply Keep; discriminate|]. intros x Hx. apply (NotC x _ Hl Hx). discriminate.
          * intros neg x Hx. destruct (Hpos neg x Hx) as (-> & _). revert x Hx. apply (B s' R). unfold clause_holds.
            specialize (H (LPos (c_pred c) (c_vars c)) ltac:(apply in_or_app; right; now left)). cbn in H.
            destruct H as [H|(d & [<- |[]] & _ & H)]; [exfalso; exact (Pc1 _ H)|]. rewrite map_map in H.
            rewrite <- (map_map s' Some), Sv by exact V. now rewrite map_map.
        + symmetry. apply Sv. intros x Hx. destruct (has_value eqs x) eqn:Vx; auto. exfalso. apply in_constant_vars in Vx.
          exact (proj1 (Hcon x Vx) p vs Hh Hx).
    Qed.
  End rule.
End rules.
