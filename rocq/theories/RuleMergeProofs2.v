(** Merged clauses hold exactly if both clauses hold. *)
From Coq Require Import String List Arith Bool Lia.
From Verif Require Import QueryModel QuerySpec QueryProofs1 QueryProofs2 QueryProofs3 QueryProofs4 QueryProofs5 RuleMergeModel RuleMergeSpec RuleMergeProofs1.
Import ListNotations.
Local Open Scope list_scope.

(** ** Dropping columns *)
Lemma without_all {A} k (gone : list nat) (b : A -> bool) l :
  (forall i x, nth_error l i = Some x -> b x = negb (existsb (Nat.eqb (k + i)) gone)) -> without k gone l = filter b l.
Proof.
  revert k. induction l as [|x l IH]; intros k H; cbn [without filter]; auto. assert (Hx := H 0 x eq_refl). rewrite Nat.add_0_r in Hx. rewrite Hx.
  rewrite (IH (S k)); [|intros i y Hy; rewrite Nat.add_succ_l, <- Nat.add_succ_r; now apply H]. destruct (existsb (Nat.eqb k) gone); auto.
Qed.

Lemma filter_swap {A} (b c : A -> bool) l : filter b (filter c l) = filter c (filter b l).
Proof. induction l as [|a l IH]; cbn [filter]; auto. destruct (b a) eqn:B, (c a) eqn:C; cbn [filter]; rewrite ?B, ?C; congruence. Qed.

Lemma app_same_length {A} (a b c d : list A) : List.length a = List.length c -> a ++ b = c ++ d -> a = c /\ b = d.
Proof.
  revert c. induction a as [|x a IH]; intros [|y c] L E; cbn in *; try discriminate; auto. injection L as L. injection E as -> E.
  destruct (IH c L E) as (-> & ->). auto.
Qed.

Lemma length_without {A B} k gone (a : list A) (b : list B) : List.length a = List.length b -> List.length (without k gone a) = List.length (without k gone b).
Proof.
  revert k b. induction a as [|x a IH]; intros k [|y b] L; cbn in *; try discriminate; auto. destruct (existsb (Nat.eqb k) gone); cbn; auto.
Qed.

(** Two rows that agree in the columns that are dropped and in the others are the same. *)
Lemma same_row {A} k gone (r r' : list A) : List.length r = List.length r' -> without k gone r = without k gone r' ->
  (forall i, existsb (Nat.eqb (k + i)) gone = true -> i < List.length r -> nth_error r i = nth_error r' i) -> r = r'.
Proof.
  revert k r'. induction r as [|x r IH]; intros k [|y r'] L W H; cbn in *; try discriminate; auto. injection L as L.
  destruct (existsb (Nat.eqb k) gone) eqn:X.
  - specialize (H 0) as H0. rewrite Nat.add_0_r in H0. cbn in H0. injection (H0 X ltac:(lia)) as <-. f_equal. apply (IH (S k)); auto.
    intros i Hi Hl. apply (H (S i)); [now rewrite Nat.add_succ_r|lia].
  - injection W as <- W. f_equal. apply (IH (S k)); auto. intros i Hi Hl. apply (H (S i)); [now rewrite Nat.add_succ_r|lia].
Qed.

Lemma existsb_nat k l : existsb (Nat.eqb k) l = true <-> In k l.
Proof.
  rewrite existsb_exists. split; [intros (x & H & E); apply Nat.eqb_eq in E; now subst|intros H; exists k; split; auto; apply Nat.eqb_refl].
Qed.

(** ** Constants and positions *)
Lemma constants_at_spec sparql eqs vars : forall k cs, constants_at sparql k vars eqs = Some cs ->
  (forall i c, In (i, c) cs <-> exists j x, i = k + j /\ nth_error vars j = Some x /\ value_of eqs x = Some c) /\ NoDup (map fst cs).
Proof.
  induction vars as [|x vars IH]; intros k cs H; cbn [constants_at] in H.
  - injection H as <-. split; [|constructor]. intros i c. split; [intros []|intros (j & x & _ & H & _); destruct j; discriminate].
  - destruct (value_of eqs x) as [d|] eqn:V.
    + destruct (sparql d); [|discriminate]. destruct (constants_at sparql (S k) vars eqs) as [cs'|] eqn:C; [|discriminate]. injection H as <-.
      destruct (IH _ _ C) as (A & B). split.
      * intros i c. cbn [In]. rewrite A. split.
        -- intros [Q|(j & y & -> & H1 & H2)]; [injection Q as <- <-; exists 0, x; cbn; rewrite Nat.add_0_r; auto|].
           exists (S j), y. cbn. rewrite Nat.add_succ_r. auto.
        -- intros ([|j] & y & -> & H1 & H2); cbn in H1; [injection H1 as <-; left; rewrite Nat.add_0_r; congruence|]. right. exists j, y.
           rewrite Nat.add_succ_r. auto.
      * cbn. constructor; auto. intros G. apply in_map_iff in G. destruct G as ((i, c) & Q & G). cbn in Q. subst i. apply A in G.
        destruct G as (j & _ & G & _). lia.
    + destruct (IH _ _ H) as (A & B). split; auto. intros i c. rewrite A. split.
      * intros (j & y & -> & H1 & H2). exists (S j), y. cbn. rewrite Nat.add_succ_r. auto.
      * intros ([|j] & y & -> & H1 & H2); cbn in H1; [injection H1 as <-; congruence|]. exists j, y. rewrite Nat.add_succ_r. auto.
Qed.

Lemma position_spec eqs v vars : NoDup vars -> forall k i, position k v vars eqs = Some i ->
  exists j, i = k + j /\ nth_error vars j = Some v /\ has_value eqs v = false.
Proof.
  induction vars as [|x vars IH]; intros N k i H; cbn [position] in H; [discriminate|]. inversion N as [|? ? Hx N']; subst.
  destruct (position (S k) v vars eqs) as [i'|] eqn:P.
  - injection H as <-. destruct (IH N' _ _ P) as (j & -> & A & B). exists (S j). cbn. rewrite Nat.add_succ_r. auto.
  - destruct (String.eqb_spec x v) as [-> |_]; [|discriminate]. cbn in H. destruct (has_value eqs v) eqn:V; [discriminate|]. injection H as <-.
    exists 0. cbn. rewrite Nat.add_0_r. auto.
Qed.

Lemma positions_spec eqs lvars rvars : NoDup lvars -> NoDup rvars -> forall vs js, NoDup vs -> positions vs lvars rvars eqs = Some js ->
  (forall i j, In (i, j) js <-> exists v, In v vs /\ nth_error lvars i = Some v /\ nth_error rvars j = Some v) /\
  (forall v, In v vs -> has_value eqs v = false /\ In v lvars /\ In v rvars) /\ NoDup (map fst js) /\ NoDup (map snd js).
Proof.
  intros Nl Nr. induction vs as [|v vs IH]; intros js N H; cbn [positions] in H.
  - injection H as <-. split; [|split; [intros v []|split; constructor]]. intros i j. split; [intros []|intros (v & [] & _)].
  - inversion N as [|? ? Hv N']; subst. destruct (position 0 v lvars eqs) as [i0|] eqn:Pl; [|discriminate].
    destruct (position 0 v rvars eqs) as [j0|] eqn:Pr; [|discriminate]. destruct (positions vs lvars rvars eqs) as [js'|] eqn:Ps; [|discriminate].
    injection H as <-. destruct (IH _ N' eq_refl) as (A & B & C & D). apply (position_spec eqs v lvars Nl) in Pl. apply (position_spec eqs v rvars Nr) in Pr.
    destruct Pl as (i1 & -> & L & V). destruct Pr as (j1 & -> & R & _). cbn [Nat.add] in *.
    assert (Ul : forall i, nth_error lvars i = Some v -> i = i1).
    { intros i Hi. apply (proj1 (NoDup_nth_error lvars) Nl); [apply nth_error_Some; congruence|congruence]. }
    assert (Ur : forall i, nth_error rvars i = Some v -> i = j1).
    { intros i Hi. apply (proj1 (NoDup_nth_error rvars) Nr); [apply nth_error_Some; congruence|congruence]. }
    split; [|split; [|split]].
    + intros i j. cbn [In]. rewrite A. split.
      * intros [Q|(w & H1 & H2 & H3)]; [injection Q as <- <-; exists v; auto|exists w; auto].
      * intros (w & [<- |H1] & H2 & H3); [left; rewrite (Ul i H2), (Ur j H3); auto|right; exists w; auto].
    + intros w [<- |Hw]; [|auto]. split; auto. split; eapply nth_error_In; eauto.
    + cbn. constructor; auto. intros G. apply in_map_iff in G. destruct G as ((i, j) & Q & G). cbn in Q. subst i. apply A in G.
      destruct G as (w & H1 & H2 & _). rewrite L in H2. injection H2 as <-. auto.
    + cbn. constructor; auto. intros G. apply in_map_iff in G. destruct G as ((i, j) & Q & G). cbn in Q. subst j. apply A in G.
      destruct G as (w & H1 & _ & H2). rewrite R in H2. injection H2 as <-. auto.
Qed.

Lemma rows_length E p row : rows E p row -> List.length row = List.length (columns p).
Proof. intros (m & _ & ->). apply map_length. Qed.

Section clauses.
  Variable order : list string -> list string.
  Variable sparql : nat -> bool.
  Hypothesis Ho : set_listing order.
  Variable ends : nat -> endpoint.
  Variable eqs : list (string * nat).

  Definition respects (s : assignment) : Prop := forall x c, value_of eqs x = Some c -> s x = c.
  Definition val (s : assignment) (v : string) : option nat := Some (s v).

  Lemma has_value_not x : has_value eqs x = true <-> exists c, value_of eqs x = Some c.
  Proof. unfold has_value. destruct (value_of eqs x); split; eauto; try discriminate. intros (c & H). discriminate. Qed.

  (** Constant columns are those of the variables with values. *)
  Lemma gone_constants vars cs i x : constants_at sparql 0 vars eqs = Some cs -> nth_error vars i = Some x ->
    existsb (Nat.eqb i) (map fst cs) = has_value eqs x.
  Proof.
    intros C H. apply constants_at_spec in C. destruct C as (A & _). apply eq_true_iff_eq. rewrite existsb_nat, has_value_not, in_map_iff. split.
    - intros ((i', c) & Q & G). cbn in Q. subst i'. apply A in G. destruct G as (j & y & -> & G1 & G2). cbn in H. exists c. congruence.
    - intros (c & Hc). exists (i, c). split; auto. apply A. exists i, x. auto.
  Qed.

  Lemma constants_hold vars cs s row : constants_at sparql 0 vars eqs = Some cs -> respects s -> row = map (val s) vars -> has_constants cs row.
  Proof.
    intros C R -> i c H. apply (proj1 (constants_at_spec _ _ _ _ _ C)) in H. destruct H as (j & x & -> & H1 & H2). cbn.
    rewrite nth_error_map, H1. cbn. unfold val. now rewrite (R x c H2).
  Qed.

  Lemma good_constants_of vars cs n : constants_at sparql 0 vars eqs = Some cs -> List.length vars = n -> good_constants n cs.
  Proof.
    intros C L. destruct (constants_at_spec _ _ _ _ _ C) as (A & B). split; auto. intros k c H. apply A in H. destruct H as (j & x & -> & H & _).
    cbn. rewrite <- L. apply nth_error_Some. congruence.
  Qed.

  (** The rows of a query with pushed constants. *)
  Lemma dropped vars cs s : constants_at sparql 0 vars eqs = Some cs ->
    drop_columns (map fst cs) (map (val s) vars) = map (val s) (filter (fun v => negb (has_value eqs v)) vars).
  Proof.
    intros C. rewrite <- without_columns, without_map. f_equal. apply without_all. intros i x H. cbn. now rewrite (gone_constants vars cs i x C H).
  Qed.

  Lemma row_with_constants vars cs s r : constants_at sparql 0 vars eqs = Some cs -> respects s -> List.length r = List.length vars ->
    has_constants cs r -> drop_columns (map fst cs) r = map (val s) (filter (fun v => negb (has_value eqs v)) vars) -> r = map (val s) vars.
  Proof.
    intros C R L Hc D. rewrite <- (dropped vars cs s C), <- !without_columns in D. apply (same_row 0 (map fst cs)); auto; [now rewrite map_length|].
    cbn. intros i Hi Hl. apply existsb_nat, in_map_iff in Hi. destruct Hi as ((i', c) & Q & Hi). cbn in Q. subst i'. rewrite (Hc i c Hi).
    apply (proj1 (constants_at_spec _ _ _ _ _ C)) in Hi. destruct Hi as (j & x & -> & H1 & H2). cbn. rewrite nth_error_map, H1. cbn. unfold val.
    now rewrite (R x c H2).
  Qed.

  Lemma push_holds c s : good_clause ends c -> (exists cs, constants_at sparql 0 (c_vars c) eqs = Some cs) -> respects s ->
    clause_holds ends (push_clause order sparql c eqs) s <-> clause_holds ends c s.
  Proof.
    intros (G1 & G2 & G3 & G4 & (inner & vs & G5) & G6) (cs & C) R. destruct Ho as (Ho1 & _). unfold clause_holds, push_clause. cbn [c_endpoint c_query c_vars].
    rewrite C. rewrite G5 in *. cbn [columns] in *. rewrite push_constants_rows; auto.
    - split.
      + intros (r & Hr & Hc & D). rewrite (row_with_constants (c_vars c) cs s r C R) in Hr; auto. apply rows_length in Hr as L. cbn in L. congruence.
      + intros H. exists (map (val s) (c_vars c)). split; auto. split; [eapply constants_hold; eauto|]. symmetry. now apply dropped.
    - apply (good_constants_of (c_vars c)); auto.
    - intros k d H. apply G6. destruct (good_constants_of (c_vars c) cs _ C G4) as (_ & K). eauto.
  Qed.

  Lemma merge_holds l r c : good_clause ends l -> good_clause ends r -> try_merge order sparql l r eqs = Done c ->
    good_clause ends c /\ forall s, respects s -> (clause_holds ends c s <-> clause_holds ends l s /\ clause_holds ends r s).
  Proof.
    intros (G1 & G2 & G3 & G4 & (il & lvs & G5) & G6) (K1 & K2 & K3 & K4 & (ir & rvs & K5) & K6) H. unfold try_merge in H.
    destruct (Nat.eqb_spec (c_endpoint l) (c_endpoint r)) as [En|]; [|discriminate].
    set (common := order (nodup string_dec (filter (fun v => mem v (c_vars r)) (c_vars l)))) in *.
    destruct (constants_at sparql 0 (c_vars l) eqs) as [lc|] eqn:Cl; [|discriminate].
    destruct (constants_at sparql 0 (c_vars r) eqs) as [rc|] eqn:Cr; [|discriminate].
    destruct (positions common (c_vars l) (c_vars r) eqs) as [joins|] eqn:Ps; [|discriminate].
    destruct (merge_patterns order (c_query l) (c_query r) joins lc rc) as [q|] eqn:Mq; [|discriminate]. injection H as <-.
    destruct Ho as (Ho1 & Ho2). assert (Nc : NoDup common) by (apply Ho2, NoDup_nodup).
    assert (Hcommon : forall v, In v common <-> In v (c_vars l) /\ In v (c_vars r)).
    { intros v. unfold common. rewrite (Ho1 _ v), nodup_In, filter_In, mem_In. tauto. }
    destruct (positions_spec eqs _ _ G3 K3 common joins Nc Ps) as (J1 & J2 & J3 & J4).
    assert (M : mergeable (ends (c_endpoint l)) (c_query l) (c_query r) joins lc rc).
    { split; [exact G1|]. split; [exact K1|]. split; [exact G2|]. split; [exact K2|]. split; [split; [exact J3|split; [exact J4|]]|].
      - intros i j Hij. apply J1 in Hij. destruct Hij as (v & _ & A & B). rewrite <- G4, <- K4. split; apply nth_error_Some; congruence.
      - split; [now apply (good_constants_of (c_vars l))|]. split; [now apply (good_constants_of (c_vars r))|].
        destruct (good_constants_of (c_vars l) lc _ Cl G4) as (_ & Bl). destruct (good_constants_of (c_vars r) rc _ Cr K4) as (_ & Br). split.
        + intros k Hk. apply G6. destruct Hk as [Hk|Hk]; apply in_map_iff in Hk; destruct Hk as ((i, j) & Q & Hk); cbn in Q; subst i; [|eauto].
          apply J1 in Hk. destruct Hk as (v & _ & A & _). rewrite <- G4. apply nth_error_Some. congruence.
        + intros k Hk. rewrite En. apply K6. destruct Hk as [Hk|Hk]; apply in_map_iff in Hk; destruct Hk as ((i, j) & Q & Hk); cbn in Q; [subst j|subst i; eauto].
          apply J1 in Hk. destruct Hk as (v & _ & _ & A). rewrite <- K4. apply nth_error_Some. congruence. }
    assert (Rows : forall row, rows (ends (c_endpoint l)) q row <-> exists r0 s0, rows (ends (c_endpoint l)) (c_query l) r0 /\ rows (ends (c_endpoint l)) (c_query r) s0 /\
      (forall i j, In (i, j) joins -> nth_error r0 i = nth_error s0 j) /\ has_constants lc r0 /\ has_constants rc s0 /\
      row = drop_columns (map fst lc) r0 ++ drop_columns (map fst rc ++ map snd joins) s0).
    { rewrite G5, K5 in M, Mq. destruct (merge_rows order Ho1 (ends (c_endpoint l)) il ir lvs rvs joins lc rc M) as (q' & Q1 & Q2).
      rewrite Mq in Q1. injection Q1 as <-. rewrite G5, K5. exact Q2. }
    set (keep := fun v => negb (has_value eqs v)).
    (* The columns of the right side that are kept. *)
    assert (Dr : forall s0 : assignment, drop_columns (map fst rc ++ map snd joins) (map (val s0) (c_vars r)) =
      map (val s0) (filter keep (filter (fun v => negb (mem v common)) (c_vars r)))).
    { intros s0. rewrite <- without_columns, without_map. f_equal. rewrite <- (without_filter (fun v => negb (mem v common))).
      - rewrite (without_all 0 (map fst rc) keep); [|intros i x Hx; cbn; unfold keep; now rewrite (gone_constants (c_vars r) rc i x Cr Hx)].
        apply filter_swap.
      - intros i x Hx. f_equal. cbn. apply eq_true_iff_eq. rewrite existsb_nat, mem_In, in_map_iff. split.
        + intros Hc. destruct (J2 x Hc) as (_ & Hl & _). apply In_nth_error in Hl. destruct Hl as (i' & Hl). exists (i', i). split; auto. apply J1. eauto.
        + intros ((i', j') & Q & Hij). cbn in Q. subst j'. apply J1 in Hij. destruct Hij as (v & Hv & _ & Hx'). congruence. }
    split.
    { split; [|split; [|split; [|split; [|split]]]]; cbn [c_query c_vars c_endpoint].
      - rewrite G5, K5 in M, Mq. destruct (merged_good order Ho1 _ il ir lvs rvs joins lc rc M) as (q' & Q1 & Q2 & _). rewrite Mq in Q1. injection Q1 as <-. exact Q2.
      - rewrite G5, K5 in M, Mq. destruct (merged_good order Ho1 _ il ir lvs rvs joins lc rc M) as (q' & Q1 & _ & Q2 & _). rewrite Mq in Q1. injection Q1 as <-. exact Q2.
      - apply NoDup_filter, nodup_app; auto; [now apply NoDup_filter|]. intros x Hx Hy. apply filter_In in Hy. destruct Hy as (Hy & Z).
        apply negb_true_iff, mem_not in Z. apply Z, Hcommon. auto.
      - rewrite G5, K5 in M, Mq. destruct (merged_good order Ho1 _ il ir lvs rvs joins lc rc M) as (q' & Q1 & _ & _ & Q2 & _).
        rewrite Mq in Q1. injection Q1 as <-. rewrite Q2. rewrite filter_app, app_length. rewrite G5, K5 in *. cbn [columns] in *. f_equal.
        + rewrite (length_without 0 _ lvs (map (val (fun _ => 0)) (c_vars l))) by (now rewrite map_length).
          rewrite without_columns, (dropped (c_vars l) lc _ Cl), map_length. reflexivity.
        + rewrite (length_without 0 _ rvs (map (val (fun _ => 0)) (c_vars r))) by (now rewrite map_length).
          rewrite without_columns, Dr, map_length. reflexivity.
      - rewrite G5, K5 in M, Mq. destruct (merged_good order Ho1 _ il ir lvs rvs joins lc rc M) as (q' & Q1 & _ & _ & _ & Q2). rewrite Mq in Q1. injection Q1 as <-. exact Q2.
      - intros k Hk row Hrow. assert (Lr := rows_length _ _ _ Hrow). apply Rows in Hrow. destruct Hrow as (r0 & s0 & A & B & _ & _ & _ & E).
        destruct (nth_error row k) as [x|] eqn:X; [|apply nth_error_None in X; lia]. 
        assert (T : In x r0 \/ In x s0).
        { apply nth_error_In in X. rewrite E, <- !without_columns in X. apply in_app_or in X. destruct X as [X|X]; apply in_without in X; auto. }
        destruct T as [T|T]; apply In_nth_error in T; destruct T as (i & T).
        + destruct (G6 i) with (row := r0) as (d & Hd); auto; [|exists d; congruence]. apply rows_length in A. rewrite <- A. apply nth_error_Some. congruence.
        + rewrite En in B. destruct (K6 i) with (row := s0) as (d & Hd); auto; [|exists d; congruence]. apply rows_length in B. rewrite <- B. apply nth_error_Some. congruence. }
    intros s R. unfold clause_holds. cbn [c_endpoint c_query c_vars]. rewrite Rows. clear Rows. rewrite <- En.
    rewrite filter_app, map_app. split.
    - intros (r0 & s0 & A & B & J & Hl & Hr & Q).
      assert (Ll : List.length r0 = List.length (c_vars l)) by (apply rows_length in A; congruence).
      assert (Lr : List.length s0 = List.length (c_vars r)) by (apply rows_length in B; congruence).
      assert (Q1 : drop_columns (map fst lc) r0 = map (val s) (filter keep (c_vars l)) /\
                   drop_columns (map fst rc ++ map snd joins) s0 = map (val s) (filter keep (filter (fun v => negb (mem v common)) (c_vars r)))).
      { assert (Ln : List.length (drop_columns (map fst lc) r0) = List.length (map (val s) (filter keep (c_vars l)))).
        { unfold keep. rewrite <- (dropped (c_vars l) lc s Cl). rewrite <- !without_columns.
          assert (G : forall k (a b : list (option nat)), List.length a = List.length b -> List.length (without k (map fst lc) a) = List.length (without k (map fst lc) b)).
          { clear. intros k a. revert k. induction a as [|x a IH]; intros k [|y b] L; cbn in *; try discriminate; auto.
            destruct (existsb (Nat.eqb k) (map fst lc)); cbn; auto. }
          apply G. now rewrite map_length. }
        symmetry in Q. exact (app_same_length _ _ _ _ Ln Q). }
      destruct Q1 as (Q1 & Q2). assert (El : r0 = map (val s) (c_vars l)) by (apply (row_with_constants (c_vars l) lc s r0 Cl R Ll Hl Q1)).
      assert (Er : s0 = map (val s) (c_vars r)).
      { rewrite <- Dr, <- !without_columns in Q2. apply (same_row 0 (map fst rc ++ map snd joins)); auto; [now rewrite map_length|].
        cbn. intros i Hi Hlt. apply existsb_nat, in_app_or in Hi. destruct Hi as [Hi|Hi]; apply in_map_iff in Hi; destruct Hi as ((i', j') & E1 & Hi); cbn in E1.
        - subst i'. rewrite (Hr i j' Hi). apply (proj1 (constants_at_spec _ _ _ _ _ Cr)) in Hi. destruct Hi as (j & x & -> & H1 & H2). cbn.
          rewrite nth_error_map, H1. cbn. unfold val. now rewrite (R x j' H2).
        - subst j'. rewrite <- (J i' i Hi), El. apply J1 in Hi. destruct Hi as (v & _ & H1 & H2). now rewrite !nth_error_map, H1, H2. }
      rewrite El in A. rewrite Er in B. auto.
    - intros (A & B). exists (map (val s) (c_vars l)), (map (val s) (c_vars r)). split; [exact A|]. split; [exact B|].
      split; [|split; [|split]].
      + intros i j Hij. apply J1 in Hij. destruct Hij as (v & _ & H1 & H2). now rewrite !nth_error_map, H1, H2.
      + eapply constants_hold; eauto.
      + eapply constants_hold; eauto.
      + f_equal; [symmetry; now apply dropped|symmetry; apply Dr].
  Qed.
End clauses.
