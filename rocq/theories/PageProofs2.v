(** The queries and the rows that are written. *)
From Coq Require Import List Arith Bool Lia Permutation.
From Verif Require Import QueryModel QuerySpec QueryProps PageModel PageSpec PageProofs1.
Import ListNotations.

Lemma after_ends {A B} (x : run A) (f : A -> run B) b : after x f = Ends b -> exists a, x = Ends a /\ f a = Ends b.
Proof. destruct x; cbn; try discriminate. eauto. Qed.

Section reader.
  Variable size : pattern -> nat.
  Variable limit : nat.
  Variable E : endpoint.
  Variable q : pattern.
  Hypothesis Hq : has_projection q.
  Hypothesis Hc : NoDup (columns q).

  (** Pairs of pages and queries that deliver the rows in W *)
  Definition delivers (W : list (option nat) -> Prop) (qs : list (list bindings * pattern)) : Prop :=
    (forall p q', In (p, q') qs -> q' = with_bindings q p /\ p <> [] /\ (forall b, In b p -> good_bindings E q b) /\ forall row, all_agree p row -> W row).
  Definition covers (W : list (option nat) -> Prop) (qs : list (list bindings * pattern)) : Prop :=
    forall row, W row -> exists p q', In (p, q') qs /\ all_agree p row.

  Lemma delivers_app W a b : delivers W a -> delivers W b -> delivers W (a ++ b).
  Proof. intros A B p q' H. apply in_app_or in H. destruct H; eauto. Qed.

  Definition some_page (ps : list (list bindings)) (row : list (option nat)) : Prop := exists p, In p ps /\ all_agree p row.

  Lemma of_pages_spec (W : list (option nat) -> Prop) ps again qs : of_pages size limit q ps again = Ends qs ->
    (forall p, In p ps -> p <> [] /\ (forall b, In b p -> good_bindings E q b) /\ forall row, all_agree p row -> W row) ->
    (forall qs', again = Ends qs' -> delivers W qs' /\ covers W qs') -> delivers W qs /\ covers (some_page ps) qs.
  Proof.
    revert qs. induction ps as [|p ps IH]; cbn [of_pages]; intros qs H G A.
    - injection H as <-. split; [intros x y []|intros row (x & [] & _)].
    - unfold query_with_bindings in H. destruct (size (with_bindings q p) <? limit).
      + apply after_ends in H. destruct H as (qs1 & H1 & H). injection H as <-. destruct (IH qs1 H1) as (D & C); [intros x Hx; apply G; now right|exact A|].
        split.
        * intros x y [Q|Hx]; [|eauto]. injection Q as <- <-. destruct (G p (or_introl eq_refl)) as (G1 & G2 & G3). auto.
        * intros row (x & [<- |Hx] & Ax); [exists p, (with_bindings q p); split; [now left|auto]|].
          destruct (C row) as (y & q' & Hy & Ay); [exists x; auto|]. exists y, q'. split; [now right|auto].
      + apply after_ends in H. destruct H as (qs0 & H0 & H). apply after_ends in H. destruct H as (qs1 & H1 & H). injection H as <-.
        destruct (IH qs1 H1) as (D & C); [intros x Hx; apply G; now right|exact A|]. destruct (A qs0 H0) as (D0 & C0). split; [now apply delivers_app|].
        intros row (x & [<- |Hx] & Ax).
        * destruct (C0 row) as (y & q' & Hy & Ay); [now apply (G p (or_introl eq_refl))|]. exists y, q'. split; [apply in_or_app; auto|auto].
        * destruct (C row) as (y & q' & Hy & Ay); [exists x; auto|]. exists y, q'. split; [apply in_or_app; auto|auto].
  Qed.

  Lemma of_combinations_spec (W : list (option nat) -> Prop) page cs again qs : of_combinations size limit q page cs again = Ends qs ->
    (forall c, In c cs -> c <> [] /\ (forall b, In b c -> good_bindings E q b) /\ forall row, all_agree c row -> W row) ->
    (forall qs', again = Ends qs' -> delivers W qs' /\ covers W qs') -> delivers W qs /\ covers (some_page cs) qs.
  Proof.
    revert qs. induction cs as [|c cs IH]; cbn [of_combinations]; intros qs H G A.
    - injection H as <-. split; [intros x y []|intros row (x & [] & _)].
    - apply after_ends in H. destruct H as (ps & Hp & H). apply after_ends in H. destruct H as (qs1 & H1 & H). apply after_ends in H. destruct H as (qs2 & H2 & H).
      injection H as <-. destruct (G c (or_introl eq_refl)) as (G1 & G2 & G3).
      destruct (IH qs2 H2) as (D & C); [intros x Hx; apply G; now right|exact A|].
      destruct (of_pages_spec W ps again qs1 H1) as (D1 & C1); [|exact A|].
      + intros p Pp. destruct (pages_good E q c _ ps Hp G1 G2 p Pp) as (P1 & P2). split; [exact P1|]. split; [exact P2|].
        intros row Ar. apply G3. apply (pages_cover c _ ps row Hp). exists p. auto.
      + split; [now apply delivers_app|]. intros row (x & [<- |Hx] & Ax).
        * destruct (C1 row) as (y & q' & Hy & Ay); [now apply (pages_cover c _ ps row Hp)|]. exists y, q'. split; [apply in_or_app; auto|auto].
        * destruct (C row) as (y & q' & Hy & Ay); [exists x; auto|]. exists y, q'. split; [apply in_or_app; auto|auto].
  Qed.

  Lemma queries_spec pb : good_product E q pb -> forall fuel page qs, queries size limit fuel q pb page = Ends qs ->
    delivers (some_page (combinations pb)) qs /\ covers (some_page (combinations pb)) qs.
  Proof.
    intros G. induction fuel as [|f IH]; intros page qs H; [discriminate|]. cbn [queries] in H.
    apply (of_combinations_spec (some_page (combinations pb)) _ _ _ _ H); [|intros qs' Hqs; eapply IH; eauto].
    intros c Hcc. destruct (combinations_good E q pb c G Hcc) as (C1 & C2). split; [exact C1|]. split; [intros b Hb; now apply C2|].
    intros row A. exists c. auto.
  Qed.

  Section load.
    Variable server : pattern -> answer.
    Variable max_page : nat.
    Hypothesis Hs : truthful E q server.

    (** Rows of the query for which W holds are written, if the result is no error; only rows of the query are written *)
    Definition loads (W : list (option nat) -> Prop) (r : result) : Prop :=
      (never_fails E q server -> snd r = false -> forall row, rows E q row -> W row -> In row (fst r)) /\ forall row, In row (fst r) -> rows E q row.

    Definition as_product (p : list bindings) : product := map (fun b : bindings => ((fst b, []), b)) p.

    Lemma as_product_good p : (forall b, In b p -> good_bindings E q b) -> good_product E q (as_product p).
    Proof.
      intros G f Hf. apply in_map_iff in Hf. destruct Hf as (b & <- & Hb). cbn [fst snd]. split; auto. destruct (G b Hb) as (A & B & C).
      split; [|split; auto]. split; [exact A|]. split; [exact B|]. intros r [].
    Qed.
    Lemma as_product_wanted p row : p <> [] -> all_agree p row -> wanted (as_product p) row.
    Proof.
      intros N A. split.
      - intros f Hf. apply in_map_iff in Hf. destruct Hf as (b & <- & Hb). right. cbn. auto.
      - destruct p as [|b p]; [congruence|]. exists ((fst b, []), b). split; [now left|]. apply A. now left.
    Qed.

    Lemma load_parts_spec again parts r : (forall p r, In p parts -> again (as_product p) = Ends r -> loads (wanted (as_product p)) r) ->
      load_parts again parts = Ends r -> loads (fun row => exists p, In p parts /\ wanted (as_product p) row) r.
    Proof.
      revert r. induction parts as [|p parts IH]; cbn [load_parts]; intros r A H.
      - injection H as <-. split; [intros _ _ row _ (x & [] & _)|intros row []].
      - apply after_ends in H. destruct H as (r1 & H1 & H). destruct (A p r1 (or_introl eq_refl) H1) as (L1 & S1). destruct (snd r1) eqn:Er.
        + injection H as <-. split; [congruence|exact S1].
        + apply after_ends in H. destruct H as (r2 & H2 & H). injection H as <-. destruct (IH r2) as (L2 & S2); [intros x y Hx; apply A; now right|exact H2|].
          split; cbn [fst snd].
          * intros F K row Hr (x & [<- |Hx] & Wx); apply in_or_app; [left|right; apply L2]; eauto.
          * intros row Hr. apply in_app_or in Hr. destruct Hr; auto.
    Qed.

    Lemma load_pages_spec again pb W qs r : (forall pb' r', good_product E q pb' -> again pb' = Ends r' -> loads (wanted pb') r') ->
      delivers W qs -> load_pages server again pb qs = Ends r -> loads (fun row => exists p q', In (p, q') qs /\ all_agree p row) r.
    Proof.
      intros A. revert r. induction qs as [|(p, q') qs IH]; cbn [load_pages]; intros r D H.
      - injection H as <-. split; [intros _ _ row _ (x & y & [] & _)|intros row []].
      - assert (D' : delivers W qs) by (intros x y Hx; apply D; now right). destruct (D p q' (or_introl eq_refl)) as (Eq & Np & Gp & _).
        assert (Ask : asked E q q') by (exists p; auto).
        assert (Rows_of : forall row, rows E q' row <-> rows E q row /\ all_agree p row) by (intros row; rewrite Eq; now apply C52_bindings).
        assert (Next : forall r0, loads (fun row => all_agree p row) r0 -> snd r0 = false -> after (load_pages server again pb qs) (fun r' => Ends (fst r0 ++ fst r', snd r')) = Ends r ->
                  loads (fun row => exists x y, In (x, y) ((p, q') :: qs) /\ all_agree x row) r).
        { intros r0 (L0 & S0) K0 K. apply after_ends in K. destruct K as (r1 & K1 & K). injection K as <-. destruct (IH r1 D' K1) as (L1 & S1). split; cbn [fst snd].
          - intros F K row Hr (x & y & [Q|Hx] & Ax); apply in_or_app; [left; injection Q as <- <-; auto|right; apply L1; eauto].
          - intros row Hr. apply in_app_or in Hr. destruct Hr; auto. }
        destruct (server q') as [rs| |] eqn:Es.
        + apply (Next (rs, false)); auto. split; cbn [fst snd].
          * intros _ _ row Hr Ar. apply (Hs q' rs Ask Es), Rows_of. auto.
          * intros row Hr. apply (Hs q' rs Ask Es), Rows_of in Hr. tauto.
        + destruct (total pb =? 1).
          * injection H as <-. split; [discriminate|intros row []].
          * apply after_ends in H. destruct H as (r0 & H0 & H). set (n := Nat.max (div_ceil (List.length p) 2) 1) in *. assert (N : 0 < n) by lia.
            assert (Sub : forall x b, In x (chunk_list n p) -> In b x -> In b p) by (intros x b Hx Hb; apply (chunk_in b n p N); eauto).
            assert (L : loads (fun row => exists x, In x (chunk_list n p) /\ wanted (as_product x) row) r0).
            { apply (load_parts_spec again); auto. intros x y Hx. apply A, as_product_good. intros b Hb. apply Gp. eauto. }
            assert (L' : loads (fun row => all_agree p row) r0).
            { destruct L as (L & S). split; auto. intros F K row Hr Ar. apply L; auto. destruct (chunk_list n p) as [|x xs] eqn:Ec.
              - exfalso. revert Ec. apply chop_some; auto.
              - exists x. split; [now left|]. apply as_product_wanted.
                + apply (chunk_nonempty n p); auto. rewrite Ec. now left.
                + intros b Hb. apply Ar. apply (Sub x); auto. now left. }
            destruct (snd r0) eqn:Er.
            -- injection H as <-. destruct L' as (_ & S). split; [congruence|exact S].
            -- now apply (Next r0).
        + assert (X : ~ never_fails E q server) by (intros F; exact (F q' Ask Es)). apply (Next ([], false)); auto. split; [tauto|intros row []].
    Qed.

    Lemma load_spec fuel : forall pb r, good_product E q pb -> load size limit server max_page fuel q pb = Ends r -> loads (wanted pb) r.
    Proof.
      induction fuel as [|f IH]; intros pb r G H; [discriminate|]. cbn [load] in H. apply after_ends in H. destruct H as (qs & Hqs & H).
      destruct (queries_spec pb G _ _ _ Hqs) as (D & C). destruct (load_pages_spec _ pb _ qs r IH D H) as (L & S). split; auto.
      intros F K row Hr Wr. apply L; auto. apply C. exact (combinations_complete E q pb row G Wr).
    Qed.

    Lemma load_pages_exact again pb W qs r : always_answers E q server -> delivers W qs -> load_pages server again pb qs = Ends r ->
      snd r = false /\ forall row, In row (fst r) -> W row.
    Proof.
      intros A. revert r. induction qs as [|(p, q') qs IH]; cbn [load_pages]; intros r D H; [injection H as <-; split; [reflexivity|intros row []]|].
      assert (Ask : asked E q q') by (destruct (D p q' (or_introl eq_refl)) as (Eq & _ & Gp & _); exists p; auto).
      destruct (A q' Ask) as (rs & Es). rewrite Es in H. apply after_ends in H. destruct H as (r1 & H1 & H). injection H as <-.
      destruct (IH r1) as (S & IH'); [intros x y Hx; apply D; now right|exact H1|]. split; [exact S|]. cbn [fst]. intros row Hr. apply in_app_or in Hr.
      destruct Hr as [Hr|Hr]; [|auto]. destruct (D p q' (or_introl eq_refl)) as (Eq & _ & Gp & Wp). apply Wp. apply (Hs q' rs Ask Es) in Hr. rewrite Eq in Hr.
      apply C52_bindings in Hr; auto. tauto.
    Qed.

    Lemma load_exact fuel pb r : always_answers E q server -> good_product E q pb -> (forall f, In f pb -> is_empty (fst f) && is_empty (snd f) = false) ->
      load size limit server max_page fuel q pb = Ends r -> snd r = false /\ forall row, In row (fst r) -> wanted pb row.
    Proof.
      destruct fuel as [|f]; [discriminate|]. intros A G N H. cbn [load] in H. apply after_ends in H. destruct H as (qs & Hqs & H).
      destruct (queries_spec pb G _ _ _ Hqs) as (D & _). destruct (load_pages_exact _ pb _ qs r A D H) as (S & L). split; auto.
      intros row Hr. apply (combinations_exact E q pb row G N). exact (L row Hr).
    Qed.
  End load.
End reader.
