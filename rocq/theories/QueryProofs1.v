(** Solutions, and the renaming of variables. *)
From Coq Require Import String Ascii List Arith Bool Lia.
From Verif Require Import QueryModel QuerySpec.
Import ListNotations.
Local Open Scope list_scope.

Scheme pattern_mut := Induction for pattern Sort Prop with cond_mut := Induction for cond Sort Prop.
Combined Scheme pattern_cond_ind from pattern_mut, cond_mut.

Lemma mem_In x l : mem x l = true <-> In x l.
Proof.
  unfold mem. rewrite existsb_exists. split.
  - intros (y & Hy & E). apply String.eqb_eq in E. now subst.
  - intros H. exists x. split; auto. apply String.eqb_refl.
Qed.
Lemma mem_not x l : mem x l = false <-> ~ In x l.
Proof. rewrite <- mem_In. destruct (mem x l); split; auto; try discriminate. intros H. now contradiction H. Qed.

Lemma same_sym m n : same m n -> same n m. Proof. intros H v. auto. Qed.
Lemma same_trans m n o : same m n -> same n o -> same m o. Proof. intros H G v. now rewrite H. Qed.
Lemma compatible_sym m n : compatible m n -> compatible n m. Proof. intros H v x y A B. symmetry. eauto. Qed.
Lemma compatible_same m m' n : same m m' -> compatible m n -> compatible m' n.
Proof. intros S C v x y A B. rewrite <- S in A. eauto. Qed.
Lemma term_value_same m n t : same m n -> term_value m t = term_value n t.
Proof. intros S. destruct t; cbn; auto. Qed.

Lemma sol_same_all : (forall p E m n, same m n -> sol E p m -> sol E p n) /\
  (forall c E m n t, same m n -> cond_value E c m t -> cond_value E c n t).
Proof.
  apply pattern_cond_ind; cbn.
  - intros t vs E m n S (e & H & G). exists e. split; auto. intros v. rewrite <- S. auto.
  - intros l _ r _ E m n S (a & b & A & B & C & D). exists a, b. repeat split; auto. eapply same_trans; [apply same_sym|]; eauto.
  - intros l IHl r _ E m n S [(a & b & A & B & C & D)|(A & B)].
    + left. exists a, b. repeat split; auto. eapply same_trans; [apply same_sym|]; eauto.
    + right. split; [eapply IHl; eauto|]. intros b Hb C. apply (B b Hb). eapply compatible_same; [apply same_sym|]; eauto.
  - intros l IHl r IHr E m n S [H|H]; [left|right]; eauto.
  - intros l IHl r _ E m n S (A & B). split; [eapply IHl; eauto|]. intros b Hb C v. rewrite <- S. apply B; auto.
    eapply compatible_same; [apply same_sym|]; eauto.
  - intros c IHc q IHq E m n S (A & B). split; eauto.
  - intros q _ v t E m n S (a & A & B). exists a. split; auto. intros w. rewrite <- S. auto.
  - intros vs rs E m n S (row & A & B). exists row. split; auto. eapply same_trans; [apply same_sym|]; eauto.
  - intros q _ vs E m n S (a & A & B). exists a. split; auto. intros w. rewrite <- S. auto.
  - intros q IH E m n S H. eauto.
  - intros a b E m n t S (x & y & A & B & C). exists x, y. rewrite <- (term_value_same m n a S), <- (term_value_same m n b S). auto.
  - intros v E m n t S ->. rewrite (S v). auto.
  - intros a IH E m n t S H. eauto.
  - intros a IHa b IHb E m n [] S; [intros (A & B); split; eauto|intros [A|A]; [left|right]; eauto].
  - intros p _ E m n [] S.
    + intros (b & A & B). exists b. split; auto. eapply compatible_same; eauto.
    + intros H (b & A & B). apply H. exists b. split; auto. eapply compatible_same; [apply same_sym|]; eauto.
Qed.

Lemma sol_same E p m n : same m n -> sol E p m -> sol E p n.
Proof. apply sol_same_all. Qed.

(** ** Which variables have values *)

Lemma row_solution_dom vs row v : row_solution vs row v <> None -> In v vs.
Proof.
  revert row. induction vs as [|w vs IH]; intros [|x row]; cbn [row_solution In]; unfold no_solution; try congruence.
  destruct (String.eqb_spec w v) as [Q|Q]; [intros _; now left|intros H; right; eauto].
Qed.

Lemma both_dom m n v : both m n v <> None -> m v <> None \/ n v <> None.
Proof. unfold both. intros H. destruct (m v); [left; discriminate|right; assumption]. Qed.

Lemma sol_dom E p m v : sol E p m -> m v <> None -> In v (fst (variables_in p)).
Proof.
  revert m v. induction p as [t vs|l IHl r IHr|l IHl r IHr|l IHl r IHr|l IHl r IHr|c q IH|q IH w t|vs rs|q IH vs|q IH]; cbn [sol variables_in fst]; intros m v.
  - intros (e & _ & G) H. rewrite G in H. destruct (mem v vs) eqn:M; [now apply mem_In|now contradiction H].
  - intros (a & b & A & B & _ & S) H. rewrite S in H. apply in_or_app. apply both_dom in H. destruct H; [left|right]; eauto.
  - intros [(a & b & A & B & _ & S)|(A & _)] H; apply in_or_app; [|left; eauto]. rewrite S in H. apply both_dom in H. destruct H; [left|right]; eauto.
  - intros [A|A] H; apply in_or_app; [left|right]; eauto.
  - intros (A & _) H. eauto.
  - intros (A & _) H. eauto.
  - intros (a & A & G) H. rewrite G in H. destruct (String.eqb_spec w v); [now left|right; eauto].
  - intros (row & _ & S) H. rewrite S in H. eapply row_solution_dom; eauto.
  - intros (a & _ & G) H. rewrite G in H. destruct (mem v vs) eqn:M; [now apply mem_In|now contradiction H].
  - eauto.
Qed.

(** Variables in scope or hidden are variables of the pattern. *)
Lemma variables_in_all p v : In v (fst (variables_in p)) \/ In v (snd (variables_in p)) -> In v (all_vars p).
Proof.
  revert v. induction p as [t vs|l IHl r IHr|l IHl r IHr|l IHl r IHr|l IHl r IHr|c q IH|q IH w t|vs rs|q IH vs|q IH]; cbn [variables_in fst snd all_vars]; intros v;
    rewrite ?in_app_iff; cbn [In]; rewrite ?in_app_iff; try (specialize (IHl v); specialize (IHr v); tauto); try (specialize (IH v); tauto); tauto.
Qed.

(** ** Renaming *)

Section rename.
  Variables (E : endpoint) (mp : list (string * string)) (S : list string).
  Let f := rename_variable mp.
  Hypothesis inj : forall v w, In v S -> In w S -> f v = f w -> v = w.

  (** [m] is [n] with renamed variables. *)
  Definition renamed (n m : solution) : Prop :=
    (forall v, In v S -> m (f v) = n v) /\ (forall w, (forall v, In v S -> f v <> w) -> m w = None) /\ (forall v, ~ In v S -> n v = None).

  Lemma image_dec w : (exists v, In v S /\ f v = w) \/ (forall v, In v S -> f v <> w).
  Proof.
    clear inj. induction S as [|x l IH]; [right; intros v []|]. destruct (string_dec (f x) w) as [E1|E1].
    - left. exists x. split; auto. now left.
    - destruct IH as [(v & A & B)|B]; [left; exists v; split; auto; now right|]. right. intros v [<- |Hv]; auto.
  Qed.

  Lemma in_S_dec v : In v S \/ ~ In v S.
  Proof. destruct (in_dec string_dec v S); auto. Qed.

  Lemma push_solution n : (forall v, n v <> None -> In v S) -> exists m, renamed n m.
  Proof.
    intros D. exists (fun w => match find (fun v => String.eqb (f v) w) S with Some v => n v | None => None end). split; [|split].
    - intros v Hv. destruct (find _ S) as [v'|] eqn:F.
      + apply find_some in F. destruct F as (F1 & F2). apply String.eqb_eq in F2. f_equal. auto.
      + eapply find_none in F; [|exact Hv]. cbn in F. rewrite String.eqb_refl in F. discriminate.
    - intros w H. destruct (find _ S) as [v'|] eqn:F; auto. apply find_some in F. destruct F as (F1 & F2). apply String.eqb_eq in F2.
      exfalso. eapply H; eauto.
    - intros v Hv. destruct (n v) eqn:Ev; auto. exfalso. apply Hv. apply D. congruence.
  Qed.

  Lemma pull_solution m : (forall w, m w <> None -> exists v, In v S /\ f v = w) -> exists n, renamed n m.
  Proof.
    intros D. exists (fun v => if mem v S then m (f v) else None). split; [|split].
    - intros v Hv. apply mem_In in Hv. now rewrite Hv.
    - intros w H. destruct (m w) eqn:Ew; auto. exfalso. destruct (D w) as (v & A & B); [congruence|]. eapply H; eauto.
    - intros v Hv. apply mem_not in Hv. now rewrite Hv.
  Qed.

  Lemma renamed_same n m n' m' : renamed n m -> renamed n' m' -> (same n n' <-> same m m').
  Proof.
    intros (A & B & C) (A' & B' & C'). split; intros H.
    - intros w. destruct (image_dec w) as [(v & Hv & <-)|G]; [rewrite A, A' by auto; auto|rewrite B, B'; auto].
    - intros v. destruct (in_S_dec v) as [Hv|Hv]; [rewrite <- A, <- A' by auto; auto|rewrite C, C'; auto].
  Qed.

  Lemma renamed_compatible n m n' m' : renamed n m -> renamed n' m' -> (compatible n n' <-> compatible m m').
  Proof.
    intros (A & B & C) (A' & B' & C'). split; intros H.
    - intros w x y. destruct (image_dec w) as [(v & Hv & <-)|G]; [rewrite A, A' by auto; apply H|rewrite B by auto; discriminate].
    - intros v x y. destruct (in_S_dec v) as [Hv|Hv]; [rewrite <- A, <- A' by auto; apply H|rewrite C by auto; discriminate].
  Qed.

  Lemma renamed_both n m n' m' : renamed n m -> renamed n' m' -> renamed (both n n') (both m m').
  Proof.
    intros (A & B & C) (A' & B' & C'). unfold both. split; [|split].
    - intros v Hv. now rewrite A, A'.
    - intros w Hw. rewrite B, B'; auto.
    - intros v Hv. rewrite C, C'; auto.
  Qed.

  Lemma renamed_row vs row : incl vs S -> renamed (row_solution vs row) (row_solution (map f vs) row).
  Proof.
    revert row. induction vs as [|v vs IH]; intros [|x row] H; cbn [map row_solution]; try (split; [|split]; reflexivity).
    destruct (IH row) as (A & B & C); [intros u Hu; apply H; now right|]. assert (Hv : In v S) by (apply H; now left). split; [|split].
    - intros u Hu. destruct (String.eqb_spec v u) as [<- |N]; [now rewrite String.eqb_refl|].
      destruct (String.eqb_spec (f v) (f u)) as [Q|Q]; [exfalso; auto|auto].
    - intros w Hw. destruct (String.eqb_spec (f v) w) as [Q|Q]; [exfalso; eapply Hw; eauto|auto].
    - intros u Hu. destruct (String.eqb_spec v u) as [<- |N]; [contradiction|auto].
  Qed.

  Lemma renamed_term n m t : renamed n m -> (forall w, t = QVar w -> In w S) -> term_value m (rename_term mp t) = term_value n t.
  Proof. intros (A & _) H. destruct t as [w|c]; [|reflexivity]. apply A. now apply H. Qed.

  Lemma mem_image v vs : incl vs S -> In v S -> mem (f v) (map f vs) = mem v vs.
  Proof.
    intros H Hv. destruct (mem v vs) eqn:M.
    - apply mem_In. apply in_map. now apply mem_In.
    - apply mem_not in M. apply mem_not. intros G. apply in_map_iff in G. destruct G as (u & Q & Hu). apply M. rewrite <- (inj u v); auto.
  Qed.

  Lemma renamed_bgp n m vs : renamed n m -> incl vs S ->
    forall e e', (forall v, In v vs -> e v = e' (f v)) ->
    ((forall v, n v = if mem v vs then Some (e v) else None) <-> (forall w, m w = if mem w (map f vs) then Some (e' w) else None)).
  Proof.
    intros (A & B & C) H e e' Q. split; intros G.
    - intros w. destruct (image_dec w) as [(v & Hv & <-)|N].
      + rewrite A, G, mem_image by auto. destruct (mem v vs) eqn:M; auto. f_equal. apply Q. now apply mem_In.
      + rewrite B by auto. destruct (mem w (map f vs)) eqn:M; auto. apply mem_In in M. apply in_map_iff in M. destruct M as (u & U1 & U2).
        exfalso. eapply N; eauto.
    - intros v. destruct (in_S_dec v) as [Hv|Hv].
      + rewrite <- A, G, mem_image by auto. destruct (mem v vs) eqn:M; auto. f_equal. symmetry. apply Q. now apply mem_In.
      + rewrite C by auto. destruct (mem v vs) eqn:M; auto. apply mem_In in M. now contradiction Hv; apply H.
  Qed.

  Lemma dom_S p n v : incl (all_vars p) S -> sol E p n -> n v <> None -> In v S.
  Proof. intros H A B. apply H. apply variables_in_all. left. eapply sol_dom; eauto. Qed.

  Lemma scope_renamed p : fst (variables_in (rename mp p)) = map f (fst (variables_in p)).
  Proof.
    unfold f. induction p as [t vs|l IHl r IHr|l IHl r IHr|l IHl r IHr|l IHl r IHr|c q IH|q IH w t|vs rs|q IH vs|q IH]; cbn [rename variables_in fst map]; auto;
      rewrite ?map_app; congruence.
  Qed.

  Lemma dom_fS p m w : incl (all_vars p) S -> sol E (rename mp p) m -> m w <> None -> exists v, In v S /\ f v = w.
  Proof.
    intros H A B. assert (G := sol_dom _ _ _ _ A B). rewrite scope_renamed in G. apply in_map_iff in G. destruct G as (v & G1 & G2).
    exists v. split; auto. apply H. apply variables_in_all. auto.
  Qed.

  Lemma incl_app_l {A} (l r s : list A) : incl (l ++ r) s -> incl l s. Proof. intros H x Hx. apply H, in_or_app. auto. Qed.
  Lemma incl_app_r {A} (l r s : list A) : incl (l ++ r) s -> incl r s. Proof. intros H x Hx. apply H, in_or_app. auto. Qed.

  Lemma rename_sol_all :
    (forall p, incl (all_vars p) S -> forall n m, renamed n m -> (sol E p n <-> sol E (rename mp p) m)) /\
    (forall c, incl (cond_vars c) S -> forall n m t, renamed n m -> (cond_value E c n t <-> cond_value E (rename_cond mp c) m t)).
  Proof.
    assert (JoinL : forall l r, (incl (all_vars l) S -> forall n m, renamed n m -> (sol E l n <-> sol E (rename mp l) m)) ->
                    (incl (all_vars r) S -> forall n m, renamed n m -> (sol E r n <-> sol E (rename mp r) m)) ->
                    incl (all_vars l ++ all_vars r) S -> forall n m, renamed n m ->
                    ((exists a b, sol E l a /\ sol E r b /\ compatible a b /\ same n (both a b)) <->
                     (exists a b, sol E (rename mp l) a /\ sol E (rename mp r) b /\ compatible a b /\ same m (both a b)))).
    { intros l r IHl IHr H n m R. assert (Hl := incl_app_l _ _ _ H). assert (Hr := incl_app_r _ _ _ H). split.
      - intros (a & b & A & B & C & D). destruct (push_solution a) as (a' & Ra); [intros v; now apply (dom_S l)|].
        destruct (push_solution b) as (b' & Rb); [intros v; now apply (dom_S r)|]. exists a', b'.
        split; [now apply (IHl Hl a a' Ra)|]. split; [now apply (IHr Hr b b' Rb)|].
        split; [now apply (renamed_compatible a a' b b' Ra Rb)|]. now apply (renamed_same n m _ _ R (renamed_both _ _ _ _ Ra Rb)).
      - intros (a & b & A & B & C & D). destruct (pull_solution a) as (a' & Ra); [intros v; now apply (dom_fS l)|].
        destruct (pull_solution b) as (b' & Rb); [intros v; now apply (dom_fS r)|]. exists a', b'.
        split; [now apply (IHl Hl a' a Ra)|]. split; [now apply (IHr Hr b' b Rb)|].
        split; [now apply (renamed_compatible a' a b' b Ra Rb)|]. now apply (renamed_same n m _ _ R (renamed_both _ _ _ _ Ra Rb)). }
    assert (AllR : forall r, (incl (all_vars r) S -> forall n m, renamed n m -> (sol E r n <-> sol E (rename mp r) m)) ->
                   incl (all_vars r) S -> forall n m, renamed n m -> forall Q Q' : solution -> Prop,
                   (forall b b', renamed b b' -> (Q b <-> Q' b')) ->
                   ((forall b, sol E r b -> Q b) <-> (forall b, sol E (rename mp r) b -> Q' b))).
    { intros r IHr Hr n m R Q Q' K. split; intros G b Hb.
      - destruct (pull_solution b) as (b' & Rb); [intros v; now apply (dom_fS r)|]. apply (K b' b Rb). apply G. now apply (IHr Hr b' b Rb).
      - destruct (push_solution b) as (b' & Rb); [intros v; now apply (dom_S r)|]. apply (K b b' Rb). apply G. now apply (IHr Hr b b' Rb). }
    apply pattern_cond_ind.
    - intros t vs H n m R. cbn [rename sol]. cbn [all_vars] in H. split.
      + intros (e & A & B). set (e' := fun w => match m w with Some x => x | None => 0 end). exists e'.
        assert (Q : forall v, In v vs -> e v = e' (f v)).
        { intros v Hv. unfold e'. destruct R as (R & _). rewrite R, B by auto. apply mem_In in Hv. now rewrite Hv. }
        split; [|now apply (renamed_bgp n m vs R H e e' Q)]. rewrite map_map. fold f. rewrite <- (map_ext_in e); auto.
      + intros (e' & A & B). exists (fun v => e' (f v)). split; [now rewrite map_map in A|].
        apply (renamed_bgp n m vs R H (fun v => e' (f v)) e'); auto.
    - intros l IHl r IHr H n m R. cbn [rename sol]. apply JoinL; auto.
    - intros l IHl r IHr H n m R. cbn [rename sol]. rewrite (JoinL l r IHl IHr H n m R). 
      rewrite (IHl (incl_app_l _ _ _ H) n m R). 
      rewrite (AllR r IHr (incl_app_r _ _ _ H) n m R (fun b => ~ compatible n b) (fun b => ~ compatible m b)); [tauto|].
      intros b b' Rb. rewrite (renamed_compatible n m b b' R Rb). tauto.
    - intros l IHl r IHr H n m R. cbn [rename sol]. rewrite (IHl (incl_app_l _ _ _ H) n m R), (IHr (incl_app_r _ _ _ H) n m R). tauto.
    - intros l IHl r IHr H n m R. cbn [rename sol]. rewrite (IHl (incl_app_l _ _ _ H) n m R).
      rewrite (AllR r IHr (incl_app_r _ _ _ H) n m R (fun b => compatible n b -> forall v, n v = None \/ b v = None)
                 (fun b => compatible m b -> forall v, m v = None \/ b v = None)); [tauto|].
      intros b b' Rb. rewrite (renamed_compatible n m b b' R Rb). destruct R as (R1 & R2 & R3), Rb as (B1 & B2 & B3).
      split; intros G C; specialize (G C).
      + intros w. destruct (image_dec w) as [(v & Hv & <-)|N]; [rewrite R1, B1 by auto; auto|left; auto].
      + intros v. destruct (in_S_dec v) as [Hv|Hv]; [rewrite <- R1, <- B1 by auto; auto|left; auto].
    - intros c IHc q IHq H n m R. cbn [rename sol]. cbn [all_vars] in H.
      rewrite (IHq (incl_app_r _ _ _ H) n m R), (IHc (incl_app_l _ _ _ H) n m true R). tauto.
    - intros q IH v t H n m R. cbn [rename sol]. cbn [all_vars] in H.
      assert (Hv : In v S) by (apply H; now left).
      assert (Ht : forall w, t = QVar w -> In w S) by (intros w ->; apply H; right; now left).
      assert (Hq : incl (all_vars q) S) by (intros x Hx; apply H; right; apply in_or_app; auto).
      assert (X : forall a a', renamed a a' -> ((forall w, n w = if String.eqb v w then term_value a t else a w) <->
                (forall w, m w = if String.eqb (f v) w then term_value a' (rename_term mp t) else a' w))).
      { intros a a' Ra. rewrite (renamed_term a a' t Ra Ht). destruct R as (R1 & R2 & R3), Ra as (A1 & A2 & A3). split; intros G.
        - intros w. destruct (image_dec w) as [(u & Hu & <-)|N].
          + rewrite R1, G by auto. destruct (String.eqb_spec v u) as [<- |Q]; [now rewrite String.eqb_refl|].
            destruct (String.eqb_spec (f v) (f u)) as [Q'|Q']; [exfalso; auto|rewrite A1; auto].
          + rewrite R2 by auto. destruct (String.eqb_spec (f v) w) as [Q'|Q']; [exfalso; eapply N; eauto|rewrite A2; auto].
        - intros u. destruct (in_S_dec u) as [Hu|Hu].
          + rewrite <- R1, G by auto. destruct (String.eqb_spec v u) as [<- |Q]; [now rewrite String.eqb_refl|].
            destruct (String.eqb_spec (f v) (f u)) as [Q'|Q']; [exfalso; auto|rewrite A1; auto].
          + rewrite R3 by auto. destruct (String.eqb_spec v u) as [<- |Q]; [contradiction|rewrite A3; auto]. }
      split.
      + intros (a & A & B). destruct (push_solution a) as (a' & Ra); [intros w; now apply (dom_S q)|]. exists a'.
        split; [now apply (IH Hq a a' Ra)|]. now apply (X a a' Ra).
      + intros (a & A & B). destruct (pull_solution a) as (a' & Ra); [intros w; now apply (dom_fS q)|]. exists a'.
        split; [now apply (IH Hq a' a Ra)|]. now apply (X a' a Ra).
    - intros vs rs H n m R. cbn [rename sol]. split; intros (row & A & B); exists row; (split; [auto|]);
        [apply -> (renamed_same n m _ _ R (renamed_row vs row H)) in B; auto|apply (renamed_same n m _ _ R (renamed_row vs row H)); auto].
    - intros q IH vs H n m R. cbn [rename sol]. cbn [all_vars] in H. assert (Hv := incl_app_l _ _ _ H). assert (Hq := incl_app_r _ _ _ H).
      assert (X : forall a a', renamed a a' -> ((forall w, n w = if mem w vs then a w else None) <->
                (forall w, m w = if mem w (map f vs) then a' w else None))).
      { intros a a' Ra. destruct R as (R1 & R2 & R3), Ra as (A1 & A2 & A3). split; intros G.
        - intros w. destruct (image_dec w) as [(u & Hu & <-)|N].
          + rewrite R1, G, mem_image by auto. destruct (mem u vs); auto. rewrite A1; auto.
          + rewrite R2 by auto. destruct (mem w (map f vs)); auto. rewrite A2; auto.
        - intros u. destruct (in_S_dec u) as [Hu|Hu].
          + rewrite <- R1, G, mem_image by auto. destruct (mem u vs); auto.
          + rewrite R3 by auto. destruct (mem u vs); auto. rewrite A3; auto. }
      split.
      + intros (a & A & B). destruct (push_solution a) as (a' & Ra); [intros w; now apply (dom_S q)|]. exists a'.
        split; [now apply (IH Hq a a' Ra)|]. now apply (X a a' Ra).
      + intros (a & A & B). destruct (pull_solution a) as (a' & Ra); [intros w; now apply (dom_fS q)|]. exists a'.
        split; [now apply (IH Hq a' a Ra)|]. now apply (X a' a Ra).
    - intros q IH H n m R. cbn [rename sol]. apply IH; auto.
    - intros a b H n m t R. cbn [rename_cond cond_value]. cbn [cond_vars] in H.
      rewrite (renamed_term n m a R), (renamed_term n m b R); [tauto| |].
      + intros w ->. apply H, in_or_app. right. now left.
      + intros w ->. apply H, in_or_app. left. now left.
    - intros v H n m t R. cbn [rename_cond cond_value]. destruct R as (R & _). fold f. rewrite R by (apply H; now left). tauto.
    - intros a IH H n m t R. cbn [rename_cond cond_value]. apply IH; auto.
    - intros a IHa b IHb H n m t R. cbn [rename_cond cond_value]. cbn [cond_vars] in H.
      assert (Ha := incl_app_l _ _ _ H). assert (Hb := incl_app_r _ _ _ H).
      destruct t; rewrite (IHa Ha n m _ R), (IHb Hb n m _ R); tauto.
    - intros p IH H n m t R. cbn [rename_cond cond_value].
      assert (X : (exists b, sol E p b /\ compatible n b) <-> (exists b, sol E (rename mp p) b /\ compatible m b)).
      { split; intros (b & A & B).
        - destruct (push_solution b) as (b' & Rb); [intros w; now apply (dom_S p)|]. exists b'. split; [now apply (IH H b b' Rb)|].
          now apply (renamed_compatible n m b b' R Rb).
        - destruct (pull_solution b) as (b' & Rb); [intros w; now apply (dom_fS p)|]. exists b'. split; [now apply (IH H b' b Rb)|].
          now apply (renamed_compatible n m b' b R Rb). }
      destruct t; rewrite X; tauto.
  Qed.

  Lemma rename_sol p n m : incl (all_vars p) S -> renamed n m -> (sol E p n <-> sol E (rename mp p) m).
  Proof. intros H. now apply rename_sol_all. Qed.
End rename.
