(** Unification of head atoms, and the match behind every derived fact. *)
From Coq Require Import List Arith ZArith Bool Lia Permutation.
From Verif Require Import TableModel TableSpec TableProofs TableProofs2 EngineModel EngineSpec EngineProofs1 EngineProofs2 EngineProofs3 EngineProofs7 EngineProofs8 EngineProofs9 TraceModel TraceSpec TraceProofs1 TraceProofs2.
Import ListNotations.

(** ** Rules in the history could be executed *)
Lemma execute_history {T} pr (next : T -> option bool -> option (option nat * T)) s0 (Hwf : wf_program pr) n :
  match execute pr next s0 n with
  | Panicked => True
  | Running e _ _ | Finished e => forall i r, In i (e_history e) -> nth_error (p_rules pr) i = Some r -> executable r
  end.
Proof.
  induction n as [|n IH]; simpl.
  - unfold engine_init. destruct (run manager_new (init_ops pr)); simpl; auto. intros i r [].
  - unfold loop1. destruct (execute pr next s0 n) as [|e s resp|e]; auto. destruct (next s resp) as [[[i|] s']|]; auto.
    destruct (engine_apply pr e i) as [[e' b]|] eqn:E; auto. unfold engine_apply in E.
    destruct (nth_error (p_rules pr) i) as [r|] eqn:Er; [|discriminate].
    destruct (execute_rule _ i r _ _ _ _) as [[res nulls]|] eqn:Ex; [|discriminate].
    destruct (add_results _ _ res) as [[m up]|]; [|discriminate]. destruct (defrag _ _ _) as [[m' f']|]; [|discriminate].
    injection E as <- _. simpl. intros j rj Hj Hrj. apply in_app_iff in Hj. destruct Hj as [Hj|[<-|[]]]; [eauto|].
    rewrite Er in Hrj. injection Hrj as <-. unfold execute_rule in Ex.
    destruct (body_node (manager_reader (e_manager e)) r (e_step e) (e_last e i)) as [x|] eqn:Eb; [|discriminate].
    eapply body_executable; [|exact Eb]. apply (wf_rules pr Hwf). eapply nth_error_In; eauto.
Qed.

Lemma reachable_executable {T} pr (next : T -> option bool -> option (option nat * T)) s0 e : wf_program pr -> reachable pr next s0 e ->
  forall i r, In i (e_history e) -> nth_error (p_rules pr) i = Some r -> executable r.
Proof.
  intros Hwf (n & Hn). pose proof (execute_history pr next s0 Hwf n) as Hi. destruct Hn as [(s & resp & Hn)|Hn]; rewrite Hn in Hi; exact Hi.
Qed.

Lemma nth_error_ext {A} : forall l l' : list A, (forall i, nth_error l i = nth_error l' i) -> l = l'.
Proof.
  induction l as [|x l IH]; intros [|y l'] H; [reflexivity|specialize (H 0); discriminate|specialize (H 0); discriminate|].
  f_equal; [specialize (H 0); simpl in H; congruence|]. apply IH. intros i. exact (H (S i)).
Qed.

(** ** Assignments *)
Lemma lookup_in g : forall v z, lookup g v = Some z -> In (v, z) g.
Proof. induction g as [|[w y] g IH]; simpl; intros v z H; [discriminate|]. destruct (Nat.eqb_spec v w) as [E|E]; [injection H as <-; subst|]; auto. Qed.

Lemma lookup_none g : forall v, lookup g v = None -> ~ In v (map fst g).
Proof.
  induction g as [|[w y] g IH]; simpl; intros v H; [tauto|]. destruct (Nat.eqb_spec v w) as [E|Hn]; [discriminate|].
  intros [Hi|Hi]; [congruence|]. eapply IH; eauto.
Qed.

Lemma in_lookup g : forall v z, NoDup (map fst g) -> In (v, z) g -> lookup g v = Some z.
Proof.
  induction g as [|[w y] g IH]; simpl; intros v z Hn Hi; [tauto|]. inversion Hn as [|? ? N1 N2]; subst. destruct Hi as [Hi|Hi].
  - injection Hi as -> ->. now rewrite Nat.eqb_refl.
  - destruct (Nat.eqb_spec v w) as [E|E]; [|auto]. exfalso. apply N1. apply in_map_iff. exists (v, z). auto.
Qed.

(** ** Unification *)
Lemma unify_spec ts : forall x g g', unify ts x g = Some g' ->
  incl g g' /\ (forall v z, In (v, z) g' -> In (v, z) g \/ In (HVar v) ts) /\
  (forall j t z, nth_error ts j = Some t -> nth_error x j = Some z ->
     match t with HConst c => c = z | HEx _ => True | HVar v => In (v, z) g' end).
Proof.
  induction ts as [|t ts IH]; intros [|z x] g g' H; simpl in H.
  - injection H as <-. split; [apply incl_refl|split; auto]. intros [|j]; discriminate.
  - injection H as <-. split; [apply incl_refl|split; auto]. intros [|j]; discriminate.
  - injection H as <-. split; [apply incl_refl|split; auto]. intros [|j] t0 y _ Hy; discriminate Hy.
  - assert (Hstep : forall g1, unify ts x g1 = Some g' -> incl g g1 ->
       (forall v y, In (v, y) g1 -> In (v, y) g \/ In (HVar v) (t :: ts)) ->
       match t with HConst c => c = z | HEx _ => True | HVar v => In (v, z) g1 end ->
       incl g g' /\ (forall v y, In (v, y) g' -> In (v, y) g \/ In (HVar v) (t :: ts)) /\
       (forall j t0 y, nth_error (t :: ts) j = Some t0 -> nth_error (z :: x) j = Some y ->
          match t0 with HConst c => c = y | HEx _ => True | HVar v => In (v, y) g' end)).
    { intros g1 H1 Hi Hs Ht. destruct (IH _ _ _ H1) as (A & B & C). split; [|split].
      - intros a Ha. auto.
      - intros v y Hv. destruct (B v y Hv) as [Hg|Hv']; [auto|]. right. right. exact Hv'.
      - intros [|j] t0 y H0 H2; [|exact (C j t0 y H0 H2)]. simpl in H0, H2. injection H0 as <-. injection H2 as <-. destruct t; auto. }
    destruct t as [v|v|c].
    + destruct (lookup g v) as [y|] eqn:El.
      * destruct (Z.eqb_spec y z) as [->|]; [|discriminate]. apply (Hstep g); auto; [apply incl_refl|]. now apply lookup_in.
      * apply (Hstep (g ++ [(v, z)])); auto.
        -- apply incl_appl, incl_refl.
        -- intros w y Hw. apply in_app_iff in Hw. destruct Hw as [?|[Hw|[]]]; auto. injection Hw as -> ->. right. left. reflexivity.
        -- apply in_app_iff. right. simpl. auto.
    + apply (Hstep g); auto. apply incl_refl.
    + destruct (Z.eqb_spec c z) as [->|]; [|discriminate]. apply (Hstep g); auto. apply incl_refl.
Qed.

Lemma unify_complete mu ts : forall g, (forall v z, In (v, z) g -> mu v = z) ->
  exists g', unify ts (map (hterm_val mu) ts) g = Some g' /\ forall v z, In (v, z) g' -> mu v = z.
Proof.
  induction ts as [|t ts IH]; intros g Hg; simpl; [eauto|]. destruct t as [v|v|c]; simpl.
  - destruct (lookup g v) as [y|] eqn:El.
    + apply lookup_in in El. rewrite (Hg _ _ El), Z.eqb_refl. auto.
    + apply IH. intros w z Hw. apply in_app_iff in Hw. destruct Hw as [?|[Hw|[]]]; auto. injection Hw as <- <-. reflexivity.
  - auto.
  - rewrite Z.eqb_refl. auto.
Qed.

(** ** The row that is picked *)
Lemma restrict_app P rest vs : incl P vs -> restrict (P ++ rest) vs = P ++ restrict rest vs.
Proof.
  intros Hi. unfold restrict. rewrite filter_app. f_equal. induction P as [|v P IH]; simpl; auto.
  rewrite (proj2 (memv_in v vs)); [|apply Hi; simpl; auto]. f_equal. apply IH. intros w Hw. apply Hi. simpl. auto.
Qed.

Lemma combine_map_app (nu : var -> Z) (P : list var) : forall (l2 : list var) (l3 : list Z), exists rest, combine (P ++ l2) (map nu P ++ l3) = combine P (map nu P) ++ rest.
Proof. induction P as [|v P IH]; intros l2 l3; simpl; [eauto|]. destruct (IH l2 l3) as (rest & ->). exists rest. reflexivity. Qed.

Lemma combine_keys (vs : list var) : forall (x : row), NoDup vs -> NoDup (map fst (combine vs x)).
Proof.
  induction vs as [|v vs IH]; intros [|z x] Hn; simpl; try constructor; inversion Hn; subst; auto.
  intros Hi. apply in_map_iff in Hi. destruct Hi as ([w y] & <- & Hi). apply in_combine_l in Hi. auto.
Qed.

Section Query.
Context (rd : reader) (D : tag -> nat -> row -> Prop) (Hrd : rd_ok rd D).
Context (r : rule) (Hwf : wf_rule r) (Ht : traceable r) (Hex : executable r).

Lemma clean_head k a v : nth_error (r_head r) k = Some a -> In (HVar v) (snd a) -> clean r v.
Proof.
  intros Hk Hv. assert (Hd : forall v, {bound r v} + {~ bound r v}) by (apply bound_dec; apply (wf_order r Hwf)).
  destruct (Hd v) as [?|Hn]; [left; auto|]. right. intros p xs Hp. unfold agg_index in *. pose proof (wf_head r Hwf k a v Hk Hv) as Hh.
  unfold agg_index in Hh. destruct (r_agg r) as [[ag k']|] eqn:Ha.
  - destruct (Nat.eq_dec k k') as [->|Hne]; [eapply (tb_agg r Ht); eauto|]. exfalso. apply Hn, Hh. simpl. congruence.
  - exfalso. apply Hn, Hh. discriminate.
Qed.

(** What is known of the application that stored the fact [x] for the head atom [a0]. *)
Record origin (step k0 : nat) (a0 : hatom) (x : row) (mu0 nu0 : var -> Z) : Prop := {
  o_head : nth_error (r_head r) k0 = Some a0;
  o_row : x = map (hterm_val mu0) (snd a0);
  o_match : matches r (upto D step) (upto D step) nu0;
  o_bound : forall v, In (HVar v) (snd a0) -> bound r v -> mu0 v = nu0 v;
  o_agg : forall ag, r_agg r = Some (ag, k0) -> (forall v, In v (ag_group ag) -> mu0 v = nu0 v) /\ forall o, agg_op r o -> holds mu0 o }.

(** The query for that head atom has a row. *)
Lemma query_complete step k0 a0 x mu0 nu0 g : origin step k0 a0 x mu0 nu0 ->
  (forall v z, In (v, z) g -> In (HVar v) (snd a0) /\ mu0 v = z) ->
  exists n vars, trace_query rd r g step = Some (n, vars) /\ nrows n <> [].
Proof.
  intros Ho Hgi. assert (Hg : forall v z, In (v, z) g -> clean r v).
  { intros v z Hv. destruct (Hgi v z Hv). eapply clean_head; eauto. apply (o_head _ _ _ _ _ _ Ho). }
  destruct (trace_query_spec rd D Hrd r Hwf Ht Hex g Hg step) as (n & vars & E & Wn & Hb & _ & _ & Hm).
  exists n, vars. split; auto.
  assert (Hd : forall v, {bound r v} + {~ bound r v}) by (apply bound_dec; apply (wf_order r Hwf)).
  set (nu := fun v => if Hd v then nu0 v else mu0 v).
  assert (Hms : msat nu n).
  { apply Hm. apply (matches_up' r Hwf Ht g Hg).
    - apply (matches_ext r _ _ nu0); [|apply (o_match _ _ _ _ _ _ Ho)]. intros v Hv. unfold nu. destruct (Hd v); tauto.
    - intros v z Hv. destruct (Hgi v z Hv) as [Hin <-]. unfold nu. destruct (Hd v) as [Hbv|]; auto. symmetry. now apply (o_bound _ _ _ _ _ _ Ho).
    - intros o Hio Hbo Hno. destruct (extra_op r Hwf g Hg o Hio Hbo Hno) as (ag & k & Hag & Haop & (v & Hv & Hnv) & Hw).
      destruct (Nat.eq_dec k k0) as [->|Hne].
      + destruct (o_agg _ _ _ _ _ _ Ho ag Hag) as [G1 G2]. rewrite <- (holds_ext mu0); auto.
        intros w Hww. unfold nu. destruct (Hd w) as [Hbw|]; auto. destruct (Hw w Hww) as [Hgw|]; [|tauto]. auto.
      + exfalso. apply Hnv. apply (bound_same r g); auto. intros w z Hwz. destruct (Hgi w z Hwz) as [Hin _].
        apply (wf_head r Hwf k0 a0 w (o_head _ _ _ _ _ _ Ho) Hin). unfold agg_index. rewrite Hag. simpl. congruence. }
  unfold msat in Hms. intros Hnil. rewrite Hnil in Hms. destruct Hms.
Qed.

(** A row of the query for any head atom is a match, and the fact is an instance of the head atom. *)
Lemma query_sound step k0 a0 x mu0 nu0 k a g g' n vars rw : origin step k0 a0 x mu0 nu0 ->
  nth_error (r_head r) k = Some a -> fst a = fst a0 -> unify (snd a) x [] = Some g -> Permutation g g' ->
  trace_query rd r g' step = Some (n, vars) -> In rw (nrows n) ->
  exists nu, matches r (upto D step) (upto D step) nu /\ instance_of r nu a x /\
    NoDup (map fst (combine vars rw)) /\ (forall v, In v (atom_vars (r_pos r)) -> In (v, nu v) (combine vars rw)).
Proof.
  intros Ho Hk Hf Hu Hp E Hrw. destruct (unify_spec _ _ _ _ Hu) as (_ & U1 & U2).
  assert (Hgi : forall v z, In (v, z) g' -> In (HVar v) (snd a)).
  { intros v z Hv. apply (Permutation_in _ (Permutation_sym Hp)) in Hv. destruct (U1 v z Hv) as [[]|]; auto. }
  assert (Hg : forall v z, In (v, z) g' -> clean r v) by (intros v z Hv; eapply clean_head; eauto).
  destruct (trace_query_spec rd D Hrd r Hwf Ht Hex g' Hg step) as (n' & vars' & E' & Wn & Hb & (new & Hnv) & Hvars & Hm).
  rewrite E in E'. injection E' as <- <-.
  set (nu := val_of (nvars n) rw). assert (Hms : msat nu n) by now apply row_val.
  apply Hm in Hms. destruct (matches_down r Hwf Ht g' Hg _ _ nu Hms) as [Hmr Hgz].
  exists nu. split; [exact Hmr|split].
  - assert (Hlen : length x = length (snd a)).
    { rewrite (o_row _ _ _ _ _ _ Ho), map_length. apply (tb_arity r Ht); auto; eapply nth_error_In; eauto. apply (o_head _ _ _ _ _ _ Ho). }
    assert (Hpos : forall j t z, nth_error (snd a) j = Some t -> nth_error x j = Some z ->
       match t with HConst c => c = z | HEx _ => True | HVar v => nu v = z end).
    { intros j t z Ht1 Hz. specialize (U2 j t z Ht1 Hz). destruct t as [v|v|c]; auto. apply Hgz. eapply Permutation_in; eauto. }
    assert (Hd : forall v, {bound r v} + {~ bound r v}) by (apply bound_dec; apply (wf_order r Hwf)).
    destruct (Nat.eq_dec k k0) as [->|Hne].
    + rewrite (o_head _ _ _ _ _ _ Ho) in Hk. injection Hk as <-. exists (fun v => if Hd v then nu v else mu0 v). split.
      { intros v Hv. destruct (Hd v); tauto. }
      apply nth_error_ext. intros j. rewrite nth_error_map. destruct (nth_error (snd a0) j) as [t|] eqn:Ej.
      2:{ simpl. apply nth_error_None in Ej. apply nth_error_None. lia. }
      assert (Ez : nth_error x j = Some (hterm_val mu0 t)) by (rewrite (o_row _ _ _ _ _ _ Ho), nth_error_map, Ej; reflexivity).
      rewrite Ez. simpl. f_equal. specialize (Hpos j t _ Ej Ez). destruct t as [v|v|c]; simpl in *; auto.
      * destruct (Hd v); auto.
      * destruct (Hd v) as [Hbv|]; auto. exfalso. destruct (wf_ex r Hwf v) as [Hnb _]; [|auto].
        exists a0. split; [eapply nth_error_In; apply (o_head _ _ _ _ _ _ Ho)|]. unfold hatom_ex. apply in_flat_map. exists (HEx v). split; [eapply nth_error_In; eauto|]. simpl. auto.
    + assert (Hnoex : hatom_ex a = []).
      { destruct (hatom_ex a) eqn:Eh; auto. exfalso. apply (tb_alone r Ht k a k0 a0 Hk (o_head _ _ _ _ _ _ Ho) Hne); [|auto]. left. congruence. }
      exists nu. split; auto. apply nth_error_ext. intros j. rewrite nth_error_map. destruct (nth_error (snd a) j) as [t|] eqn:Ej.
      2:{ simpl. apply nth_error_None in Ej. apply nth_error_None. lia. }
      simpl. destruct (nth_error x j) as [z|] eqn:Ez.
      2:{ exfalso. apply nth_error_None in Ez. assert (j < length (snd a)) by (apply nth_error_Some; congruence). lia. }
      specialize (Hpos j t z Ej Ez). f_equal. destruct t as [v|v|c]; simpl; auto. exfalso.
      assert (In v (hatom_ex a)); [|rewrite Hnoex in *; auto]. unfold hatom_ex. apply in_flat_map. exists (HEx v). split; [eapply nth_error_In; eauto|]. simpl. auto.
  - destruct (wf_order r Hwf) as [Hond Hoincl]. split.
    + apply combine_keys. rewrite Hvars. unfold restrict. now apply NoDup_filter.
    + intros v Hv. destruct (tb_order r Ht) as (rest & Hrest). set (P := restrict (r_order r) (atom_vars (r_pos r))) in *.
      assert (Hrow : rw = map nu P ++ map nu new). { rewrite <- map_app, <- Hnv. symmetry. apply val_of_map; apply Wn; auto. }
      assert (HP : vars = P ++ restrict rest (nvars n)).
      { rewrite Hvars, Hrest. apply restrict_app. rewrite Hnv. apply incl_appl, incl_refl. }
      rewrite Hrow, HP. destruct (combine_map_app nu P (restrict rest (nvars n)) (map nu new)) as (rest' & ->).
      apply in_app_iff. left. assert (HvP : In v P) by (apply restrict_in; auto).
      clear - HvP. induction P as [|w P IH]; simpl in *; [tauto|]. destruct HvP as [->|?]; auto.
Qed.
End Query.
