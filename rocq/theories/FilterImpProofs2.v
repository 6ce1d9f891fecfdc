(** C43: a pushed rule does the same as the rule. *)
From Coq Require Import List Arith ZArith Bool Lia Permutation.
From Verif Require Import TableModel EngineModel EngineSpec EngineProofs1 EngineProofs3 NormModel NormSpec FilterImpModel FilterImpSpec FilterImpProofs1.
Import ListNotations.

Lemma filter_once {A} (f : A -> bool) l : (forall i j x y, nth_error l i = Some x -> nth_error l j = Some y -> f x = true -> f y = true -> i = j) -> length (filter f l) <= 1.
Proof.
  induction l as [|a l IH]; simpl; intros H; [lia|]. assert (Hl : length (filter f l) <= 1). { apply IH. intros i j x y Hi Hj Fx Fy. assert (E : S i = S j) by (eapply (H (S i) (S j)); eauto). lia. }
  destruct (f a) eqn:E; auto. simpl. destruct (filter f l) as [|b r] eqn:Er; simpl; auto. exfalso.
  assert (Hb : In b (filter f l)) by (rewrite Er; now left). apply filter_In in Hb. destruct Hb as [Hb Fb]. apply In_nth_error in Hb. destruct Hb as (j & Hj).
  pose proof (H 0 (S j) a b eq_refl Hj E Fb). discriminate.
Qed.
Lemma filter_perm_length {A} (f : A -> bool) l l' : Permutation l l' -> length (filter f l) = length (filter f l').
Proof. induction 1; simpl; auto; try congruence. - destruct (f x); simpl; auto. - destruct (f x), (f y); simpl; auto. Qed.

Lemma vals_map F nu hs zs : Forall2 (fun h z => hout F h = Val z) hs zs ->
  (forall h v z, In h hs -> In v (hterm_vars h) -> F v = Val z -> nu v = z) -> zs = map (hterm_val nu) hs.
Proof.
  induction 1 as [|h z hs zs H _ IH]; simpl; intros Hi; auto. f_equal; [|apply IH; eauto].
  destruct h as [v|v|c]; simpl in *; [| |congruence]; symmetry; eapply (Hi _ v z); eauto; simpl; auto.
Qed.
Lemma vals_all F hs zs : Forall2 (fun h z => hout F h = Val z) hs zs -> forall h, In h hs -> exists z, hout F h = Val z.
Proof. induction 1; simpl; intros h' Hh'; [tauto|]. destruct Hh' as [<-|Hh']; eauto. Qed.

Lemma vals_length F hs zs : Forall2 (fun h z => hout F h = Val z) hs zs -> length hs = length zs.
Proof. induction 1; simpl; auto. Qed.

Section Rule.
Context (nr : rule) (p q : tag) (xs : list var) (hs : list hterm).
Context (Hpos : r_pos nr = [(p, xs)]) (Hhead : r_head nr = [(q, hs)]) (Hnd : NoDup xs).
Context (Hops : forall o v, In o (r_ops nr) -> In v (op_vars o) -> bound nr v).
Context (Hhv : forall v, In v (head_vars nr) -> bound nr v) (Hpl : plain_operations nr).

(** [x] is derived by the rule from the row [y] with valuation [nu]. *)
Definition fires (nu : var -> Z) (y x : row) : Prop :=
  map nu xs = y /\ (forall o, In o (r_ops nr) -> holds nu o) /\ x = map (hterm_val nu) hs.

Lemma atom_vars_xs : atom_vars (r_pos nr) = xs.
Proof. rewrite Hpos. unfold atom_vars. simpl. apply app_nil_r. Qed.

Context (fns : list (var * expr)) (fs : list oper).
Context (Hok : fun_ok xs fns) (Hperm : Permutation (r_ops nr) (map to_op fns ++ fs)).
Context (Hbv : forall v, bound nr v -> In v (xs ++ map fst fns)).

Lemma fn_op v e : In (v, e) fns -> In (OEq v e) (r_ops nr).
Proof. intros H. apply (Permutation_in _ (Permutation_sym Hperm)), in_app_iff. left. apply in_map_iff. exists (v, e). auto. Qed.
Lemma fn_new v e : In (v, e) fns -> ~ In v xs.
Proof. intros H Hc. apply (fun_ok_new _ _ _ Hok Hc). apply in_map_iff. exists (v, e). auto. Qed.
Lemma filter_vars o v : In o fs -> In v (op_vars o) -> In v xs.
Proof.
  intros Ho Hv. assert (Hin : In o (r_ops nr)) by (apply (Permutation_in _ (Permutation_sym Hperm)), in_app_iff; auto).
  destruct (po_ops nr Hpl o Hin) as [Hi|(w & e & -> & Hw & _)]; rewrite atom_vars_xs in *; auto. exfalso.
  assert (Hb : In w (xs ++ map fst fns)) by (apply Hbv; apply (Hops (OEq w e)); simpl; auto).
  apply in_app_iff in Hb. destruct Hb as [Hb|Hb]; [tauto|]. apply in_map_iff in Hb. destruct Hb as ([w' e'] & E & Hb). simpl in E. subst w'.
  assert (Hle : length (filter (assigns w) (r_ops nr)) <= 1).
  { apply filter_once. intros i j x y Hi Hj Fx Fy. destruct x as [v1 e1|]; [|discriminate]. destruct y as [v2 e2|]; [|discriminate]. simpl in Fx, Fy. apply Nat.eqb_eq in Fx, Fy. subst.
    eapply (po_once nr Hpl i j w); eauto. now rewrite atom_vars_xs. }
  rewrite (filter_perm_length _ _ _ Hperm), filter_app, app_length in Hle.
  assert (H1 : In (OEq w e') (filter (assigns w) (map to_op fns))) by (apply filter_In; split; [apply in_map_iff; exists (w, e'); auto|simpl; apply Nat.eqb_refl]).
  assert (H2 : In (OEq w e) (filter (assigns w) fs)) by (apply filter_In; split; [auto|simpl; apply Nat.eqb_refl]).
  destruct (filter (assigns w) (map to_op fns)); [destruct H1|]. destruct (filter (assigns w) fs); [destruct H2|]. simpl in Hle. lia.
Qed.
Lemma op_fn w e : In (OEq w e) (r_ops nr) -> ~ In w xs -> In (w, e) fns.
Proof.
  intros H Hw. apply (Permutation_in _ Hperm), in_app_iff in H. destruct H as [H|H].
  - apply in_map_iff in H. destruct H as ([w' e'] & E & H). unfold to_op in E. simpl in E. injection E as -> ->. auto.
  - exfalso. apply Hw. apply (filter_vars _ w H). simpl. auto.
Qed.

(** Columns that are not used may be skipped. *)
Context (ks : list bool) (Hks : length ks = length xs).
Definition occurs (v : var) : Prop := In v (head_vars nr) \/ exists o, In o (r_ops nr) /\ In v (op_vars o).
Context (Hun : forall n v, nth_error ks n = Some false -> nth_error xs n = Some v -> ~ occurs v).

Context (l : list var).
Let vars := dedup (xs ++ l).

Lemma used_kept y rest v : length y = length xs -> occurs v -> In v xs -> column (map negb ks) (kept ks y ++ rest) vars v = Val (val_of xs y v).
Proof.
  intros Hy Ho Hv. apply In_nth_error in Hv. destruct Hv as (n & Hn). apply (column_kept ks xs l y rest v n); auto.
  destruct (nth_error ks n) as [[]|] eqn:E; auto; exfalso; [apply (Hun n v); auto|]. apply nth_error_None in E. assert (n < length xs) by (apply nth_error_Some; congruence). lia.
Qed.

Section Row.
Context (y : row) (rest : list Z) (Hy : length y = length xs).
Let F := inlined (column (map negb ks) (kept ks y ++ rest) vars) fns.

Lemma F_xs v : occurs v -> In v xs -> F v = Val (val_of xs y v).
Proof. intros Ho Hv. unfold F. rewrite inlined_other by (now apply (fun_ok_new xs)). now apply used_kept. Qed.
Lemma F_fun v e : In (v, e) fns -> F v = eval_in F e.
Proof. intros H. unfold F. now apply (inlined_fun fns xs). Qed.
Lemma e_occurs v e w : In (v, e) fns -> In w (e_vars e) -> occurs w.
Proof. intros H Hw. right. exists (OEq v e). split; [now apply fn_op|]. simpl. auto. Qed.

Lemma F_not_crash v : occurs v -> bound nr v -> F v <> Crash.
Proof.
  intros Ho Hb. apply Hbv in Hb. revert Ho. 
  apply (fun_ok_bound (fun v => occurs v -> F v <> Crash) (map to_op fns) xs fns Hok); auto.
  - intros w Hw Ho. rewrite F_xs by auto. discriminate.
  - intros w e H. apply in_map_iff. exists (w, e). auto.
  - intros w e H IH _. apply in_map_iff in H. destruct H as ([w' e'] & E & H). unfold to_op in E. simpl in E. injection E as -> ->.
    rewrite (F_fun w e H). apply eval_in_not_crash. intros x Hx. apply IH; auto. eapply e_occurs; eauto.
Qed.
Lemma F_fires nu x v : fires nu y x -> occurs v -> bound nr v -> F v = Val (nu v).
Proof.
  intros (H1 & H2 & H3) Ho Hb. apply Hbv in Hb. revert Ho.
  apply (fun_ok_bound (fun v => occurs v -> F v = Val (nu v)) (map to_op fns) xs fns Hok); auto.
  - intros w Hw Ho. rewrite F_xs by auto. f_equal. rewrite <- H1. now apply val_of_in.
  - intros w e H. apply in_map_iff. exists (w, e). auto.
  - intros w e H IH _. apply in_map_iff in H. destruct H as ([w' e'] & E & H). unfold to_op in E. simpl in E. injection E as -> ->.
    rewrite (F_fun w e H). rewrite (eval_in_val F nu e); [|intros x' Hx; apply IH; auto; eapply e_occurs; eauto].
    pose proof (H2 (OEq w e) (fn_op w e H)) as Hh. simpl in Hh. now rewrite Hh.
Qed.

Definition nu0 (v : var) : Z := if memv v xs then val_of xs y v else match F v with Val z => z | _ => 0%Z end.
Lemma nu0_xs v : In v xs -> nu0 v = val_of xs y v.
Proof. intros H. unfold nu0. assert (E : memv v xs = true) by (now apply memv_In). now rewrite E. Qed.
Lemma nu0_F v z : occurs v -> F v = Val z -> F v = Val (nu0 v).
Proof.
  intros Ho E. unfold nu0. destruct (memv v xs) eqn:Em; [apply memv_In in Em; now apply F_xs|]. now rewrite E.
Qed.
Lemma needed_val : (forall h, In h hs -> exists z, hout F h = Val z) -> forall v, needed nr v -> exists z, F v = Val z.
Proof.
  intros Hh v Hn. induction Hn as [v Hv|v w e Hin Hw _ IH Hv].
  - unfold head_vars in Hv. rewrite Hhead in Hv. simpl in Hv. rewrite app_nil_r in Hv. unfold hatom_vars in Hv. simpl in Hv. apply in_flat_map in Hv. destruct Hv as (h & H1 & H2).
    destruct (Hh h H1) as (z & Hz). destruct h as [v'|v'|c]; simpl in *; destruct H2 as [<-|[]] || destruct H2; eauto.
  - rewrite atom_vars_xs in Hw. destruct IH as (z & Hz). pose proof (op_fn w e Hin Hw) as Hf. rewrite (F_fun w e Hf) in Hz. eapply eval_in_strict; eauto.
Qed.
Lemma val_ext e (nu nu' : var -> Z) : (forall v, In v (e_vars e) -> nu v = nu' v) -> eval_expr nu e = eval_expr nu' e.
Proof. intros H. unfold eval_expr. f_equal. now apply map_ext_in. Qed.
Lemma holds_ext o (nu nu' : var -> Z) : (forall v, In v (op_vars o) -> nu v = nu' v) -> holds nu o -> holds nu' o.
Proof. destruct o as [v e|e]; simpl; intros H; rewrite (val_ext e nu nu') by auto; [rewrite (H v) by auto|]; auto. Qed.
Lemma nu0_fires zs : Forall2 (fun h z => hout F h = Val z) hs zs -> forallb (test_op (val_of xs y)) fs = true -> fires nu0 y zs.
Proof.
  intros Hz Hf. pose proof (vals_all _ _ _ Hz) as Hh.
  split; [|split].
  - transitivity (map (val_of xs y) xs); [apply map_ext_in; apply nu0_xs|]. now apply val_of_map.
  - intros o Ho. apply (Permutation_in _ Hperm), in_app_iff in Ho. destruct Ho as [Ho|Ho].
    + apply in_map_iff in Ho. destruct Ho as ([v e] & <- & Hv). unfold to_op. simpl.
      assert (Hn : needed nr v). { destruct (po_ops nr Hpl _ (fn_op v e Hv)) as [Hi|(w & e' & E & _ & Hn)]; [|injection E as <- <-; auto]. exfalso. apply (fn_new v e Hv). rewrite atom_vars_xs in Hi. apply Hi. simpl. auto. }
      destruct (needed_val Hh v Hn) as (z & Ez). pose proof Ez as Ez2. rewrite (F_fun v e Hv) in Ez.
      rewrite (eval_in_val F nu0 e) in Ez.
      * destruct (eval_expr nu0 e) as [z'|]; [|discriminate]. injection Ez as ->. f_equal. assert (Ho : occurs v) by (right; exists (OEq v e); split; [now apply fn_op|simpl; auto]).
        pose proof (nu0_F v z Ho Ez2) as E. rewrite Ez2 in E. now injection E.
      * intros w Hw. destruct (eval_in_strict F e z Ez w Hw) as (zw & Hzw). eapply nu0_F; eauto. eapply e_occurs; eauto.
    + rewrite forallb_forall in Hf. apply (holds_ext o (val_of xs y)); [intros v Hv; symmetry; apply nu0_xs; eapply filter_vars; eauto|]. apply test_holds. auto.
  - assert (Ho : forall h, In h hs -> incl (hterm_vars h) (head_vars nr)).
    { intros h Hh' v Hv. unfold head_vars. rewrite Hhead. simpl. rewrite app_nil_r. unfold hatom_vars. simpl. apply in_flat_map. eauto. }
    apply (vals_map F); auto. intros h v z Hh' Hv E. assert (Hoc : occurs v) by (left; eapply Ho; eauto).
    pose proof (nu0_F v z Hoc E) as E2. rewrite E in E2. now injection E2.
Qed.
End Row.

Definition pat : pattern := mkPattern vars xs fns fs hs.

Lemma pattern_row y rest : length y = length xs -> length hs <= length (kept ks y ++ rest) ->
  exists buf' b, first_match (map negb ks) (length (kept ks y)) [pat] (kept ks y ++ rest) = Some (buf', b) /\
    length buf' = length (kept ks y ++ rest) /\
    (b = true -> (exists nu, fires nu y (firstn (length hs) buf')) /\ forall nu x, fires nu y x -> x = firstn (length hs) buf') /\
    (b = false -> forall nu x, ~ fires nu y x).
Proof.
  intros Hy Hl. unfold first_match, pat. simpl pt_vars. simpl pt_filters. simpl pt_fns. simpl pt_out.
  assert (Ef : all_true (column (map negb ks) (firstn (length (kept ks y)) (kept ks y ++ rest)) vars) fs = Some (forallb (test_op (val_of xs y)) fs)).
  { apply all_true_val. intros o w Ho Hw. rewrite firstn_app, firstn_all, Nat.sub_diag. simpl firstn. apply used_kept; auto; [|eapply filter_vars; eauto].
    right. exists o. split; auto. apply (Permutation_in _ (Permutation_sym Hperm)), in_app_iff. auto. }
  rewrite Ef. set (F := inlined (column (map negb ks) (kept ks y ++ rest) vars) fns).
  destruct (forallb (test_op (val_of xs y)) fs) eqn:Et.
  - destruct (transform_spec F hs 0 (kept ks y ++ rest)) as [(zs & Hz & ->)|((h & H1 & H2) & buf' & -> & H3)]; auto.
    { intros h Hh. assert (Hi : incl (hterm_vars h) (head_vars nr)). { intros v Hv. unfold head_vars. rewrite Hhead. simpl. rewrite app_nil_r. unfold hatom_vars. simpl. apply in_flat_map. eauto. }
      destruct h as [v|v|c]; simpl in *; [| |discriminate]; apply F_not_crash; auto; try (left; apply Hi; simpl; auto); apply Hhv, Hi; simpl; auto. }
    + simpl. pose proof (vals_length _ _ _ Hz) as Hlz. eexists _, true. split; [reflexivity|].
      assert (E : firstn (length hs) (zs ++ skipn (length hs) (kept ks y ++ rest)) = zs). { rewrite Hlz, firstn_app, firstn_all, Nat.sub_diag. simpl. apply app_nil_r. }
      split; [rewrite app_length, skipn_length; lia|]. split; [|discriminate]. intros _. rewrite E.
      pose proof (nu0_fires y rest Hy zs Hz Et) as Hf. split; [eauto|]. intros nu x Hx. destruct Hx as (X1 & X2 & X3). subst x.
      assert (Hi : forall h, In h hs -> incl (hterm_vars h) (head_vars nr)). { intros h Hh v Hv. unfold head_vars. rewrite Hhead. simpl. rewrite app_nil_r. unfold hatom_vars. simpl. apply in_flat_map. eauto. }
      assert (HF : forall v, In v (head_vars nr) -> F v = Val (nu v)). { intros v Hv. apply (F_fires y rest Hy nu (map (hterm_val nu) hs)); [repeat split; auto|now left|auto]. }
      symmetry. apply (vals_map F); auto. intros h v z Hh Hv E1. rewrite (HF v) in E1 by (eapply Hi; eauto). now injection E1.
    + eexists _, false. split; [reflexivity|]. split; auto. split; [discriminate|]. intros _ nu x Hx.
      assert (Hi : incl (hterm_vars h) (head_vars nr)). { intros v Hv. unfold head_vars. rewrite Hhead. simpl. rewrite app_nil_r. unfold hatom_vars. simpl. apply in_flat_map. eauto. }
      destruct h as [v|v|c]; simpl in *; [| |discriminate]; (assert (Hv : In v (head_vars nr)) by (apply Hi; simpl; auto));
        pose proof (F_fires y rest Hy nu x v Hx (or_introl Hv) (Hhv v Hv)) as E; unfold F in H2; congruence.
  - eexists _, false. split; [reflexivity|]. split; auto. split; [discriminate|]. intros _ nu x (X1 & X2 & X3).
    assert (Hc : forallb (test_op (val_of xs y)) fs = true); [|congruence]. apply forallb_forall. intros o Ho. apply test_holds.
    apply (holds_ext o nu); [|apply X2; apply (Permutation_in _ (Permutation_sym Hperm)), in_app_iff; auto].
    intros v Hv. symmetry. rewrite <- X1. apply val_of_in. eapply filter_vars; eauto.
Qed.
End Rule.
