(** Pushing constants, bindings and filters selects rows. *)
From Coq Require Import String Ascii List Arith Bool Lia.
From Verif Require Import QueryModel QuerySpec QueryProofs1 QueryProofs2 QueryProofs3.
Import ListNotations.
Local Open Scope list_scope.

(** ** Constants *)
Lemma push_constants_rows order E inner vs cs row : (forall l v, In v (order l) <-> In v l) -> plain_names (PProject inner vs) -> NoDup vs ->
  good_constants (List.length vs) cs -> (forall k c, In (k, c) cs -> always_bound E (PProject inner vs) k) ->
  rows E (push_constants order (PProject inner vs) cs) row <->
  exists r, rows E (PProject inner vs) r /\ has_constants cs r /\ row = drop_columns (map fst cs) r.
Proof.
  intros Ho Pn N G B. unfold push_constants, rename_project. set (mp := standardize order "v" (variables_in (PProject inner vs)) []).
  assert (V : In "v"%string ["l"; "r"; "v"]%string) by (cbn; auto). assert (I : incl [] vs) by (intros x []).
  rewrite rows_project.
  assert (R : forall n a, renamed mp (all_vars (PProject inner vs)) n a ->
    map a (without 0 (map fst cs) (map (rename_variable mp) vs)) = drop_columns (map fst cs) (map n vs)).
  { intros n a (R1 & _). rewrite <- without_columns, !without_map, map_map. apply map_ext_in. intros u Hu. apply R1. cbn. apply in_or_app. left.
    eapply in_without; eauto. }
  split.
  - intros (a & A & ->). apply (side_sol order Ho E "v" inner vs [] cs V Pn I N G B) in A. destruct A as (n & R1 & S1 & C).
    exists (map n vs). split; [apply (rows_project E inner vs); eauto|]. split; auto.
  - intros (r & Hr & C & ->). apply (rows_project E inner vs) in Hr. destruct Hr as (n & S1 & ->).
    destruct (side_push order Ho E "v" inner vs [] V Pn I n S1) as (a & R1). exists a. split; [|symmetry; apply R; auto].
    apply (side_sol order Ho E "v" inner vs [] cs V Pn I N G B). eauto.
Qed.

(** ** Bindings *)
Lemma row_solution_at vs row v : List.length row = List.length vs -> NoDup vs ->
  forall i, nth_error vs i = Some v -> row_solution vs row v = match nth_error row i with Some x => x | None => None end.
Proof.
  revert row. induction vs as [|w vs IH]; intros [|x row] L N [|i] H; cbn in *; try discriminate; injection L as L.
  - injection H as <-. now rewrite String.eqb_refl.
  - inversion N as [|? ? Hw N']; subst. destruct (String.eqb_spec w v) as [<- |_]; [exfalso; apply Hw; eapply nth_error_In; eauto|]. auto.
Qed.

Lemma sol_values E p ks vs rs m : NoDup vs -> NoDup ks -> (forall k, In k ks -> k < List.length vs) -> 
  (forall r, In r rs -> List.length r = List.length ks) ->
  (forall a k, sol E p a -> In k ks -> a (nth k vs EmptyString) <> None) ->
  (sol E (PJoin p (PValues (map (fun k => nth k vs EmptyString) ks) rs)) m <-> sol E p m /\ agrees (ks, rs) (map m vs)).
Proof.
  intros N K L Lr B. set (ws := map (fun k => nth k vs EmptyString) ks).
  assert (Nw : NoDup ws) by (apply nodup_nth; auto). assert (Lw : List.length ws = List.length ks) by (unfold ws; now rewrite map_length).
  assert (At : forall i k, nth_error ks i = Some k -> nth_error ws i = Some (nth k vs EmptyString)) by (intros i k H; unfold ws; now rewrite nth_error_map, H).
  cbn [sol]. split.
  - intros (a & b & A & (row & Hr & R) & C & S).
    assert (Sa : same a m).
    { intros v. rewrite S. unfold both. destruct (a v) eqn:Ea; auto. rewrite R. destruct (row_solution ws row v) eqn:Er; auto. exfalso.
      assert (H : In v ws) by (eapply row_solution_dom; rewrite Er; discriminate). unfold ws in H. apply in_map_iff in H. destruct H as (k & <- & Hk).
      apply (B a k A Hk Ea). }
    split; [eapply sol_same; eauto|]. exists row. split; auto. cbn [fst snd]. intros i k c Hi Hc. assert (Hk := nth_error_In _ _ Hi).
    rewrite (nth_error_nth_map _ _ _ EmptyString (L k Hk)). f_equal. rewrite <- Sa. destruct (a (nth k vs EmptyString)) as [x|] eqn:Ea; [|destruct (B a k A Hk Ea)].
    f_equal. apply (C (nth k vs EmptyString)); auto. rewrite R. rewrite (row_solution_at ws row _ ltac:(rewrite Lw; auto) Nw i (At i k Hi)). now rewrite Hc.
  - intros (A & row & Hr & G). cbn [fst snd] in *. exists m, (row_solution ws row).
    assert (Q : forall v, row_solution ws row v = None \/ row_solution ws row v = m v).
    { intros v. destruct (row_solution ws row v) as [x|] eqn:Er; [|auto]. right.
      assert (H : In v ws) by (eapply row_solution_dom; rewrite Er; discriminate). unfold ws in H. apply in_map_iff in H. destruct H as (k & <- & Hk).
      apply In_nth_error in Hk. destruct Hk as (i & Hi). rewrite (row_solution_at ws row _ ltac:(rewrite Lw; auto) Nw i (At i k Hi)) in Er.
      destruct (nth_error row i) as [[y|]|] eqn:Ey; try discriminate. injection Er as ->. specialize (G i k x Hi Ey).
      rewrite (nth_error_nth_map _ _ _ EmptyString (L k (nth_error_In _ _ Hi))) in G. congruence. }
    split; auto. split; [exists row; split; auto; intros v; auto|]. split.
    + intros v x y Hx Hy. destruct (Q v) as [E1|E1]; congruence.
    + intros v. unfold both. destruct (m v) eqn:Em; auto. destruct (Q v) as [E1|E1]; congruence.
Qed.

Lemma sol_all_values E vs bs : NoDup vs -> forall p, (forall b, In b bs -> good_bindings E (PProject p vs) b) -> forall m,
  sol E (fold_left (fun prev (b : bindings) => PJoin prev (PValues (map (fun k => nth k vs EmptyString) (fst b)) (snd b))) bs p) m <->
  sol E p m /\ forall b, In b bs -> agrees b (map m vs).
Proof.
  intros N. induction bs as [|b bs IH]; intros p G m; cbn [fold_left].
  - split; [intros H; split; auto; intros b []|intros (H & _); auto].
  - set (p1 := PJoin p (PValues (map (fun k => nth k vs EmptyString) (fst b)) (snd b))).
    destruct (G b ltac:(now left)) as (K & L & Lr). cbn [columns] in L.
    assert (S1 : forall m, sol E p1 m <-> sol E p m /\ agrees b (map m vs)).
    { intros m0. unfold p1. rewrite (sol_values E p (fst b) vs (snd b) m0 N K); [destruct b; reflexivity|intros k Hk; now apply L|exact Lr|].
      intros a k A Hk Q. destruct (L k Hk) as (L1 & L2). destruct (bound_column E p vs a k A L1 L2) as (c & Hc). congruence. }
    rewrite IH.
    + rewrite S1. split.
      * intros ((A & B) & C). split; auto. intros b' [<- |Hb]; auto.
      * intros (A & B). split; [split; auto; apply B; now left|]. intros b' Hb. apply B. now right.
    + intros b' Hb. destruct (G b' ltac:(now right)) as (K' & L' & Lr'). split; [auto|]. split; auto. intros k Hk. destruct (L' k Hk) as (L1 & L2).
      split; auto. intros row Hrow. apply L2. rewrite rows_project in Hrow. destruct Hrow as (n & Sn & ->). apply S1 in Sn. apply (rows_project E p vs). exists n. tauto.
Qed.

Lemma bindings_rows E p bs row : has_projection p -> NoDup (columns p) -> (forall b, In b bs -> good_bindings E p b) ->
  rows E (with_bindings p bs) row <-> rows E p row /\ forall b, In b bs -> agrees b row.
Proof.
  intros Hp N G. unfold with_bindings. destruct bs as [|b0 bs0]; [split; [intros H; split; auto; intros b []|intros (H & _); auto]|].
  revert N G. generalize (b0 :: bs0) as bs. clear b0 bs0. intros bs N G. induction p; cbn in Hp; try contradiction.
  - cbn [modify_projection columns] in *. rewrite !rows_project. split.
    + intros (n & Hn & ->). apply sol_all_values in Hn; auto. destruct Hn as (A & B). split; eauto.
    + intros ((n & A & ->) & B). exists n. split; auto. apply sol_all_values; auto.
  - cbn [modify_projection columns] in *. unfold rows in *. cbn [sol columns] in *. apply IHp; auto.
Qed.

(** ** Filters *)
Lemma simple_value E c : simple c -> forall m n t, (forall v, In v (cond_vars c) -> m v = n v) -> cond_value E c m t <-> cond_value E c n t.
Proof.
  induction c as [a b|v|c IH|c1 IH1 c2 IH2|p]; cbn [simple cond_vars cond_value]; intros S m n t H.
  - assert (Ta : term_value m a = term_value n a) by (destruct a; cbn; auto; apply H, in_or_app; left; cbn; auto).
    assert (Tb : term_value m b = term_value n b) by (destruct b; cbn; auto; apply H, in_or_app; right; cbn; auto).
    rewrite Ta, Tb. reflexivity.
  - rewrite H by (cbn; auto). reflexivity.
  - apply IH; auto.
  - destruct S as (S1 & S2). destruct t; rewrite (IH1 S1 m n _), (IH2 S2 m n _); try reflexivity; intros v Hv; apply H, in_or_app; auto.
  - contradiction.
Qed.

Lemma and_value E cs : forall c m, cond_value E (fold_left CAnd cs c) m true <-> cond_value E c m true /\ forall d, In d cs -> cond_value E d m true.
Proof.
  induction cs as [|d cs IH]; intros c m; cbn [fold_left].
  - split; [intros H; split; auto; intros d []|intros (H & _); auto].
  - rewrite IH. cbn [cond_value]. split.
    + intros ((A & B) & C). split; auto. intros x [<- |Hx]; auto.
    + intros (A & B). split; [split; auto; apply B; now left|]. intros x Hx. apply B. now right.
Qed.

Lemma row_solution_map (m : solution) vs v : In v vs -> row_solution vs (map m vs) v = m v.
Proof.
  induction vs as [|w vs IH]; intros []; cbn [row_solution map].
  - subst. now rewrite String.eqb_refl.
  - destruct (String.eqb_spec w v) as [<- |_]; auto.
Qed.

Lemma filters_rows E p cs row : has_projection p -> (forall c, In c cs -> simple c /\ incl (cond_vars c) (columns p)) ->
  rows E (with_filters p cs) row <-> rows E p row /\ forall c, In c cs -> cond_value E c (row_solution (columns p) row) true.
Proof.
  intros Hp G. unfold with_filters. induction p; cbn in Hp; try contradiction.
  - cbn [modify_projection columns] in *. rewrite !rows_project.
    assert (V : forall n c, In c cs -> cond_value E c (row_solution vs (map n vs)) true <-> cond_value E c n true).
    { intros n c Hc. destruct (G c Hc) as (S & I). apply simple_value; auto. intros v Hv. apply row_solution_map. auto. }
    destruct cs as [|c cs]; [split; [intros (n & A & ->); split; eauto; intros c []|intros ((n & A & ->) & _); eauto]|].
    cbn [sol]. split.
    + intros (n & (A & B) & ->). apply and_value in B. destruct B as (B & C). split; eauto. intros d Hd. apply V; auto. destruct Hd as [<- |Hd]; auto.
    + intros ((n & A & ->) & B). exists n. split; auto. split; auto. apply and_value. split; [apply V; [now left|apply B; now left]|].
      intros d Hd. apply V; [now right|]. apply B. now right.
  - cbn [modify_projection columns] in *. unfold rows in *. cbn [sol columns] in *. apply IHp; auto.
Qed.
