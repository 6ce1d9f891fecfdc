(** Merging is joining, and pushing constants is selecting. *)
From Coq Require Import String Ascii List Arith Bool Lia.
From Verif Require Import QueryModel QuerySpec QueryProofs1 QueryProofs2.
Import ListNotations.
Local Open Scope list_scope.

Lemma rows_project E p vs row : rows E (PProject p vs) row <-> exists n, sol E p n /\ row = map n vs.
Proof.
  unfold rows. cbn [sol columns]. split.
  - intros (m & (a & A & B) & ->). exists a. split; auto. apply map_ext_in. intros v Hv. rewrite B. apply mem_In in Hv. now rewrite Hv.
  - intros (n & A & ->). exists (fun v => if mem v vs then n v else None). split; [exists n; auto|].
    apply map_ext_in. intros v Hv. apply mem_In in Hv. now rewrite Hv.
Qed.

Lemma row_solution_constants (g : nat * nat -> string) cs v : NoDup (map g cs) ->
  (forall e, In e cs -> row_solution (map g cs) (map (fun e => Some (snd e)) cs) (g e) = Some (snd e)) /\
  ((forall e, In e cs -> g e <> v) -> row_solution (map g cs) (map (fun e => Some (snd e)) cs) v = None).
Proof.
  induction cs as [|c cs IH]; cbn [map row_solution]; intros N; [split; [intros e []|auto]|].
  inversion N as [|? ? Hc N']; subst. destruct (IH N') as (A & B). split.
  - intros e [<- |He]; [now rewrite String.eqb_refl|]. destruct (String.eqb_spec (g c) (g e)) as [Q|_]; auto.
    exfalso. apply Hc. rewrite Q. now apply in_map.
  - intros H. destruct (String.eqb_spec (g c) v) as [Q|_]; [exfalso; apply (H c); auto; now left|]. apply B. intros e He. apply H. now right.
Qed.

(** Values for some columns select the solutions that have them. *)
Lemma sol_bind E p vs cs m : NoDup (map (fun e : nat * nat => nth (fst e) vs EmptyString) cs) ->
  (forall a e, sol E p a -> In e cs -> a (nth (fst e) vs EmptyString) <> None) ->
  (sol E (bind_constants p vs cs) m <-> sol E p m /\ forall e, In e cs -> m (nth (fst e) vs EmptyString) = Some (snd e)).
Proof.
  intros N B. set (g := fun e : nat * nat => nth (fst e) vs EmptyString) in *.
  destruct cs as [|c cs0]; [cbn [bind_constants]; split; [intros H; split; auto; intros e []|intros (H & _); auto]|].
  remember (c :: cs0) as cs eqn:Ecs. assert (Bc : bind_constants p vs cs = PJoin p (PValues (map g cs) [map (fun e => Some (snd e)) cs])) by (rewrite Ecs; reflexivity).
  rewrite Bc. cbn [sol]. clear Bc Ecs c cs0. split.
  - intros (a & b & A & (row & [<- |[]] & R) & C & S).
    assert (V : forall e, In e cs -> a (g e) = Some (snd e)).
    { intros e He. destruct (row_solution_constants g cs EmptyString N) as (K & _). specialize (K e He).
      destruct (a (g e)) as [x|] eqn:Ea; [|exfalso; apply (B a e A He Ea)]. f_equal. apply (C (g e)); auto. now rewrite R. }
    assert (Sa : same a m).
    { intros v. rewrite S. unfold both. destruct (a v) eqn:Ea; auto. rewrite R.
      destruct (row_solution_constants g cs v N) as (_ & K). symmetry. apply K. intros e He <-. rewrite (V e He) in Ea. discriminate. }
    split; [eapply sol_same; eauto|]. intros e He. rewrite <- Sa. exact (V e He).
  - intros (A & V). exists m, (row_solution (map g cs) (map (fun e => Some (snd e)) cs)).
    assert (K : forall v, row_solution (map g cs) (map (fun e => Some (snd e)) cs) v = None \/ row_solution (map g cs) (map (fun e => Some (snd e)) cs) v = m v).
    { intros v. destruct (row_solution_constants g cs v N) as (K1 & K2). destruct (in_dec string_dec v (map g cs)) as [Hv|Hv].
      - right. apply in_map_iff in Hv. destruct Hv as (e & <- & He). rewrite K1 by auto. symmetry. now apply V.
      - left. apply K2. intros e He <-. apply Hv. now apply in_map. }
    split; auto. split; [eexists; split; [now left|intros v; auto]|]. split.
    + intros v x y Hx Hy. destruct (K v) as [Q|Q]; congruence.
    + intros v. unfold both. destruct (m v) eqn:Em; auto. destruct (K v) as [Q|Q]; congruence.
Qed.

Lemma nth_error_nth_map {A} (h : A -> option nat) (l : list A) k d : k < List.length l -> nth_error (map h l) k = Some (h (nth k l d)).
Proof. intros H. rewrite nth_error_map, (nth_error_nth' l d) by auto. auto. Qed.

Lemma nodup_nth (vs : list string) (cs : list nat) : NoDup vs -> NoDup cs -> (forall k, In k cs -> k < List.length vs) ->
  NoDup (map (fun k => nth k vs EmptyString) cs).
Proof.
  intros N. induction cs as [|k cs IH]; cbn; intros M H; [constructor|]. inversion M as [|? ? Hk M']; subst. constructor; [|apply IH; auto].
  intros G. apply in_map_iff in G. destruct G as (j & E & Hj). apply Hk. rewrite (proj1 (NoDup_nth vs EmptyString) N k j); auto.
Qed.

Section side.
  Variable order : list string -> list string.
  Hypothesis Ho : forall l v, In v (order l) <-> In v l.
  Variable E : endpoint.
  Variables (prefix : string) (inner : pattern) (vs : list string) (jn : list string) (cs : list (nat * nat)).
  Hypothesis Hp : In prefix ["l"; "r"; "v"]%string.
  Let p := PProject inner vs.
  Hypothesis Pn : plain_names p.
  Hypothesis Hj : incl jn vs.
  Hypothesis Nv : NoDup vs.
  Hypothesis Gc : good_constants (List.length vs) cs.
  Hypothesis Bc : forall k c, In (k, c) cs -> always_bound E p k.
  Let mp := standardize order prefix (variables_in p) jn.
  Let f := rename_variable mp.

  Lemma side_inj u w : In u (all_vars p) -> In w (all_vars p) -> f u = f w -> u = w.
  Proof. apply f_inj; auto. Qed.

  Lemma bound_column n k : sol E inner n -> k < List.length vs -> always_bound E p k -> exists c, n (nth k vs EmptyString) = Some c.
  Proof.
    intros H L B. destruct (B (map n vs)) as (c & Hc); [apply rows_project; eauto|]. rewrite (nth_error_nth_map _ _ _ EmptyString L) in Hc.
    injection Hc as Hc. eauto.
  Qed.

  Lemma side_sol a : sol E (bind_constants (rename mp inner) (map f vs) cs) a <->
    exists n, renamed mp (all_vars p) n a /\ sol E inner n /\ has_constants cs (map n vs).
  Proof.
    assert (Si : incl (all_vars inner) (all_vars p)) by (intros x Hx; cbn; apply in_or_app; auto).
    assert (Sv : forall k, k < List.length vs -> In (nth k vs EmptyString) (all_vars p)) by (intros k Hk; cbn; apply in_or_app; left; now apply nth_In).
    assert (Nth : forall e, In e cs -> nth (fst e) (map f vs) EmptyString = f (nth (fst e) vs EmptyString)).
    { intros (k, c) He. cbn. destruct Gc as (_ & G). specialize (G k c He). rewrite (nth_indep _ EmptyString (f EmptyString)) by now rewrite map_length.
      apply map_nth. }
    assert (Len : forall e, In e cs -> fst e < List.length vs) by (intros (k, c) He; destruct Gc as (_ & G); cbn; eauto).
    assert (Nd : NoDup (map (fun e : nat * nat => nth (fst e) (map f vs) EmptyString) cs)).
    { rewrite (map_ext_in _ (fun e => f (nth (fst e) vs EmptyString)) cs Nth). rewrite <- (map_map fst (fun k => f (nth k vs EmptyString))).
      rewrite <- (map_map (fun k => nth k vs EmptyString) f). destruct Gc as (G1 & G2).
      assert (N0 : NoDup (map (fun k => nth k vs EmptyString) (map fst cs))).
      { apply nodup_nth; auto. intros k Hk. apply in_map_iff in Hk. destruct Hk as (e & <- & He). auto. }
      assert (I0 : forall x, In x (map (fun k => nth k vs EmptyString) (map fst cs)) -> In x (all_vars p)).
      { intros x Hx. apply in_map_iff in Hx. destruct Hx as (k & <- & Hk). apply in_map_iff in Hk. destruct Hk as (e & <- & He). auto. }
      revert N0 I0. generalize (map (fun k => nth k vs EmptyString) (map fst cs)). induction l as [|x l IH]; cbn; intros N0 I0; [constructor|].
      inversion N0 as [|? ? Hx N1]; subst. constructor; [|apply IH; auto]. intros G. apply in_map_iff in G. destruct G as (y & Q & Hy).
      apply Hx. rewrite <- (side_inj y x); auto. }
    assert (Hb : forall b e, sol E (rename mp inner) b -> In e cs -> b (nth (fst e) (map f vs) EmptyString) <> None).
    { intros b (k, c) Hs He. rewrite (Nth _ He). destruct (pull_solution mp (all_vars p) b) as (n & R).
      { intros w. apply (dom_fS E mp (all_vars p) inner b w Si Hs). }
      apply (rename_sol E mp (all_vars p) side_inj inner n b Si R) in Hs. destruct (bound_column n k Hs) as (x & Hx); [now apply (Len (k, c))|eauto|].
      destruct R as (R & _). cbn [fst]. unfold f. rewrite R by (apply Sv, (Len (k, c)); auto). congruence. }
    rewrite (sol_bind E (rename mp inner) (map f vs) cs a Nd Hb). split.
    - intros (A & B). destruct (pull_solution mp (all_vars p) a) as (n & R).
      { intros w. apply (dom_fS E mp (all_vars p) inner a w Si A). }
      exists n. split; auto. split; [now apply (rename_sol E mp (all_vars p) side_inj inner n a Si R)|].
      intros k c He. assert (L := Len _ He). cbn in L. rewrite (nth_error_nth_map _ _ _ EmptyString L). f_equal. destruct R as (R & _). rewrite <- R by auto.
      specialize (B _ He). rewrite (Nth _ He) in B. auto.
    - intros (n & R & A & B). split; [now apply (rename_sol E mp (all_vars p) side_inj inner n a Si R)|].
      intros (k, c) He. rewrite (Nth _ He). assert (L := Len _ He). cbn in *. specialize (B _ _ He). rewrite (nth_error_nth_map _ _ _ EmptyString L) in B.
      injection B as B. rewrite <- B. destruct R as (R & _). apply R. auto.
  Qed.

  Lemma side_push n : sol E inner n -> exists a, renamed mp (all_vars p) n a.
  Proof.
    intros A. apply push_solution; [exact side_inj|]. intros v. apply (dom_S E (all_vars p) inner n v); auto. intros x Hx. cbn. apply in_or_app. auto.
  Qed.

  (** Where a solution has values: at j-names of joined columns, or at names with the prefix. *)
  Lemma side_dom n a w : renamed mp (all_vars p) n a -> sol E inner n -> a w <> None ->
    exists u, f u = w /\ n u = a w /\ ((exists k, first_index u jn = Some k /\ w = ("j" ++ decimal k)%string) \/ (exists k, w = (prefix ++ decimal k)%string)).
  Proof.
    intros (R1 & R2 & R3) A H. destruct (image_dec mp (all_vars p) w) as [(u & Hu & Q)|N]; [|exfalso; apply H; auto].
    exists u. split; [exact Q|]. assert (Nu : n u = a w) by (rewrite <- Q; symmetry; apply R1; auto). split; auto.
    assert (Sc : In u (fst (variables_in inner))) by (eapply sol_dom; eauto; congruence).
    destruct (first_index u jn) as [k|] eqn:F.
    - left. exists k. split; auto. rewrite <- Q. apply f_join; auto.
    - right. apply first_index_none in F. destruct (f_scope order Ho prefix p jn Pn) with (u := u) as (k & G); auto.
      { right. cbn. apply in_or_app. auto. }
      exists k. rewrite <- Q. auto.
  Qed.

  Lemma side_column u : In u vs -> ~ In u jn -> exists k, f u = (prefix ++ decimal k)%string.
  Proof. intros H N. apply f_scope; auto. Qed.

  Lemma side_join u k : first_index u jn = Some k -> f u = ("j" ++ decimal k)%string.
  Proof. apply f_join; auto. Qed.
End side.
