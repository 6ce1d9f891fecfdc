(** The merged query is again one that can be merged. *)
From Coq Require Import String Ascii List Arith Bool Lia Decimal DecimalString.
From Verif Require Import QueryModel QuerySpec QueryProofs1 QueryProofs2 QueryProofs3 QueryProofs4.
Import ListNotations.
Local Open Scope list_scope.

Fixpoint has_L (s : string) : bool := match s with EmptyString => false | String a s => Ascii.eqb a "L" || has_L s end.
Lemma has_L_app s t : has_L (s ++ t) = has_L s || has_L t.
Proof. induction s as [|a s IH]; cbn; auto. now rewrite IH, orb_assoc. Qed.
Lemma has_L_decimal n : has_L (decimal n) = false.
Proof. unfold decimal. generalize (Nat.to_uint n). induction u; cbn; auto. Qed.
Lemma new_name_plain c n : In c ["j"; "l"; "r"; "v"]%string -> ~ is_label (c ++ decimal n).
Proof.
  intros Hc (w & H). apply (f_equal has_L) in H. rewrite !has_L_app, has_L_decimal in H. cbn in H. rewrite orb_true_r, orb_false_r in H.
  destruct Hc as [<- |[<- |[<- |[<- |[]]]]]; discriminate.
Qed.

Lemma value_vars_all p v : In v (value_vars p) -> In v (all_vars p).
Proof. induction p; cbn; rewrite ?in_app_iff; tauto. Qed.

Lemma found_value p v : In v (fst (variables_in p)) \/ In v (snd (variables_in p)) -> In v (value_vars p).
Proof.
  induction p; cbn; rewrite ?in_app_iff; try tauto.
Qed.

Lemma rename_all_vars m : (forall p, all_vars (rename m p) = map (rename_variable m) (all_vars p)) /\
  (forall c, cond_vars (rename_cond m c) = map (rename_variable m) (cond_vars c)).
Proof.
  assert (T : forall t, match rename_term m t with QVar w => [w] | QConst _ => [] end = map (rename_variable m) (match t with QVar w => [w] | QConst _ => [] end)) by (intros []; auto).
  pose (P := fun p => all_vars (rename m p) = map (rename_variable m) (all_vars p)).
  pose (Q := fun c => cond_vars (rename_cond m c) = map (rename_variable m) (cond_vars c)).
  assert (A : forall p, P p).
  { fix F 1. assert (G : (forall p, P p) -> True) by auto. clear G.
    assert (C : forall c, Q c).
    { fix G 1. intros [a b|v|c|a b|p]; unfold Q; cbn [rename_cond cond_vars map].
      - now rewrite map_app, !T.
      - auto.
      - apply (G c).
      - rewrite map_app. f_equal; [apply (G a)|apply (G b)].
      - apply (F p). }
    intros [t vs|l r|l r|l r|l r|c p|p v t|vs rows|p vs|p]; unfold P; cbn [rename all_vars map].
    - auto.
    - rewrite map_app. f_equal; [apply (F l)|apply (F r)].
    - rewrite map_app. f_equal; [apply (F l)|apply (F r)].
    - rewrite map_app. f_equal; [apply (F l)|apply (F r)].
    - rewrite map_app. f_equal; [apply (F l)|apply (F r)].
    - rewrite map_app. f_equal; [apply (C c)|apply (F p)].
    - f_equal. rewrite map_app, T. f_equal. apply (F p).
    - auto.
    - rewrite map_app. f_equal. apply (F p).
    - apply (F p). }
  split; [exact A|]. intros c. change (Q c). induction c as [a b|v|c IH|a IHa b IHb|p]; unfold Q; cbn [rename_cond cond_vars map].
  - now rewrite map_app, !T.
  - auto.
  - apply IH.
  - rewrite map_app. f_equal; [apply IHa|apply IHb].
  - apply A.
Qed.

Lemma rename_value_vars m p : value_vars (rename m p) = map (rename_variable m) (value_vars p).
Proof. induction p; cbn [rename value_vars map]; rewrite ?map_app; try congruence; auto. Qed.

Lemma nodup_map_inj {A B} (f : A -> B) l : NoDup l -> (forall x y, In x l -> In y l -> f x = f y -> x = y) -> NoDup (map f l).
Proof.
  induction l as [|a l IH]; cbn; intros N H; [constructor|]. inversion N as [|? ? Ha N']; subst. constructor; [|apply IH; auto].
  intros G. apply in_map_iff in G. destruct G as (y & E & Hy). apply Ha. rewrite (H a y); auto.
Qed.
Lemma nodup_without {A} k gone (l : list A) : NoDup l -> NoDup (without k gone l).
Proof.
  revert k. induction l as [|a l IH]; intros k N; cbn; [constructor|]. inversion N as [|? ? Ha N']; subst.
  destruct (existsb (Nat.eqb k) gone); auto. constructor; auto. intros G. apply in_without in G. auto.
Qed.
Lemma nodup_app {A} (l r : list A) : NoDup l -> NoDup r -> (forall x, In x l -> ~ In x r) -> NoDup (l ++ r).
Proof.
  induction l as [|a l IH]; cbn; intros Nl Nr H; auto. inversion Nl as [|? ? Ha N']; subst. constructor; [|apply IH; auto].
  rewrite in_app_iff. intros [G|G]; [auto|]. apply (H a); auto.
Qed.
Lemma in_without_intro {A} k gone (l : list A) i x : nth_error l i = Some x -> existsb (Nat.eqb (k + i)) gone = false -> In x (without k gone l).
Proof.
  revert k i. induction l as [|a l IH]; intros k [|i] H E; cbn in *; try discriminate.
  - injection H as ->. rewrite Nat.add_0_r in E. rewrite E. now left.
  - specialize (IH (S k) i H). cbn [Nat.add] in IH. rewrite Nat.add_succ_r in E. specialize (IH E). destruct (existsb (Nat.eqb k) gone); [auto|now right].
Qed.

(** One side of a merge: the variables of the renamed query and where they come from. *)
Section names.
  Variable order : list string -> list string.
  Hypothesis Ho : forall l v, In v (order l) <-> In v l.
  Variables (prefix : string) (inner : pattern) (vs jn : list string) (cs : list (nat * nat)).
  Hypothesis Hp : In prefix ["l"; "r"; "v"]%string.
  Let p := PProject inner vs.
  Hypothesis Pn : plain_names p.
  Hypothesis Hj : incl jn vs.
  Hypothesis Gc : good_constants (List.length vs) cs.
  Let mp := standardize order prefix (variables_in p) jn.
  Let f := rename_variable mp.

  Lemma new_or_old u : In u (all_vars p) -> (exists c n, In c ["j"; "l"; "r"; "v"]%string /\ f u = (c ++ decimal n)%string) \/ (~ In u (value_vars p) /\ f u = u).
  Proof.
    intros H. destruct (f_name order Ho prefix p jn Pn) with (u := u) as [(k & _ & A)|[(_ & k & _ & A)|(A & B & _ & C)]]; auto.
    - left. exists "j"%string, k. split; [now left|exact A].
    - left. exists prefix, k. split; [now right|exact A].
    - right. split; auto. intros G. apply value_vars_found in G. tauto.
  Qed.

  Lemma new_plain u : In u (all_vars p) -> ~ is_label (f u).
  Proof.
    intros H. destruct (new_or_old u H) as [(c & n & Hc & ->)|(_ & ->)]; [now apply new_name_plain|]. now apply Pn.
  Qed.
  Lemma new_old u : In u (all_vars p) -> ~ In u (value_vars p) -> ~ is_new_name (f u).
  Proof.
    intros H N. destruct (f_name order Ho prefix p jn Pn) with (u := u) as [(k & A & _)|[(_ & k & A & _)|(_ & _ & _ & C)]]; auto.
    - exfalso. apply N. apply first_index_nth, nth_error_In in A. apply Hj in A. cbn. apply in_or_app. auto.
    - exfalso. apply N. apply first_index_nth, nth_error_In in A. apply in_app_or in A. rewrite !Ho in A. apply found_value. exact A.
    - change (f u = u) in C. rewrite C. now apply Pn.
  Qed.

  Lemma bound_at e : In e cs -> nth (fst e) (map f vs) EmptyString = f (nth (fst e) vs EmptyString) /\ In (nth (fst e) vs EmptyString) vs.
  Proof.
    destruct e as (k, c). intros He. destruct Gc as (_ & G). specialize (G k c He). cbn. split; [|now apply nth_In].
    rewrite (nth_indep _ EmptyString (f EmptyString)) by now rewrite map_length. apply map_nth.
  Qed.

  Lemma side_all v : In v (all_vars (bind_constants (rename mp inner) (map f vs) cs)) -> exists u, In u (all_vars p) /\ v = f u.
  Proof.
    assert (I : In v (all_vars (rename mp inner)) -> exists u, In u (all_vars p) /\ v = f u).
    { rewrite (proj1 (rename_all_vars mp)). intros H. apply in_map_iff in H. destruct H as (u & <- & H). exists u. split; auto. cbn. apply in_or_app. auto. }
    assert (B : bind_constants (rename mp inner) (map f vs) cs = rename mp inner \/ bind_constants (rename mp inner) (map f vs) cs =
      PJoin (rename mp inner) (PValues (map (fun e : nat * nat => nth (fst e) (map f vs) EmptyString) cs) [map (fun e => Some (snd e)) cs])) by (destruct cs; auto).
    destruct B as [-> | ->]; [exact I|]. cbn [all_vars]. intros H. apply in_app_or in H. destruct H as [H|H]; auto.
    apply in_map_iff in H. destruct H as (e & <- & H). destruct (bound_at e H) as (-> & K). eexists. split; [|reflexivity]. cbn. apply in_or_app. auto.
  Qed.

  Lemma side_value u : In u (value_vars p) -> In (f u) (value_vars (bind_constants (rename mp inner) (map f vs) cs)) \/ In (f u) (without 0 (map fst cs) (map f vs)).
  Proof.
    assert (B : (cs = [] /\ bind_constants (rename mp inner) (map f vs) cs = rename mp inner) \/ bind_constants (rename mp inner) (map f vs) cs =
      PJoin (rename mp inner) (PValues (map (fun e : nat * nat => nth (fst e) (map f vs) EmptyString) cs) [map (fun e => Some (snd e)) cs])) by (destruct cs; auto).
    intros H. cbn in H. apply in_app_or in H. destruct H as [H|H].
    - apply In_nth_error in H. destruct H as (i & H). destruct (existsb (Nat.eqb i) (map fst cs)) eqn:X.
      + left. apply existsb_exists in X. destruct X as (j & Hjj & X). apply Nat.eqb_eq in X. subst j. apply in_map_iff in Hjj. destruct Hjj as (e & Q & He).
        destruct B as [(B & _)| ->]; [rewrite B in He; destruct He|]. cbn [value_vars]. apply in_or_app. right. apply in_map_iff. exists e. split; auto.
        destruct (bound_at e He) as (-> & _). rewrite Q. f_equal. now apply nth_error_nth.
      + right. apply (in_without_intro 0 _ _ i); auto. rewrite nth_error_map, H. auto.
    - left. assert (G : In (f u) (value_vars (rename mp inner))) by (rewrite rename_value_vars; now apply in_map).
      destruct B as [(_ & ->)| ->]; auto. cbn [value_vars]. apply in_or_app. auto.
  Qed.
End names.

Section merged.
  Variable order : list string -> list string.
  Hypothesis Ho : forall l v, In v (order l) <-> In v l.
  Variable E : endpoint.
  Variables (il ir : pattern) (lvs rvs : list string) (joins lc rc : list (nat * nat)).
  Let left := PProject il lvs.
  Let right := PProject ir rvs.
  Hypothesis M : mergeable E left right joins lc rc.
  Let lj := map (fun j => nth (fst j) lvs EmptyString) joins.
  Let rj := map (fun j => nth (snd j) rvs EmptyString) joins.
  Let lm := standardize order "l" (variables_in left) lj.
  Let rm := standardize order "r" (variables_in right) rj.
  Let fl := rename_variable lm.
  Let fr := rename_variable rm.

  Lemma merged_form : merge_patterns order left right joins lc rc =
    Some (PProject (PJoin (bind_constants (rename lm il) (map fl lvs) lc) (bind_constants (rename rm ir) (map fr rvs) rc))
      (without 0 (map fst lc) (map fl lvs) ++ map fr (without 0 (map fst rc ++ map snd joins) rvs))).
  Proof.
    cbn [merge_patterns rename_project left right]. fold lj rj. fold left right. fold lm rm. fold fl fr.
    do 3 f_equal. exact (right_columns order Ho E il ir lvs rvs joins lc rc M).
  Qed.

  Let L := bind_constants (rename lm il) (map fl lvs) lc.
  Let R := bind_constants (rename rm ir) (map fr rvs) rc.
  Let m := PProject (PJoin L R) (without 0 (map fst lc) (map fl lvs) ++ map fr (without 0 (map fst rc ++ map snd joins) rvs)).
  Let Plm := Pl E il ir lvs rvs joins lc rc M.
  Let Prm := Pr E il ir lvs rvs joins lc rc M.
  Let Ijl := Ilj E il ir lvs rvs joins lc rc M.
  Let Ijr := Irj E il ir lvs rvs joins lc rc M.
  Let Gcl := Gl E il ir lvs rvs joins lc rc M.
  Let Gcr := Gr E il ir lvs rvs joins lc rc M.

  Lemma all_from v : In v (all_vars m) -> (exists u, In u (all_vars left) /\ v = fl u) \/ (exists u, In u (all_vars right) /\ v = fr u).
  Proof.
    unfold m. cbn [all_vars]. rewrite !in_app_iff. intros [[H|H]|[H|H]].
    - left. apply in_without in H. apply in_map_iff in H. destruct H as (u & <- & H). exists u. split; auto. cbn. apply in_or_app. auto.
    - right. apply in_map_iff in H. destruct H as (u & <- & H). apply in_without in H. exists u. split; auto. cbn. apply in_or_app. auto.
    - left. exact (side_all order "l" il lvs lj lc Gcl v H).
    - right. exact (side_all order "r" ir rvs rj rc Gcr v H).
  Qed.

  Lemma value_left u : In u (value_vars left) -> In (fl u) (value_vars m).
  Proof.
    intros H. unfold m. cbn [value_vars]. rewrite !in_app_iff.
    destruct (side_value order "l" il lvs lj lc Gcl u H) as [G|G]; [right; left; exact G|left; left; exact G].
  Qed.

  Lemma value_right u : In u (value_vars right) -> In (fr u) (value_vars m).
  Proof.
    intros H. destruct (side_value order "r" ir rvs rj rc Gcr u H) as [G|G]; [unfold m; cbn [value_vars]; rewrite !in_app_iff; right; right; exact G|].
    pose proof G as G0. fold right rm fr in G. apply in_without_at in G. destruct G as (i & G1 & G2). cbn in G2.
    destruct (existsb (Nat.eqb i) (map snd joins)) eqn:X.
    - apply existsb_exists in X. destruct X as (j & Hjj & X). apply Nat.eqb_eq in X. subst j. apply in_map_iff in Hjj. destruct Hjj as ((i', j') & Q & Hin).
      cbn in Q. subst j'. pose proof Hin as Hin0. apply In_nth_error in Hin. destruct Hin as (k & Hk).
      destruct (join_names order Ho E il ir lvs rvs joins lc rc M k i' i Hk) as (J1 & J2).
      rewrite nth_error_map in G1. destruct (nth_error rvs i) as [w|] eqn:Ew; [|discriminate]. injection G1 as G1.
      rewrite (nth_error_nth _ _ EmptyString Ew) in J2.
      assert (Q : fr u = fl (nth i' lvs EmptyString)) by (rewrite <- G1; etransitivity; [exact J2|symmetry; exact J1]).
      rewrite Q. apply value_left. cbn. apply in_or_app. left. apply nth_In. exact (proj1 (join_range E il ir lvs rvs joins lc rc M i' i Hin0)).
    - unfold m. cbn [value_vars]. rewrite !in_app_iff. left. right. rewrite <- without_map.
      apply (in_without_intro 0 _ _ i); auto. cbn. rewrite existsb_app, G2. auto.
  Qed.

  Lemma merged_plain : plain_names m.
  Proof.
    split.
    - intros v H. apply all_from in H. destruct H as [(u & H & ->)|(u & H & ->)].
      + exact (new_plain order Ho "l" il lvs lj l_in Plm Ijl u H).
      + exact (new_plain order Ho "r" ir rvs rj r_in Prm Ijr u H).
    - intros v H N. apply all_from in H. destruct H as [(u & H & ->)|(u & H & ->)].
      + apply (new_old order Ho "l" il lvs lj Plm Ijl u H). intros G. apply N. now apply value_left.
      + apply (new_old order Ho "r" ir rvs rj Prm Ijr u H). intros G. apply N. now apply value_right.
  Qed.

  Lemma merged_nodup : NoDup (columns m).
  Proof.
    unfold m. cbn [columns].
    assert (Cl : forall u, In u lvs -> In u (all_vars left)) by (intros u Hu; cbn; apply in_or_app; auto).
    assert (Cr : forall u, In u rvs -> In u (all_vars right)) by (intros u Hu; cbn; apply in_or_app; auto).
    apply nodup_app.
    - apply nodup_without, nodup_map_inj; [exact (Nl E il ir lvs rvs joins lc rc M)|]. intros x y Hx Hy Q.
      apply (side_inj order Ho "l" il lvs lj l_in Plm Ijl x y); auto.
    - apply nodup_map_inj; [apply nodup_without; exact (Nr E il ir lvs rvs joins lc rc M)|]. intros x y Hx Hy Q.
      apply in_without in Hx, Hy. apply (side_inj order Ho "r" ir rvs rj r_in Prm Ijr x y); auto.
    - intros x Hx Hy. apply in_without in Hx. apply in_map_iff in Hx, Hy. destruct Hx as (u & <- & Hu). destruct Hy as (w & Q & Hw).
      assert (Nw := not_joined E il ir lvs rvs joins lc rc M w Hw). apply in_without in Hw.
      destruct (side_column order Ho "r" ir rvs rj Prm Ijr w Hw Nw) as (k & A).
      change (fr w = ("r" ++ decimal k)%string) in A.
      assert (B : (exists k, fl u = ("j" ++ decimal k)%string) \/ exists k, fl u = ("l" ++ decimal k)%string).
      { destruct (first_index u lj) as [k'|] eqn:F.
        - left. exists k'. exact (side_join order Ho "l" il lvs lj Plm Ijl u k' F).
        - right. apply first_index_none in F. exact (side_column order Ho "l" il lvs lj Plm Ijl u Hu F). }
      rewrite A in Q. destruct B as [(k' & B)|(k' & B)]; rewrite B in Q; apply names_apart in Q; try (cbn; tauto); destruct Q; discriminate.
  Qed.

  Lemma merged_good : exists q, merge_patterns order left right joins lc rc = Some q /\ plain_names q /\ NoDup (columns q) /\ List.length (columns q) = List.length (without 0 (map fst lc) lvs) + List.length (without 0 (map fst rc ++ map snd joins) rvs) /\ exists inner vs, q = PProject inner vs.
  Proof.
    exists m. split; [exact merged_form|]. split; [exact merged_plain|]. split; [exact merged_nodup|]. split; [|eexists; eexists; reflexivity].
    unfold m. cbn [columns]. now rewrite app_length, without_map, !map_length.
  Qed.
End merged.
