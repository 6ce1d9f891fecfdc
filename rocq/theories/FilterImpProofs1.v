(** C43: evaluation of a pattern on a row. *)
From Coq Require Import List Arith ZArith Bool Lia Permutation.
From Verif Require Import TableModel EngineModel EngineSpec EngineProofs1 EngineProofs3 NormModel NormSpec FilterImpModel FilterImpSpec.
Import ListNotations.

Lemma memv_In v l : memv v l = true <-> In v l.
Proof. unfold memv. rewrite existsb_exists. split; [intros (w & Hw & E); apply Nat.eqb_eq in E; now subst|]. intros H. exists v. split; auto. apply Nat.eqb_refl. Qed.

Lemma filter_length_le {A} (f : A -> bool) l : length (filter f l) <= length l.
Proof. induction l as [|x l IH]; simpl; auto. destruct (f x); simpl; lia. Qed.
Lemma skipn_skipn' {A} n : forall m (l : list A), skipn m (skipn n l) = skipn (n + m) l.
Proof. induction n as [|n IH]; intros m l; auto. destruct l as [|x l]; [now rewrite !skipn_nil|]. apply IH. Qed.

(** ** Columns *)
Lemma index_of_nth v l n : index_of v l = Some n -> nth_error l n = Some v.
Proof.
  revert n. induction l as [|x l IH]; simpl; intros n H; [discriminate|]. destruct (v =? x) eqn:E; [apply Nat.eqb_eq in E; injection H as <-; now subst|].
  destruct (index_of v l) as [k|]; [|discriminate]. injection H as <-. simpl. now apply IH.
Qed.
Lemma index_of_in v l : In v l -> exists n, index_of v l = Some n.
Proof.
  induction l as [|x l IH]; simpl; intros H; [tauto|]. destruct (v =? x) eqn:E; [eauto|]. apply Nat.eqb_neq in E. destruct H as [->|H]; [tauto|]. destruct (IH H) as (n & ->). simpl. eauto.
Qed.
Lemma index_of_app v l l' n : index_of v l = Some n -> index_of v (l ++ l') = Some n.
Proof.
  revert n. induction l as [|x l IH]; simpl; intros n H; [discriminate|]. destruct (v =? x); auto. destruct (index_of v l) as [k|]; [|discriminate]. now rewrite (IH k).
Qed.

Lemma dedup_go l : forall acc, exists r, fold_left (fun acc v => if memv v acc then acc else acc ++ [v]) l acc = acc ++ r.
Proof.
  induction l as [|x l IH]; simpl; intros acc; [exists []; now rewrite app_nil_r|]. destruct (memv x acc); auto.
  destruct (IH (acc ++ [x])) as (r & ->). exists (x :: r). now rewrite <- app_assoc.
Qed.
Lemma dedup_NoDup l : forall acc, NoDup l -> (forall v, In v l -> ~ In v acc) ->
  fold_left (fun acc v => if memv v acc then acc else acc ++ [v]) l acc = acc ++ l.
Proof.
  induction l as [|x l IH]; simpl; intros acc Hn Hd; [now rewrite app_nil_r|]. inversion Hn; subst.
  destruct (memv x acc) eqn:E; [apply memv_In in E; exfalso; apply (Hd x); auto|].
  rewrite IH; auto; [now rewrite <- app_assoc|]. intros v Hv Hc. apply in_app_iff in Hc. destruct Hc as [Hc|[->|[]]]; [apply (Hd v); auto|tauto].
Qed.
Lemma dedup_prefix xs l : NoDup xs -> exists r, dedup (xs ++ l) = xs ++ r.
Proof.
  intros H. unfold dedup. rewrite fold_left_app, (dedup_NoDup xs []) by auto. simpl. apply dedup_go.
Qed.

Lemma kept_length {A} ks : forall l : list A, length ks = length l -> length (kept ks l) = count_true ks.
Proof. unfold count_true. induction ks as [|[] ks IH]; intros [|x l] H; simpl in *; try discriminate; auto. Qed.
Lemma kept_nth {A} ks : forall (l : list A) n, length ks = length l -> nth_error ks n = Some true ->
  nth_error (kept ks l) (n - count_true (map negb (firstn n ks))) = nth_error l n.
Proof.
  induction ks as [|b ks IH]; intros [|x l] n Hl Hn; try discriminate; [destruct n; discriminate|]. simpl in Hl. injection Hl as Hl.
  destruct n as [|n]; simpl in Hn.
  - injection Hn as ->. reflexivity.
  - specialize (IH l n Hl Hn). simpl. unfold count_true in *. destruct b; simpl.
    + assert (H : length (filter (fun b : bool => b) (map negb (firstn n ks))) <= n).
      { etransitivity; [apply filter_length_le|]. rewrite map_length, firstn_length. lia. }
      destruct (length _) as [|m] eqn:E; [rewrite Nat.sub_0_r in IH; now rewrite <- IH|].
      replace (n - m) with (S (n - S m)) by lia. exact IH.
    + exact IH.
Qed.
Lemma renamed_kept ks n : nth_error ks n = Some true -> renamed (map negb ks) n = n - count_true (map negb (firstn n ks)).
Proof. intros H. unfold renamed. rewrite nth_error_map, H. simpl. now rewrite firstn_map. Qed.

Lemma val_of_nth xs y : length y = length xs -> NoDup xs -> forall n v z, nth_error xs n = Some v -> nth_error y n = Some z -> val_of xs y v = z.
Proof.
  revert y. induction xs as [|x xs IH]; intros [|z0 y] Hl Hn n v z Hv Hz; try discriminate; [destruct n; discriminate|]. inversion Hn; subst. destruct n as [|n]; simpl in *.
  - injection Hv as ->. injection Hz as ->. now rewrite Nat.eqb_refl.
  - destruct (v =? x) eqn:E; [apply Nat.eqb_eq in E; subst; exfalso; apply nth_error_In in Hv; tauto|]. eapply IH; eauto.
Qed.

(** A variable at a position that is not skipped has its value. *)
Lemma column_kept ks xs l y rest v n : NoDup xs -> length y = length xs -> length ks = length xs ->
  nth_error xs n = Some v -> nth_error ks n = Some true ->
  column (map negb ks) (kept ks y ++ rest) (dedup (xs ++ l)) v = Val (val_of xs y v).
Proof.
  intros Hn Hy Hk Hv Hb. unfold column. destruct (dedup_prefix xs l Hn) as (r & ->).
  assert (Hi : index_of v xs = Some n).
  { destruct (index_of_in v xs) as (m & Hm); [eapply nth_error_In; eauto|]. rewrite Hm. f_equal. apply index_of_nth in Hm.
    apply (NoDup_nth_error xs); auto; [apply nth_error_Some; congruence|congruence]. }
  rewrite (index_of_app _ _ _ _ Hi), (renamed_kept ks n Hb).
  assert (Hz : exists z, nth_error y n = Some z).
  { destruct (nth_error y n) as [z|] eqn:E; eauto. apply nth_error_None in E. assert (n < length xs) by (apply nth_error_Some; congruence). lia. }
  destruct Hz as (z & Hz). pose proof (kept_nth ks y n ltac:(lia) Hb) as Hk2. rewrite Hz in Hk2.
  rewrite nth_error_app1 by (apply nth_error_Some; congruence). rewrite Hk2. now rewrite (val_of_nth xs y Hy Hn n v z).
Qed.

(** ** Expressions *)
Lemma collect_vals (env : var -> outcome) nu (l : list var) : (forall w, In w l -> env w = Val (nu w)) -> collect (map env l) = inr (map nu l).
Proof. induction l as [|w l IH]; simpl; intros H; auto. rewrite (H w), IH; auto. Qed.
Lemma eval_in_val env nu e : (forall w, In w (e_vars e) -> env w = Val (nu w)) ->
  eval_in env e = match eval_expr nu e with Some z => Val z | None => Undef end.
Proof. intros H. unfold eval_in, eval_expr. now rewrite (collect_vals env nu). Qed.
Lemma collect_inr (env : var -> outcome) (l : list var) zs : collect (map env l) = inr zs -> forall w, In w l -> exists z, env w = Val z.
Proof.
  revert zs. induction l as [|x l IH]; simpl; intros zs H w Hw; [tauto|]. destruct (env x) as [z| |] eqn:E; try discriminate.
  destruct (collect (map env l)) as [|zs'] eqn:E'; [discriminate|]. destruct Hw as [->|Hw]; eauto.
Qed.
Lemma collect_not_crash (env : var -> outcome) (l : list var) o : (forall w, In w l -> env w <> Crash) -> collect (map env l) = inl o -> o = Undef.
Proof.
  induction l as [|x l IH]; simpl; intros H E; [discriminate|]. destruct (env x) as [z| |] eqn:Ex.
  - destruct (collect (map env l)) as [o'|]; [|discriminate]. injection E as <-. apply IH; auto.
  - congruence.
  - exfalso. apply (H x); auto.
Qed.
Lemma eval_in_not_crash env e : (forall w, In w (e_vars e) -> env w <> Crash) -> eval_in env e <> Crash.
Proof.
  intros H. unfold eval_in. destruct (collect _) as [o|zs] eqn:E; [rewrite (collect_not_crash _ _ _ H E); discriminate|]. destruct (e_fun e zs); discriminate.
Qed.
Lemma eval_in_strict env e z : eval_in env e = Val z -> forall w, In w (e_vars e) -> exists y, env w = Val y.
Proof.
  unfold eval_in. destruct (collect _) as [o|zs] eqn:E.
  - intros ->. exfalso. revert E. generalize (map env (e_vars e)). induction l as [|[] l IH]; simpl; intros E; try discriminate. destruct (collect l); [injection E as ->; auto|discriminate].
  - intros _. eapply collect_inr; eauto.
Qed.

Lemma eval_op_val env nu o : (forall w, In w (op_vars o) -> env w = Val (nu w)) ->
  match eval_op env o with Val z => Z.eqb z true_val = test_op nu o | Undef => test_op nu o = false | Crash => False end.
Proof.
  destruct o as [v e|e]; simpl; intros H.
  - rewrite (H v) by auto. rewrite (eval_in_val env nu e) by auto. destruct (eval_expr nu e) as [z|]; auto. destruct (Z.eqb z (nu v)); reflexivity.
  - rewrite (eval_in_val env nu e) by auto. destruct (eval_expr nu e) as [z|]; auto.
Qed.
Lemma all_true_val env nu fs : (forall o w, In o fs -> In w (op_vars o) -> env w = Val (nu w)) -> all_true env fs = Some (forallb (test_op nu) fs).
Proof.
  induction fs as [|o fs IH]; simpl; intros H; auto. pose proof (eval_op_val env nu o (fun w Hw => H o w (or_introl eq_refl) Hw)) as Ho.
  destruct (eval_op env o) as [z| |]; [|now rewrite Ho|tauto]. rewrite IH by eauto. simpl. now rewrite Ho.
Qed.
Lemma test_holds nu o : test_op nu o = true <-> holds nu o.
Proof.
  destruct o as [v e|e]; simpl; destruct (eval_expr nu e) as [z|]; rewrite ?Z.eqb_eq; split; intros H; try discriminate; congruence.
Qed.

(** ** Computed variables *)
Lemma eval_in_ext env env' e : (forall w, In w (e_vars e) -> env w = env' w) -> eval_in env e = eval_in env' e.
Proof. intros H. unfold eval_in. now rewrite (map_ext_in env env' _ H). Qed.
Lemma inlined_other fns : forall env v, ~ In v (map fst fns) -> inlined env fns v = env v.
Proof.
  induction fns as [|[w e] fns IH]; simpl; intros env v H; auto. rewrite IH by tauto. destruct (v =? w) eqn:E; auto. apply Nat.eqb_eq in E. subst. tauto.
Qed.
Lemma fun_ok_new vs fns v : fun_ok vs fns -> In v vs -> ~ In v (map fst fns).
Proof.
  revert vs. induction fns as [|[w e] fns IH]; simpl; intros vs H Hv Hc; auto. destruct H as (H1 & H2 & H3). destruct Hc as [<-|Hc]; [tauto|].
  apply (IH _ H3); auto. apply in_app_iff. auto.
Qed.
Lemma inlined_fun fns : forall vs env v e, fun_ok vs fns -> In (v, e) fns -> inlined env fns v = eval_in (inlined env fns) e.
Proof.
  induction fns as [|[w f] fns IH]; simpl; intros vs env v e H Hin; [tauto|]. destruct H as (H1 & H2 & H3). simpl in *.
  destruct Hin as [E|Hin]; [|eapply IH; eauto]. injection E as -> ->.
  assert (Hv : ~ In v (map fst fns)) by (apply (fun_ok_new _ _ _ H3); apply in_app_iff; simpl; auto).
  rewrite inlined_other by auto. rewrite Nat.eqb_refl. apply eval_in_ext. intros x Hx.
  rewrite inlined_other by (apply (fun_ok_new _ _ _ H3); apply in_app_iff; auto). destruct (x =? v) eqn:E; auto. apply Nat.eqb_eq in E. subst. exfalso. apply H1. now apply H2.
Qed.

(** ** Transformations *)
Definition hout (env : var -> outcome) (h : hterm) : outcome := match h with HConst c => Val c | HVar v | HEx v => env v end.
Lemma set_at_spec n z : forall l, n < length l -> set_at n z l = Some (firstn n l ++ z :: skipn (S n) l).
Proof. induction n as [|n IH]; intros [|x l] H; simpl in *; try lia; auto. rewrite IH by lia. reflexivity. Qed.
Lemma transform_spec env hs : forall n buf, n + length hs <= length buf -> (forall h, In h hs -> hout env h <> Crash) ->
  (exists zs, Forall2 (fun h z => hout env h = Val z) hs zs /\ transform env hs n buf = Some (firstn n buf ++ zs ++ skipn (n + length hs) buf, true)) \/
  ((exists h, In h hs /\ hout env h = Undef) /\ exists buf', transform env hs n buf = Some (buf', false) /\ length buf' = length buf).
Proof.
  induction hs as [|h hs IH]; intros n buf Hl Hc.
  - left. exists []. split; [constructor|]. simpl. rewrite Nat.add_0_r, firstn_skipn. reflexivity.
  - assert (Hh : hout env h <> Crash) by (apply Hc; now left). simpl in Hl. cbn [transform]. fold (hout env h).
    destruct (hout env h) as [z| |] eqn:E; [|right; split; [exists h; split; [now left|auto]|eauto]|tauto].
    rewrite set_at_spec by lia. set (b' := firstn n buf ++ z :: skipn (S n) buf).
    assert (Hb : length b' = length buf). { unfold b'. rewrite app_length, firstn_length. cbn [length]. rewrite skipn_length. lia. }
    destruct (IH (S n) b') as [(zs & Hz & ->)|((h' & H1 & H2) & buf' & -> & H3)]; [lia|intros h' Hh'; apply Hc; now right| |].
    + left. exists (z :: zs). split; [constructor; auto|]. f_equal. f_equal. 
      assert (E1 : firstn (S n) b' = firstn n buf ++ [z]).
      { unfold b'. replace (S n) with (length (firstn n buf) + 1) by (rewrite firstn_length; lia). rewrite firstn_app_2. reflexivity. }
      assert (E2 : skipn (S n + length hs) b' = skipn (n + S (length hs)) buf).
      { unfold b'. rewrite skipn_app. rewrite (skipn_all2 (firstn n buf)) by (rewrite firstn_length; lia). rewrite firstn_length, Nat.min_l by lia.
        replace (S n + length hs - n) with (S (length hs)) by lia. change (skipn (S (length hs)) (z :: skipn (S n) buf)) with (skipn (length hs) (skipn (S n) buf)). rewrite skipn_skipn'. cbn [app]. f_equal. lia. }
      rewrite E1, E2. rewrite <- app_assoc. reflexivity.
    + right. split; [exists h'; split; [now right|auto]|]. exists buf'. split; auto. lia.
Qed.
