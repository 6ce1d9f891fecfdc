(* Proofs about the function operator. *)
From Coq Require Import List Arith Bool Lia.
From Verif Require Import ExprModel ExprSpec ExprProofs ExprProofs2 ExprProofs3.
Import ListNotations.

Section Proofs.
Context (L : language).
Notation value := (val L).
Notation tree := (tree L).

Lemma nth_error_update : forall A (l : list A) i j f,
  nth_error (update l i f) j = if i =? j then option_map f (nth_error l j) else nth_error l j.
Proof.
  intros A l. induction l as [|x l IH]; intros i j f; cbn.
  - destruct j; cbn; destruct (i =? _); reflexivity.
  - destruct i as [|i], j as [|j]; cbn; try reflexivity. apply IH.
Qed.

Lemma update_length : forall A (l : list A) i f, length (update l i f) = length l.
Proof. intros A l. induction l as [|x l IH]; intros [|i] f; cbn; auto. Qed.

Lemma update_fold_length : forall A B (g : B -> nat) (f : B -> A -> A) (ps : list B) (l : list A),
  length (fold_left (fun l p => update l (g p) (f p)) ps l) = length l.
Proof. intros A B g f ps. induction ps as [|p ps IH]; intros l; cbn; [reflexivity|]. rewrite IH, update_length. reflexivity. Qed.

(* ---------- what GeneratorFunction::new builds ---------- *)

Definition is_copy (t : tree) : option nat := match t with Ref r => Some r | _ => None end.
Definition is_const (t : tree) : bool := match references t with [] => true | _ => false end.
Definition is_normal (t : tree) : bool :=
  negb (is_const t) && match is_copy t with Some _ => false | None => true end.

Lemma positions_ok : forall (output refs : list nat), (forall r, In r refs -> In r output) ->
  exists ps, positions output refs = Ok ps /\
    Forall2 (fun r p => find_index r output = Some p) refs ps.
Proof.
  intros output refs. induction refs as [|r refs IH]; intros H; [exists []; split; [reflexivity|constructor]|].
  destruct (find_index_in output r (H r (or_introl eq_refl))) as [p Hp].
  destruct IH as (ps & Hps & HF); [intros x Hx; apply H; right; exact Hx|].
  exists (p :: ps). split; [cbn; rewrite Hp, Hps; reflexivity|]. constructor; assumption.
Qed.

Context (debug : bool) (output : list nat) (functions : list (nat * tree)).
Context (Hnd : NoDup output) (Hndf : NoDup (map fst functions)).
(* every function computes a column of the output from columns before it *)
Context (Hordered : forall m t, In (m, t) functions -> exists before after,
           output = before ++ m :: after /\ forall r, In r (references t) -> In r before).
Context (Hne : debug = true -> forall m t, In (m, t) functions -> no_empty_application t).

Notation refmap := (reference_map output functions).

Definition idx (m : nat) : nat := match find_index m output with Some i => i | None => 0 end.
Definition last_of (t : tree) : nat :=
  match positions output (references t) with Ok ps => fold_left Nat.max ps 0 | Panicked => 0 end.
Definition prog_of (t : tree) : list (sop L) :=
  match compile debug None refmap t with Ok p => p | Panicked => [] end.
Definition const_of (t : tree) : option value := sem (fun _ => None) t.

Definition comp_of (fs : list (nat * tree)) (m : nat) : computed :=
  match find (fun f => fst f =? m) fs with
  | None => CInput
  | Some (_, t) => match is_copy t with Some r => CCopy (idx r) | None => CComputed end
  end.

Definition uses (m : nat) (f : nat * tree) : bool :=
  is_normal (snd f) && existsb (Nat.eqb m) (references (snd f)).

Definition progs_of (fs : list (nat * tree)) (i : nat) : list (list (sop L) * nat) :=
  map (fun f => (prog_of (snd f), idx (fst f)))
      (filter (fun f => is_normal (snd f) && (last_of (snd f) =? i)) fs).

Definition used_of (fs : list (nat * tree)) (m i : nat) : option (list (list (sop L) * nat)) :=
  if existsb (uses m) fs then Some (progs_of fs i) else None.

Definition consts_of (fs : list (nat * tree)) : list (option value * nat) :=
  map (fun f => (const_of (snd f), idx (fst f))) (filter (fun f => is_const (snd f)) fs).

Definition layers_ok (fs : list (nat * tree)) (ls : list (layer L)) : Prop :=
  length ls = length output /\
  forall i m, nth_error output i = Some m ->
    nth_error ls i = Some (mk_layer (comp_of fs m) (used_of fs m i)).

Lemma idx_nth : forall i m, nth_error output i = Some m -> idx m = i.
Proof.
  intros i m H. unfold idx. destruct (find_index m output) as [j|] eqn:E.
  - apply find_index_spec in E. exact (nth_error_NoDup _ output j i m Hnd E H).
  - apply find_index_none in E. exfalso. apply E. eapply nth_error_In, H.
Qed.

Lemma nth_idx : forall m, In m output -> nth_error output (idx m) = Some m.
Proof.
  intros m H. unfold idx. destruct (find_index_in output m H) as [i Hi]. rewrite Hi. apply find_index_spec, Hi.
Qed.

Lemma find_index_idx : forall m, In m output -> find_index m output = Some (idx m).
Proof. intros m H. unfold idx. destruct (find_index_in output m H) as [i Hi]. rewrite Hi. reflexivity. Qed.

Lemma function_in_output : forall m t, In (m, t) functions -> In m output.
Proof.
  intros m t H. destruct (Hordered m t H) as (b & a & -> & _). apply in_or_app. right. left. reflexivity.
Qed.

Lemma function_refs_in : forall m t, In (m, t) functions -> forall r, In r (references t) -> In r output.
Proof.
  intros m t H r Hr. destruct (Hordered m t H) as (b & a & -> & Hsub). apply in_or_app. left. apply Hsub, Hr.
Qed.

Lemma refmap_in : forall m t, In (m, t) functions -> forall r, In r (references t) -> In r refmap.
Proof.
  intros m t H r Hr. unfold reference_map. apply filter_In. split; [eapply function_refs_in; eauto|].
  apply existsb_exists. exists (m, t). split; [exact H|]. apply existsb_eqb_in. exact Hr.
Qed.

Lemma prog_compiled : forall m t, In (m, t) functions -> compile debug None refmap t = Ok (prog_of t).
Proof.
  intros m t H. unfold prog_of. destruct (compile_exists L debug None refmap t) as [p Hp].
  - intros r Hr. right. eapply refmap_in; eauto.
  - intros Hd. eapply Hne; eauto.
  - rewrite Hp. reflexivity.
Qed.

Lemma const_compiled : forall m t, In (m, t) functions -> references t = [] ->
  special_function debug t = Ok (SConstant (const_of t)).
Proof.
  intros m t H Hr. unfold special_function. rewrite Hr.
  destruct (compile_exists L debug None [] t) as [p Hp].
  - intros r Hin. rewrite Hr in Hin. destruct Hin.
  - intros Hd. eapply Hne; eauto.
  - rewrite Hp. cbn [bind]. rewrite (compile_evaluate L debug None None [] [] t p Hp (le_n _)). cbn [bind].
    unfold const_of. rewrite (sem_ext L (env_of None None [] []) (fun _ => None) t); [reflexivity|]. intros r Hin. rewrite Hr in Hin. destruct Hin.
Qed.

Lemma find_app : forall A p (l l' : list A),
  find p (l ++ l') = match find p l with Some x => Some x | None => find p l' end.
Proof. intros A p l l'. induction l as [|x l IH]; cbn; [reflexivity|]. destruct (p x); [reflexivity|exact IH]. Qed.

Lemma find_none_fst : forall (fs : list (nat * tree)) m, ~ In m (map fst fs) ->
  find (fun f => fst f =? m) fs = None.
Proof.
  intros fs m H. destruct (find (fun f => fst f =? m) fs) as [[k t]|] eqn:E; [|reflexivity].
  exfalso. apply find_some in E. destruct E as [Hin He]. apply Nat.eqb_eq in He. cbn in He. subst.
  apply H, in_map_iff. exists (m, t). auto.
Qed.

Lemma fold_max_ge : forall (ps : list nat) a, a <= fold_left Nat.max ps a /\ forall p, In p ps -> p <= fold_left Nat.max ps a.
Proof.
  induction ps as [|p ps IH]; intros a; cbn; [split; [lia|intros p []]|].
  destruct (IH (Nat.max a p)) as [H1 H2]. split; [lia|]. intros q [<-|Hq]; [lia|auto].
Qed.

Lemma fold_max_in : forall (ps : list nat) a, fold_left Nat.max ps a = a \/ In (fold_left Nat.max ps a) ps.
Proof.
  induction ps as [|p ps IH]; intros a; cbn; [left; reflexivity|].
  destruct (IH (Nat.max a p)) as [H|H]; [|right; right; exact H].
  rewrite H. destruct (Nat.max_spec a p) as [[_ ->]|[_ ->]]; auto.
Qed.

(* setting "used" at a list of positions *)
Lemma set_used_fold : forall (ps : list nat) (ls : list (layer L)) j,
  nth_error (fold_left (fun ls p => update ls p (fun l => mk_layer (lcomputed l) (set_used (lused l)))) ps ls) j =
  if existsb (Nat.eqb j) ps
  then option_map (fun l => mk_layer (lcomputed l) (set_used (lused l))) (nth_error ls j)
  else nth_error ls j.
Proof.
  intros ps. induction ps as [|p ps IH]; intros ls j; cbn; [reflexivity|].
  rewrite IH, nth_error_update. rewrite (Nat.eqb_sym j p). destruct (p =? j); cbn; [|reflexivity].
  destruct (existsb (Nat.eqb j) ps); [|reflexivity].
  destruct (nth_error ls j) as [[c u]|]; cbn; [|reflexivity]. destruct u; reflexivity.
Qed.

Lemma positions_spec : forall t, (forall r, In r (references t) -> In r output) ->
  exists ps, positions output (references t) = Ok ps /\ last_of t = fold_left Nat.max ps 0 /\
    (forall j m, nth_error output j = Some m -> (In j ps <-> In m (references t))).
Proof.
  intros t H. destruct (positions_ok output (references t) H) as (ps & Hps & HF). exists ps.
  split; [exact Hps|]. split; [unfold last_of; rewrite Hps; reflexivity|].
  intros j m Hj. clear Hps. remember (references t) as rs. clear Heqrs t H.
  induction HF as [|r p rs ps Hr _ IH]; [reflexivity|]. cbn. rewrite IH.
  apply find_index_spec in Hr. split; (intros [<-|Hin]; [left|right; exact Hin]).
  - congruence.
  - exact (nth_error_NoDup _ output p j r Hnd Hr Hj).
Qed.

Lemma function_loop_spec : forall rest done ls cs,
  done ++ rest = functions -> layers_ok done ls -> cs = consts_of done ->
  exists ls', function_loop debug output refmap rest ls cs = Ok (mk_function_op ls' (consts_of functions)) /\
    layers_ok functions ls'.
Proof.
  induction rest as [|[m t] rest IH]; intros done ls cs Hd Hls Hcs.
  { rewrite app_nil_r in Hd. subst. exists ls. split; [reflexivity|exact Hls]. }
  assert (Hin : In (m, t) functions) by (rewrite <- Hd; apply in_or_app; right; left; reflexivity).
  pose proof (function_in_output m t Hin) as Hmo.
  cbn [function_loop]. rewrite (find_index_idx m Hmo).
  assert (Hmd : ~ In m (map fst done)).
  { pose proof Hndf as Hn. rewrite <- Hd, map_app in Hn. cbn in Hn. apply NoDup_remove_2 in Hn.
    intros H. apply Hn, in_or_app. left. exact H. }
  assert (Hd' : (done ++ [(m, t)]) ++ rest = functions) by (rewrite <- app_assoc; exact Hd).
  destruct Hls as [Hlen Hls].
  (* computed kind after adding (m, t) *)
  assert (Hcomp : forall m', comp_of (done ++ [(m, t)]) m' =
     if m =? m' then match is_copy t with Some r => CCopy (idx r) | None => CComputed end else comp_of done m').
  { intros m'. unfold comp_of. rewrite find_app. cbn [find fst]. destruct (m =? m') eqn:E.
    - apply Nat.eqb_eq in E. subst m'. rewrite (find_none_fst done m Hmd). reflexivity.
    - destruct (find (fun f => fst f =? m') done) as [[k u]|]; reflexivity. }
  assert (Hkind : forall j m', nth_error output j = Some m' -> (idx m =? j) = (m =? m')).
  { intros j m' Hj. destruct (m =? m') eqn:E.
    - apply Nat.eqb_eq in E. subst. rewrite (idx_nth j m' Hj). apply Nat.eqb_refl.
    - apply Nat.eqb_neq in E. apply Nat.eqb_neq. intros Hc. apply E.
      pose proof (nth_idx m Hmo) as Hn. rewrite Hc in Hn. congruence. }
  destruct (is_const t) eqn:Ec.
  - (* constant *)
    assert (Hr : references t = []) by (unfold is_const in Ec; destruct (references t); [reflexivity|discriminate]).
    rewrite (const_compiled m t Hin Hr). cbn [bind].
    apply (IH (done ++ [(m, t)])); [exact Hd'| |].
    + split; [rewrite update_length; exact Hlen|]. intros j m' Hj. rewrite nth_error_update, (Hls j m' Hj), (Hkind j m' Hj).
      rewrite Hcomp. assert (Hcp : is_copy t = None) by (destruct t; try reflexivity; discriminate Hr).
      rewrite Hcp. assert (Hu : used_of (done ++ [(m, t)]) m' j = used_of done m' j).
      { unfold used_of, progs_of. rewrite existsb_app, filter_app, map_app. cbn. unfold uses at 2, is_normal.
        cbn. rewrite Ec. cbn. rewrite orb_false_r, app_nil_r. reflexivity. }
      rewrite Hu. destruct (m =? m'); reflexivity.
    + subst cs. unfold consts_of. rewrite filter_app, map_app. cbn. rewrite Ec. reflexivity.
  - assert (Hsf : special_function debug t = Ok (match is_copy t with Some r => SReference r | None => SNormal end)).
    { unfold special_function. unfold is_const in Ec. destruct (references t) eqn:Er; [discriminate|].
      destruct t; reflexivity. }
    rewrite Hsf. cbn [bind]. destruct (is_copy t) as [r|] eqn:Ecp.
    + (* copy *)
      assert (Ht : t = Ref r) by (destruct t; try discriminate; injection Ecp as ->; reflexivity).
      assert (Hro : In r output) by (eapply function_refs_in; [exact Hin|]; subst t; left; reflexivity).
      rewrite (find_index_idx r Hro).
      apply (IH (done ++ [(m, t)])); [exact Hd'| |].
      * split; [rewrite !update_length; exact Hlen|]. intros j m' Hj. rewrite !nth_error_update, (Hls j m' Hj), (Hkind j m' Hj).
        rewrite Hcomp. assert (Hu : used_of (done ++ [(m, t)]) m' j = used_of done m' j).
        { unfold used_of, progs_of. rewrite existsb_app, filter_app, map_app. cbn. unfold uses at 2, is_normal.
          cbn. rewrite Ecp. rewrite andb_false_r. cbn. rewrite orb_false_r, app_nil_r. reflexivity. }
        rewrite Hu. destruct (m =? m'); reflexivity.
      * subst cs. unfold consts_of. rewrite filter_app, map_app. cbn. rewrite Ec. cbn. rewrite app_nil_r. reflexivity.
    + (* normal *)
      destruct (positions_spec t (function_refs_in m t Hin)) as (ps & Hps & Hlast & Hpos).
      rewrite Hps. cbn [bind]. rewrite (prog_compiled m t Hin). cbn [bind]. rewrite <- Hlast.
      apply (IH (done ++ [(m, t)])); [exact Hd'| |].
      * split.
        { rewrite update_length, (update_fold_length _ _ (fun p => p)
            (fun _ l => mk_layer (lcomputed l) (set_used (lused l)))), update_length. exact Hlen. }
        intros j m' Hj. rewrite nth_error_update, set_used_fold, nth_error_update, (Hls j m' Hj), (Hkind j m' Hj).
        rewrite Hcomp.
        assert (Hnorm : is_normal t = true) by (unfold is_normal; rewrite Ec, Ecp; reflexivity).
        assert (Hex : existsb (Nat.eqb j) ps = existsb (Nat.eqb m') (references t)).
        { apply eq_true_iff_eq. rewrite !existsb_eqb_in. apply Hpos, Hj. }
        assert (Hlm : (last_of t =? j) = true -> existsb (Nat.eqb m') (references t) = true).
        { intros E. apply Nat.eqb_eq in E. rewrite <- Hex. apply existsb_eqb_in. rewrite <- E, Hlast.
          destruct (fold_max_in ps 0) as [H0|H0]; [|exact H0]. rewrite H0.
          (* some position exists, and all are <= 0 *)
          unfold is_const in Ec. destruct (references t) as [|r0 rs] eqn:Er; [discriminate|].
          assert (Hr0 : In r0 output) by (eapply function_refs_in; [exact Hin|]; rewrite Er; left; reflexivity).
          assert (Hp0 : In (idx r0) ps) by (apply (Hpos (idx r0) r0); [apply nth_idx, Hr0|left; reflexivity]).
          pose proof (proj2 (fold_max_ge ps 0) _ Hp0) as Hle. rewrite H0 in Hle.
          replace 0 with (idx r0) by lia. exact Hp0. }
        assert (Hu : used_of (done ++ [(m, t)]) m' j =
           if existsb (Nat.eqb m') (references t)
           then (if last_of t =? j then append_used (prog_of t, idx m) (set_used (used_of done m' j))
                 else set_used (used_of done m' j))
           else used_of done m' j).
        { unfold used_of, progs_of. rewrite existsb_app, filter_app, map_app. cbn. unfold uses at 2. cbn.
          rewrite Hnorm. cbn. rewrite orb_false_r.
          assert (Hnil : existsb (uses m') done = false -> map (fun f => (prog_of (snd f), idx (fst f)))
                    (filter (fun f => is_normal (snd f) && (last_of (snd f) =? j)) done) = []).
          { intros He. destruct (filter (fun f => is_normal (snd f) && (last_of (snd f) =? j)) done) as [|[m1 t1] l] eqn:Ef; [reflexivity|].
            exfalso. assert (Hf : In (m1, t1) (filter (fun f => is_normal (snd f) && (last_of (snd f) =? j)) done))
              by (rewrite Ef; left; reflexivity).
            apply filter_In in Hf. destruct Hf as [Hf1 Hf2]. cbn in Hf2. apply andb_prop in Hf2. destruct Hf2 as [Hn1 Hl1].
            assert (Hin1 : In (m1, t1) functions) by (rewrite <- Hd; apply in_or_app; left; exact Hf1).
            enough (existsb (uses m') done = true) by congruence. apply existsb_exists. exists (m1, t1). split; [exact Hf1|].
            unfold uses. cbn. rewrite Hn1. cbn. apply existsb_eqb_in.
            destruct (positions_spec t1 (function_refs_in m1 t1 Hin1)) as (ps1 & _ & Hlast1 & Hpos1).
            apply Nat.eqb_eq in Hl1. apply (Hpos1 j m' Hj). rewrite <- Hl1, Hlast1.
            destruct (fold_max_in ps1 0) as [H0|H0]; [|exact H0]. rewrite H0.
            unfold is_normal, is_const in Hn1. destruct (references t1) as [|r0 rs] eqn:Er; [discriminate|].
            assert (Hr0 : In r0 output) by (eapply function_refs_in; [exact Hin1|]; rewrite Er; left; reflexivity).
            assert (Hp0 : In (idx r0) ps1) by (apply (Hpos1 (idx r0) r0); [apply nth_idx, Hr0|left; reflexivity]).
            pose proof (proj2 (fold_max_ge ps1 0) _ Hp0) as Hle. rewrite H0 in Hle.
            replace 0 with (idx r0) by lia. exact Hp0. }
          destruct (existsb (Nat.eqb m') (references t)) eqn:Ee.
          - rewrite orb_true_r. destruct (last_of t =? j) eqn:El.
            + destruct (existsb (uses m') done) eqn:Eu; cbn.
              * reflexivity.
              * rewrite (Hnil eq_refl). reflexivity.
            + cbn. rewrite app_nil_r. destruct (existsb (uses m') done) eqn:Eu; cbn; [reflexivity|].
              rewrite (Hnil eq_refl). reflexivity.
          - rewrite orb_false_r. destruct (last_of t =? j) eqn:El; [specialize (Hlm eq_refl); congruence|].
            cbn. rewrite app_nil_r. reflexivity. }
        rewrite Hu, Hex. destruct (last_of t =? j) eqn:El.
        -- rewrite (Hlm eq_refl). destruct (m =? m'); reflexivity.
        -- destruct (existsb (Nat.eqb m') (references t)); destruct (m =? m'); reflexivity.
      * subst cs. unfold consts_of. rewrite filter_app, map_app. cbn. rewrite Ec. cbn. rewrite app_nil_r. reflexivity.
Qed.

Lemma function_new_spec : exists ls,
  function_new debug output functions = Ok (mk_function_op ls (consts_of functions)) /\ layers_ok functions ls.
Proof.
  unfold function_new. apply (function_loop_spec functions []); [reflexivity| |reflexivity].
  split; [apply repeat_length|]. intros i m Hi. cbn. apply nth_error_repeat. apply nth_error_Some. congruence.
Qed.


(* ---------- running the operator ---------- *)

(* every copied column is also an input of an expression *)
Context (Hcopy : forall m r, In (m, Ref r) functions ->
           exists f, In f functions /\ is_normal (snd f) = true /\ In r (references (snd f))).
Context (HT : typed L).
Context (Hconst : forall m t, In (m, t) functions -> constants_typed t /\
           (references t = [] -> forall v, const_of t = Some v ->
              types_contains (domain_types L v) (stored_as L v) = true)).

Definition refd (m : nat) : bool := existsb (uses m) functions.
Definition fn (m : nat) : option (nat * tree) := find (fun f => fst f =? m) functions.

Lemma fn_in : forall m t, In (m, t) functions -> fn m = Some (m, t).
Proof.
  unfold fn. clear -Hndf. induction functions as [|[k u] fs IH]; intros m t H; [destruct H|]. cbn.
  inversion Hndf as [|? ? Hk Hn]; subst. destruct H as [H|H].
  - injection H as -> ->. rewrite Nat.eqb_refl. reflexivity.
  - destruct (k =? m) eqn:E; [|apply IH; assumption]. apply Nat.eqb_eq in E. subst k. exfalso. apply Hk.
    apply in_map_iff. exists (m, t). auto.
Qed.

Lemma fn_some : forall m k t, fn m = Some (k, t) -> k = m /\ In (m, t) functions.
Proof.
  intros m k t H. unfold fn in H. apply find_some in H. destruct H as [H E]. cbn in E.
  apply Nat.eqb_eq in E. subst. auto.
Qed.

Lemma refmap_refd : refmap = filter refd output.
Proof.
  unfold reference_map, refd. apply filter_ext_in. intros m _. apply eq_true_iff_eq. rewrite !existsb_exists. split.
  - intros ([k t] & Hf & Hr). cbn in Hr. apply existsb_eqb_in in Hr.
    destruct (is_normal t) eqn:En.
    + exists (k, t). split; [exact Hf|]. unfold uses. cbn. rewrite En. cbn. apply existsb_eqb_in. exact Hr.
    + assert (t = Ref m) as ->.
      { unfold is_normal, is_const in En. destruct (references t) as [|x xs] eqn:Er; [destruct Hr|].
        cbn in En. destruct t; cbn in En; try discriminate. cbn in Er. injection Er as -> <-.
        destruct Hr as [->|[]]. reflexivity. }
      destruct (Hcopy k m Hf) as (f & Hf' & Hn & Hr'). exists f. split; [exact Hf'|].
      unfold uses. rewrite Hn. cbn. apply existsb_eqb_in. exact Hr'.
  - intros ([k t] & Hf & Hr). unfold uses in Hr. cbn in Hr. apply andb_prop in Hr. exists (k, t). split; [exact Hf|]. apply Hr.
Qed.

(* the entries of the columns that satisfy a predicate *)
Definition pick {X} (p : nat -> bool) (ks : list nat) (xs : list X) : list X :=
  map snd (filter (fun x => p (fst x)) (combine ks xs)).

Lemma combine_prefix : forall X (ks : list nat) (xs ys : list X), length ks <= length xs ->
  combine ks (xs ++ ys) = combine ks xs.
Proof.
  induction ks as [|k ks IH]; intros [|x xs] ys H; cbn in *; try reflexivity; [lia|]. f_equal. apply IH. lia.
Qed.

Lemma combine_app' : forall X (ks ks' : list nat) (xs ys : list X), length ks = length xs ->
  combine (ks ++ ks') (xs ++ ys) = combine ks xs ++ combine ks' ys.
Proof.
  induction ks as [|k ks IH]; intros ks' [|x xs] ys H; cbn in *; try reflexivity; try discriminate.
  f_equal. apply IH. lia.
Qed.

Lemma pick_snoc : forall X p (ks : list nat) (xs : list X) k x, length ks = length xs ->
  pick p (ks ++ [k]) (xs ++ [x]) = if p k then pick p ks xs ++ [x] else pick p ks xs.
Proof.
  intros X p ks xs k x H. unfold pick. rewrite combine_app' by exact H. rewrite filter_app, map_app. cbn.
  destruct (p k); cbn; [reflexivity|]. apply app_nil_r.
Qed.

Lemma pick_length : forall X p (ks : list nat) (xs : list X), length ks <= length xs ->
  length (pick p ks xs) = length (filter p ks).
Proof.
  intros X p ks. unfold pick. induction ks as [|k ks IH]; intros [|x xs] H; cbn in *; try reflexivity; try lia.
  destruct (p k); cbn; rewrite IH by lia; reflexivity.
Qed.

Lemma pick_conforms : forall p (ks : list nat) D (d : list value), conforms D d ->
  conforms (pick p ks D) (pick p ks d).
Proof.
  intros p ks D d H. revert ks. unfold conforms, pick in *. induction H as [|T v D d Hv _ IH]; intros [|k ks]; cbn; try constructor.
  destruct (p k); cbn; [constructor; [exact Hv|]|]; apply IH.
Qed.

Lemma pick_lookup : forall p (ks : list nat) (xs : list value) r, length ks <= length xs -> p r = true ->
  lookup r (filter p ks) (pick p ks xs) = lookup r ks xs.
Proof.
  intros p ks xs r H Hr. unfold pick.
  assert (Hk : map fst (combine ks xs) = ks).
  { clear -H. revert xs H. induction ks as [|k ks IH]; intros [|x xs] H; cbn in *; try reflexivity; [lia|].
    f_equal. apply IH. lia. }
  rewrite <- Hk at 1. rewrite <- (map_fst_filter L), lookup_filter by exact Hr. rewrite Hk.
  unfold lookup. destruct (find_index r ks) as [i|] eqn:Ei; [|reflexivity].
  apply find_index_spec in Ei. assert (Hi : i < length ks) by (apply nth_error_Some; congruence).
  clear -H Hi. revert xs i H Hi. induction ks as [|k ks IH]; intros [|x xs] [|i] H Hi; cbn in *; try lia; [reflexivity|].
  apply IH; lia.
Qed.

(* compiled code only depends on the part of the reference map that contains its references *)
Lemma build_prefix : forall rm1 rm2 (t : tree), (forall r, In r (references t) -> In r rm1) ->
  build None (rm1 ++ rm2) t = build None rm1 t.
Proof.
  intros rm1 rm2 t. induction t as [c|r|f t IH|f l r IHl IHr|f a b c IHa IHb IHc|f ts IH]
    using tree_induction; intros H; cbn [references] in H.
  - reflexivity.
  - cbn [build]. rewrite find_index_app_l by (apply H; left; reflexivity). reflexivity.
  - cbn [build]. rewrite IH by exact H. reflexivity.
  - cbn [build]. rewrite IHl, IHr by (intros; apply H, in_or_app; auto). reflexivity.
  - cbn [build]. rewrite IHa, IHb, IHc by (intros; apply H; rewrite !in_app_iff; auto). reflexivity.
  - rewrite !build_nar. replace (build_list L None (rm1 ++ rm2) ts) with (build_list L None rm1 ts); [reflexivity|].
    induction IH as [|t ts Ht _ IHts]; [reflexivity|]. cbn [build_list].
    fold (build_list L None rm1). fold (build_list L None (rm1 ++ rm2)).
    rewrite Ht by (intros; apply H; cbn; apply in_or_app; auto).
    rewrite IHts by (intros; apply H; cbn; apply in_or_app; auto). reflexivity.
Qed.

Notation upto t := (firstn (S (last_of t)) output).

Lemma refs_upto : forall m t, In (m, t) functions -> forall r, In r (references t) ->
  idx r <= last_of t /\ In r (upto t).
Proof.
  intros m t H r Hr. pose proof (function_refs_in m t H r Hr) as Hro.
  destruct (positions_spec t (function_refs_in m t H)) as (ps & Hps & Hlast & Hpos).
  assert (Hle : idx r <= last_of t).
  { rewrite Hlast. apply fold_max_ge. apply (Hpos (idx r) r); [apply nth_idx, Hro|exact Hr]. }
  split; [exact Hle|]. pose proof (nth_idx r Hro) as Hn.
  rewrite <- (firstn_skipn (S (last_of t)) output) in Hn.
  rewrite nth_error_app1 in Hn; [eapply nth_error_In, Hn|].
  rewrite firstn_length. assert (idx r < length output) by (apply nth_error_Some; rewrite (nth_idx r Hro); discriminate). lia.
Qed.

Lemma last_before : forall m t, In (m, t) functions -> is_const t = false -> last_of t < idx m.
Proof.
  intros m t H Hc. destruct (Hordered m t H) as (before & after & Ho & Hsub).
  assert (Him : idx m = length before).
  { apply idx_nth. rewrite Ho, nth_error_app2 by lia. rewrite Nat.sub_diag. reflexivity. }
  assert (Hlt : forall r, In r (references t) -> idx r < length before).
  { intros r Hr. specialize (Hsub r Hr). apply In_nth_error in Hsub. destruct Hsub as [i Hi].
    assert (Hl : i < length before) by (apply nth_error_Some; congruence).
    rewrite (idx_nth i r); [exact Hl|]. rewrite Ho, nth_error_app1 by exact Hl. exact Hi. }
  destruct (positions_spec t (function_refs_in m t H)) as (ps & Hps & Hlast & Hpos). rewrite Him, Hlast.
  destruct (references t) as [|r0 rs] eqn:Er; [unfold is_const in Hc; rewrite Er in Hc; discriminate|].
  destruct (fold_max_in ps 0) as [H0|H0].
  - rewrite H0. specialize (Hlt r0 (or_introl eq_refl)). lia.
  - assert (Hb : fold_left Nat.max ps 0 < length output).
    { destruct (positions_ok output (references t)) as (ps' & Hps' & HF);
        [rewrite Er; intros r Hr; eapply function_refs_in; [exact H|rewrite Er; exact Hr]|].
      rewrite Er, Hps in Hps'. injection Hps' as <-.
      revert H0. generalize (fold_left Nat.max ps 0). intros n Hn. clear -HF Hn.
      induction HF as [|r p rs ps Hr _ IH]; [destruct Hn|]. destruct Hn as [<-|Hn]; [|auto].
      apply find_index_spec in Hr. apply nth_error_Some. congruence. }
    destruct (nth_error output (fold_left Nat.max ps 0)) as [r|] eqn:En; [|apply nth_error_None in En; lia].
    pose proof (idx_nth _ _ En) as Hi. apply (Hpos _ _ En) in H0. rewrite <- Hi. apply Hlt, H0.
Qed.

Lemma refd_normal : forall m t, In (m, t) functions -> is_normal t = true ->
  forall r, In r (references t) -> refd r = true.
Proof.
  intros m t H Hn r Hr. unfold refd. apply existsb_exists. exists (m, t). split; [exact H|].
  unfold uses. cbn. rewrite Hn. cbn. apply existsb_eqb_in. exact Hr.
Qed.

Lemma prog_prefix : forall m t, In (m, t) functions -> is_normal t = true ->
  compile debug None (filter refd (upto t)) t = Ok (prog_of t).
Proof.
  intros m t H Hn. rewrite <- (prog_compiled m t H). unfold compile. f_equal.
  rewrite refmap_refd. rewrite <- (firstn_skipn (S (last_of t)) output) at 2. rewrite filter_app.
  symmetry. apply build_prefix. intros r Hr. apply filter_In. split.
  - apply (refs_upto m t H r Hr).
  - eapply refd_normal; eauto.
Qed.

Lemma lookup_idx : forall r (d : list value), In r output -> lookup r output d = nth_error d (idx r).
Proof. intros r d H. unfold lookup. rewrite (find_index_idx r H). reflexivity. Qed.

Lemma lookup_upto : forall t r (d : list value), In r (upto t) -> lookup r (upto t) d = lookup r output d.
Proof.
  intros t r d H. unfold lookup. rewrite <- (firstn_skipn (S (last_of t)) output) at 2.
  rewrite find_index_app_l by exact H. reflexivity.
Qed.

(* the value of a normal function, once all its inputs are known *)
Lemma prog_value : forall m t (d : list value), In (m, t) functions -> is_normal t = true ->
  length (upto t) <= length d ->
  evaluate (prog_of t) (pick refd (upto t) d) None [] = Ok (sem (fun r => lookup r output d) t).
Proof.
  intros m t d H Hn Hl.
  rewrite (compile_evaluate L debug None None _ (pick refd (upto t) d) t _ (prog_prefix m t H Hn)).
  - f_equal. apply sem_ext. intros r Hr. unfold env_of. cbn [is_this].
    change (lookup r (filter refd (upto t)) (pick refd (upto t) d) = lookup r output d).
    rewrite pick_lookup; [|exact Hl|eapply refd_normal; eauto]. apply lookup_upto. apply (refs_upto m t H r Hr).
  - rewrite pick_length by exact Hl. lia.
Qed.

Definition tp (t : tree) (D : list types) : types :=
  match type_propagation (prog_of t) (pick refd (upto t) D) None [] with Ok T => T | Panicked => types_full end.

Lemma prog_type : forall m t D, In (m, t) functions -> is_normal t = true ->
  length (upto t) <= length D ->
  type_propagation (prog_of t) (pick refd (upto t) D) None [] = Ok (tp t D) /\
  forall d, conforms D d -> forall v, sem (fun r => lookup r output d) t = Some v ->
    types_contains (tp t D) (stored_as L v) = true.
Proof.
  intros m t D H Hn Hl. unfold tp.
  destruct (compile_type L HT debug (filter refd (upto t)) (pick refd (upto t) D) t (prog_of t)) as (T & HTp & Hann).
  - rewrite pick_length by exact Hl. lia.
  - apply (Hconst m t H).
  - eapply prog_prefix; eauto.
  - rewrite HTp. split; [reflexivity|]. intros d Hd v Hv.
    apply (Hann (pick refd (upto t) d)); [apply pick_conforms, Hd|].
    rewrite <- Hv. apply sem_ext. intros r Hr. unfold env_of. cbn [is_this].
    change (lookup r (filter refd (upto t)) (pick refd (upto t) d) = lookup r output d).
    assert (Hl' : length (upto t) <= length d).
    { assert (length D = length d) as <-; [|exact Hl]. clear -Hd. induction Hd; cbn; auto. }
    rewrite pick_lookup; [|exact Hl'|eapply refd_normal; eauto]. apply lookup_upto. apply (refs_upto m t H r Hr).
Qed.

(* ---------- running the programs of a layer ---------- *)

Fixpoint generic_run {X} (ev : list (sop L) -> res X) (ps : list (list (sop L) * nat)) (xs : list X)
  : res (list X) :=
  match ps with
  | [] => Ok xs
  | (p, out) :: ps' => bind (ev p) (fun r => generic_run ev ps' (update xs out (fun _ => r)))
  end.

Lemma run_programs_generic : forall ps inputs (vs : list (option value)),
  run_programs ps inputs vs = generic_run (fun p => evaluate p inputs None []) ps vs.
Proof. induction ps as [|[p out] ps IH]; intros; cbn; [reflexivity|]. destruct (evaluate p inputs None []); cbn; auto. Qed.

Lemma run_type_programs_generic : forall ps used ts,
  run_type_programs ps used ts = generic_run (fun p => type_propagation (L := L) p used None []) ps ts.
Proof. induction ps as [|[p out] ps IH]; intros; cbn; [reflexivity|]. destruct (type_propagation p used None []); cbn; auto. Qed.

Lemma generic_run_spec : forall X (ev : list (sop L) -> res X) (R : tree -> X) (q : nat * tree -> bool) (fs : list (nat * tree)) (xs : list X),
  (forall f, In f fs -> q f = true -> ev (prog_of (snd f)) = Ok (R (snd f))) ->
  (forall f, In f fs -> In (fst f) output) -> NoDup (map fst fs) -> length xs = length output ->
  exists xs', generic_run ev (map (fun f => (prog_of (snd f), idx (fst f))) (filter q fs)) xs = Ok xs' /\
    length xs' = length output /\
    forall j m, nth_error output j = Some m -> nth_error xs' j =
      match find (fun f => fst f =? m) fs with
      | Some f => if q f then Some (R (snd f)) else nth_error xs j
      | None => nth_error xs j
      end.
Proof.
  intros X ev R q fs. induction fs as [|[k t] fs IH]; intros xs Hev Hin Hn Hl.
  - exists xs. split; [reflexivity|]. split; [exact Hl|]. intros; reflexivity.
  - inversion Hn as [|? ? Hk Hn']; subst. cbn [filter map].
    pose proof (Hin (k, t) (or_introl eq_refl)) as Hko. cbn in Hko.
    assert (Hfresh : forall m, k = m -> find (fun f : nat * tree => fst f =? m) fs = None).
    { intros m <-. apply find_none_fst. exact Hk. }
    destruct (q (k, t)) eqn:Eq.
    + cbn [map generic_run]. pose proof (Hev (k, t) (or_introl eq_refl) Eq) as He. cbn [snd] in He. cbn [fst snd].
      rewrite He. cbn [bind].
      destruct (IH (update xs (idx k) (fun _ => R t))) as (xs' & Hr & Hl' & Hnth);
        [intros; apply Hev; [right|]; assumption|intros; apply Hin; right; assumption|exact Hn'|rewrite update_length; exact Hl|].
      exists xs'. split; [exact Hr|]. split; [exact Hl'|]. intros j m Hj. rewrite (Hnth j m Hj).
      cbn [find fst]. rewrite nth_error_update. destruct (k =? m) eqn:E.
      * apply Nat.eqb_eq in E. rewrite (Hfresh m E). subst m. rewrite (idx_nth j k Hj), Nat.eqb_refl, Eq.
        destruct (nth_error xs j) eqn:En; [reflexivity|]. apply nth_error_None in En.
        assert (j < length output) by (apply nth_error_Some; congruence). lia.
      * replace (idx k =? j) with false; [reflexivity|]. symmetry. apply Nat.eqb_neq. intros Hc.
        apply Nat.eqb_neq in E. apply E. pose proof (nth_idx k Hko) as Hx. rewrite Hc in Hx. congruence.
    + destruct (IH xs) as (xs' & Hr & Hl' & Hnth);
        [intros; apply Hev; [right|]; assumption|intros; apply Hin; right; assumption|exact Hn'|exact Hl|].
      exists xs'. split; [exact Hr|]. split; [exact Hl'|]. intros j m Hj. rewrite (Hnth j m Hj).
      cbn [find fst]. destruct (k =? m) eqn:E; [|reflexivity].
      apply Nat.eqb_eq in E. rewrite (Hfresh m E), Eq. reflexivity.
Qed.

Lemma functions_in : forall f, In f functions -> In (fst f) output.
Proof. intros [m t] H. eapply function_in_output, H. Qed.

(* ---------- types ---------- *)

Definition const_type (t : tree) : types :=
  match const_of t with Some v => domain_types L v | None => types_full end.

Definition tnext (D input : list types) (m : nat) : option (types * list types) :=
  match fn m with
  | None => match input with t :: input' => Some (t, input') | [] => None end
  | Some (_, t) =>
      if is_const t then Some (const_type t, input)
      else match is_copy t with
           | Some r => Some (nth (idx r) D types_full, input)
           | None => Some (tp t D, input)
           end
  end.

Fixpoint tall (todo : list nat) (D input : list types) : option (list types) :=
  match todo with
  | [] => Some D
  | m :: todo' => match tnext D input m with Some (t, input') => tall todo' (D ++ [t]) input' | None => None end
  end.

Lemma tall_prefix : forall todo D input P, tall todo D input = Some P ->
  length P = length D + length todo /\ forall i, i < length D -> nth_error P i = nth_error D i.
Proof.
  induction todo as [|m todo IH]; intros D input P H; cbn in H.
  - injection H as <-. cbn. split; [lia|reflexivity].
  - destruct (tnext D input m) as [[t input']|]; [|discriminate]. apply IH in H. rewrite app_length in H. cbn in *.
    destruct H as [H1 H2]. split; [lia|]. intros i Hi. rewrite H2 by lia. apply nth_error_app1, Hi.
Qed.

(* the announced types of all columns, after passing the columns with types D *)
Definition types_at (D : list types) (ts : list types) : Prop :=
  length ts = length output /\ (forall j, j < length D -> nth_error ts j = nth_error D j) /\
  forall j m, nth_error output j = Some m -> nth_error ts j = Some
    match fn m with
    | None => nth j D types_full
    | Some (_, t) =>
        if is_const t then const_type t
        else match is_copy t with
             | Some r => nth j D types_full
             | None => if last_of t <? length D then tp t D else types_full
             end
    end.

Lemma tp_stable : forall m t D T, In (m, t) functions -> last_of t < length D -> tp t (D ++ [T]) = tp t D.
Proof.
  intros m t D T H Hl. unfold tp, pick. rewrite combine_prefix; [reflexivity|]. rewrite firstn_length. lia.
Qed.

Lemma comp_of_fn : forall m, comp_of functions m = match fn m with
  | None => CInput | Some (_, t) => match is_copy t with Some r => CCopy (idx r) | None => CComputed end end.
Proof. reflexivity. Qed.

Lemma normal_of : forall t, is_const t = false -> is_copy t = None -> is_normal t = true.
Proof. intros t H1 H2. unfold is_normal. rewrite H1, H2. reflexivity. Qed.

Lemma not_normal_const : forall t, is_const t = true -> is_normal t = false.
Proof. intros t H. unfold is_normal. rewrite H. reflexivity. Qed.

Lemma not_normal_copy : forall t r, is_copy t = Some r -> is_normal t = false.
Proof. intros t r H. unfold is_normal. rewrite H. apply andb_false_r. Qed.

Lemma const_not_copy : forall t, is_const t = true -> is_copy t = None.
Proof. intros t H. destruct t; try reflexivity. discriminate. Qed.

Lemma copy_ref : forall t r, is_copy t = Some r -> t = Ref r.
Proof. intros t r H. destruct t; try discriminate. injection H as ->. reflexivity. Qed.

Lemma used_or_not : forall m i, nth_error output i = Some m -> refd m = false -> progs_of functions i = [].
Proof.
  intros m i Hi Hr. unfold progs_of.
  destruct (filter (fun f => is_normal (snd f) && (last_of (snd f) =? i)) functions) as [|[k t] l] eqn:E; [reflexivity|].
  exfalso. assert (Hf : In (k, t) (filter (fun f => is_normal (snd f) && (last_of (snd f) =? i)) functions))
    by (rewrite E; left; reflexivity).
  apply filter_In in Hf. destruct Hf as [Hf H2]. cbn in H2. apply andb_prop in H2. destruct H2 as [Hn Hl].
  apply Nat.eqb_eq in Hl. enough (refd m = true) by congruence.
  eapply refd_normal; [exact Hf|exact Hn|].
  destruct (positions_spec t (function_refs_in k t Hf)) as (ps & Hps & Hlast & Hpos).
  apply (Hpos i m Hi). rewrite <- Hl, Hlast. destruct (fold_max_in ps 0) as [H0|H0]; [|exact H0]. rewrite H0.
  unfold is_normal, is_const in Hn. destruct (references t) as [|r0 rs] eqn:Er; [discriminate|].
  assert (Hr0 : In r0 output) by (eapply function_refs_in; [exact Hf|rewrite Er; left; reflexivity]).
  assert (Hp0 : In (idx r0) ps) by (apply (Hpos (idx r0) r0); [apply nth_idx, Hr0|left; reflexivity]).
  pose proof (proj2 (fold_max_ge ps 0) _ Hp0) as Hle. rewrite H0 in Hle. replace 0 with (idx r0) by lia. exact Hp0.
Qed.

Lemma firstn_here : forall before m todo, output = before ++ m :: todo -> firstn (S (length before)) output = before ++ [m].
Proof.
  intros before m todo ->. rewrite firstn_app. rewrite firstn_all2 by lia.
  replace (S (length before) - length before) with 1 by lia. reflexivity.
Qed.

Lemma nth_here : forall before m todo, output = before ++ m :: todo -> nth_error output (length before) = Some m.
Proof. intros before m todo ->. rewrite nth_error_app2 by lia. rewrite Nat.sub_diag. reflexivity. Qed.

(* one layer of the type computation: programs run after the layer's own type is known *)
Lemma types_programs : forall before m todo D ts T, output = before ++ m :: todo ->
  length D = length before -> length ts = length output ->
  (forall j, j < length (D ++ [T]) -> nth_error ts j = nth_error (D ++ [T]) j) ->
  (forall j k, nth_error output j = Some k -> nth_error ts j = Some
    match fn k with
    | None => nth j (D ++ [T]) types_full
    | Some (_, t) =>
        if is_const t then const_type t
        else match is_copy t with
             | Some r => nth j (D ++ [T]) types_full
             | None => if last_of t <? length D then tp t D else types_full
             end
    end) ->
  exists ts', run_type_programs (progs_of functions (length before)) (pick refd (before ++ [m]) (D ++ [T])) ts = Ok ts' /\
    types_at (D ++ [T]) ts'.
Proof.
  intros before m todo D ts T Ho HD Hlen Hpre Hts. rewrite run_type_programs_generic. unfold progs_of.
  destruct (generic_run_spec types (fun p => type_propagation p (pick refd (before ++ [m]) (D ++ [T])) None [])
     (fun t => tp t (D ++ [T])) (fun f => is_normal (snd f) && (last_of (snd f) =? length before)) functions ts)
    as (ts' & Hrun & Hlen' & Hnth).
  - intros [k t] Hin Hq. cbn [snd] in Hq |- *. apply andb_prop in Hq. destruct Hq as [Hn Hl]. apply Nat.eqb_eq in Hl.
    destruct (prog_type k t (D ++ [T]) Hin Hn) as [Hp _].
    + rewrite firstn_length, app_length. cbn [length]. lia.
    + rewrite Hl in Hp. rewrite (firstn_here before m todo Ho) in Hp. exact Hp.
  - apply functions_in.
  - exact Hndf.
  - exact Hlen.
  - exists ts'. split; [exact Hrun|]. split; [exact Hlen'|]. split.
    { intros j Hjl. rewrite <- (Hpre j Hjl). rewrite app_length in Hjl. cbn [length] in Hjl.
      assert (Hjo : j < length output) by (rewrite Ho, app_length; cbn [length]; lia).
      destruct (nth_error output j) as [k|] eqn:Hj; [|apply nth_error_None in Hj; lia].
      rewrite (Hnth j k Hj). fold (fn k). destruct (fn k) as [[k' t]|] eqn:Ef; [|reflexivity]. cbn [snd].
      apply fn_some in Ef. destruct Ef as [-> Hin].
      destruct (is_normal t && (last_of t =? length before)) eqn:Eq; [|reflexivity]. exfalso.
      apply andb_prop in Eq. destruct Eq as [Hn El]. apply Nat.eqb_eq in El.
      assert (Hc : is_const t = false) by (destruct (is_const t) eqn:Ec; [rewrite (not_normal_const t Ec) in Hn; discriminate|reflexivity]).
      pose proof (last_before k t Hin Hc) as Hlt. rewrite (idx_nth j k Hj) in Hlt. lia. }
    intros j k Hj. rewrite (Hnth j k Hj).
    fold (fn k). rewrite (Hts j k Hj). destruct (fn k) as [[k' t]|] eqn:Ef; [|reflexivity]. cbn [snd].
    apply fn_some in Ef. destruct Ef as [-> Hin].
    destruct (is_const t) eqn:Ec; [rewrite (not_normal_const t Ec); reflexivity|].
    destruct (is_copy t) as [r|] eqn:Ecp; [rewrite (not_normal_copy t r Ecp); reflexivity|].
    rewrite (normal_of t Ec Ecp). cbn [andb]. rewrite app_length. cbn [length].
    destruct (last_of t =? length before) eqn:El.
    + apply Nat.eqb_eq in El. replace (last_of t <? length D + 1) with true by (symmetry; apply Nat.ltb_lt; lia). reflexivity.
    + apply Nat.eqb_neq in El. destruct (last_of t <? length D) eqn:Elt.
      * apply Nat.ltb_lt in Elt. replace (last_of t <? length D + 1) with true by (symmetry; apply Nat.ltb_lt; lia).
        rewrite (tp_stable k t D T Hin Elt). reflexivity.
      * apply Nat.ltb_ge in Elt. replace (last_of t <? length D + 1) with false by (symmetry; apply Nat.ltb_ge; lia). reflexivity.
Qed.

Definition is_input (m : nat) : bool := negb (existsb (fun f => fst f =? m) functions).

Lemma is_input_fn : forall m, is_input m = match fn m with None => true | Some _ => false end.
Proof.
  intros m. unfold is_input, fn. clear. induction functions as [|f fs IH]; [reflexivity|]. cbn.
  destruct (fst f =? m); [reflexivity|]. exact IH.
Qed.



Lemma skipn_nth : forall A (ls : list A) n x, nth_error ls n = Some x -> skipn n ls = x :: skipn (n + 1) ls.
Proof.
  intros A. induction ls as [|y ls IH]; intros [|n] x Hx; cbn in *; try discriminate; [congruence|]. apply IH, Hx.
Qed.

Lemma layers_suffix : forall ls, layers_ok functions ls -> forall before m todo, output = before ++ m :: todo ->
  skipn (length before) ls =
     mk_layer (comp_of functions m) (used_of functions m (length before)) :: skipn (length (before ++ [m])) ls.
Proof.
  intros ls [Hl Hls] before m todo Ho. pose proof (Hls _ _ (nth_here before m todo Ho)) as Hn.
  rewrite app_length. cbn [length]. apply skipn_nth, Hn.
Qed.

Lemma used_of_refd : forall m i, used_of functions m i = if refd m then Some (progs_of functions i) else None.
Proof. reflexivity. Qed.

(* T is the type of the next column: it is among the announced types, and storing it there keeps
   all other announcements *)
Lemma types_next : forall before m todo D ts T, output = before ++ m :: todo ->
  length D = length before -> types_at D ts ->
  (fn m = None \/ exists k t, fn m = Some (k, t) /\ is_copy t <> None) ->
  let ts' := set_types ts (length before) T in
  length ts' = length output /\
  (forall j, j < length (D ++ [T]) -> nth_error ts' j = nth_error (D ++ [T]) j) /\
  (forall j k, nth_error output j = Some k -> nth_error ts' j = Some
    match fn k with
    | None => nth j (D ++ [T]) types_full
    | Some (_, t) =>
        if is_const t then const_type t
        else match is_copy t with
             | Some r => nth j (D ++ [T]) types_full
             | None => if last_of t <? length D then tp t D else types_full
             end
    end).
Proof.
  intros before m todo D ts T Ho HD (Hl & Hpre & Hts) Hm ts'.
  assert (Hlb : length before < length output) by (rewrite Ho, app_length; cbn [length]; lia).
  split; [unfold ts', set_types; rewrite update_length; exact Hl|]. split.
  - intros j Hj. unfold ts', set_types. rewrite nth_error_update. rewrite app_length in Hj. cbn [length] in Hj.
    destruct (length before =? j) eqn:E.
    + apply Nat.eqb_eq in E. subst j. rewrite nth_error_app2 by lia. rewrite HD, Nat.sub_diag. cbn.
      destruct (nth_error ts (length before)) eqn:En; [reflexivity|]. apply nth_error_None in En. lia.
    + apply Nat.eqb_neq in E. rewrite nth_error_app1 by lia. apply Hpre. lia.
  - intros j k Hj. unfold ts', set_types. rewrite nth_error_update.
    destruct (length before =? j) eqn:E.
    + apply Nat.eqb_eq in E. subst j. rewrite (Hts _ _ Hj). cbn.
      rewrite (nth_here before m todo Ho) in Hj. injection Hj as <-.
      assert (HnT : nth (length before) (D ++ [T]) types_full = T).
      { rewrite app_nth2 by lia. rewrite HD, Nat.sub_diag. reflexivity. }
      rewrite HnT. destruct Hm as [->|(k & t & -> & Hcp)]; [reflexivity|].
      destruct (is_copy t) as [r|] eqn:Ecp; [|congruence].
      destruct (is_const t) eqn:Ec; [rewrite (const_not_copy t Ec) in Ecp; discriminate|reflexivity].
    + apply Nat.eqb_neq in E. rewrite (Hts _ _ Hj). f_equal.
      assert (Hnth : nth j (D ++ [T]) types_full = nth j D types_full).
      { destruct (Nat.lt_ge_cases j (length D)) as [H|H]; [apply app_nth1, H|].
        rewrite (nth_overflow D) by exact H. apply nth_overflow. rewrite app_length. cbn. lia. }
      rewrite Hnth. reflexivity.
Qed.

(* the same when the column is computed: nothing is stored *)
Lemma types_next_computed : forall before m todo D ts T, output = before ++ m :: todo ->
  length D = length before -> types_at D ts -> nth_error ts (length before) = Some T ->
  (exists k t, fn m = Some (k, t) /\ is_copy t = None) ->
  (forall j, j < length (D ++ [T]) -> nth_error ts j = nth_error (D ++ [T]) j) /\
  (forall j k, nth_error output j = Some k -> nth_error ts j = Some
    match fn k with
    | None => nth j (D ++ [T]) types_full
    | Some (_, t) =>
        if is_const t then const_type t
        else match is_copy t with
             | Some r => nth j (D ++ [T]) types_full
             | None => if last_of t <? length D then tp t D else types_full
             end
    end).
Proof.
  intros before m todo D ts T Ho HD (Hl & Hpre & Hts) HTn Hm. split.
  - intros j Hj. rewrite app_length in Hj. cbn [length] in Hj.
    destruct (Nat.eq_dec j (length D)) as [->|Hne'].
    + rewrite nth_error_app2 by lia. rewrite Nat.sub_diag, HD. exact HTn.
    + rewrite nth_error_app1 by lia. apply Hpre. lia.
  - intros j k Hj. destruct (Nat.eq_dec j (length before)) as [->|Hne'].
    + pose proof Hj as Hj'. rewrite (nth_here before m todo Ho) in Hj'. injection Hj' as <-.
      rewrite (Hts _ _ Hj). destruct Hm as (k & t & -> & Hcp). rewrite Hcp. reflexivity.
    + rewrite (Hts _ _ Hj). f_equal.
      assert (Hnth : nth j (D ++ [T]) types_full = nth j D types_full).
      { destruct (Nat.lt_ge_cases j (length D)) as [H|H]; [apply app_nth1, H|].
        rewrite (nth_overflow D) by exact H. apply nth_overflow. rewrite app_length. cbn. lia. }
      rewrite Hnth. reflexivity.
Qed.

Lemma types_skip : forall before m todo D ts T, output = before ++ m :: todo ->
  length D = length before -> refd m = false -> length ts = length output ->
  (forall j, j < length (D ++ [T]) -> nth_error ts j = nth_error (D ++ [T]) j) ->
  (forall j k, nth_error output j = Some k -> nth_error ts j = Some
    match fn k with
    | None => nth j (D ++ [T]) types_full
    | Some (_, t) =>
        if is_const t then const_type t
        else match is_copy t with
             | Some r => nth j (D ++ [T]) types_full
             | None => if last_of t <? length D then tp t D else types_full
             end
    end) -> types_at (D ++ [T]) ts.
Proof.
  intros before m todo D ts T Ho HD Hr Hl Hpre Hts.
  destruct (types_programs before m todo D ts T Ho HD Hl Hpre Hts) as (ts' & Hrun & Hat).
  rewrite (used_or_not m (length before) (nth_here before m todo Ho) Hr) in Hrun. cbn in Hrun.
  injection Hrun as <-. exact Hat.
Qed.

Lemma list_ext : forall A (l l' : list A), length l = length l' ->
  (forall j, j < length l -> nth_error l j = nth_error l' j) -> l = l'.
Proof.
  intros A. induction l as [|x l IHl]; intros [|y l'] Hlen H; cbn in *; try discriminate; [reflexivity|].
  pose proof (H 0 ltac:(lia)) as H0. cbn in H0. injection H0 as ->. f_equal. apply IHl; [lia|].
  intros j Hj. apply (H (S j)). lia.
Qed.

Lemma copy_before : forall before m todo, output = before ++ m :: todo -> forall t r, fn m = Some (m, t) ->
  is_copy t = Some r -> In r output /\ idx r < length before.
Proof.
  intros before m todo Ho t r Hf Hcp. pose proof (copy_ref t r Hcp) as Ht.
  apply fn_some in Hf. destruct Hf as [_ Hin].
  split; [eapply function_refs_in; [exact Hin|]; subst t; left; reflexivity|].
  assert (Hc : is_const t = false) by (subst t; reflexivity).
  pose proof (last_before m t Hin Hc) as Hl. rewrite (idx_nth _ _ (nth_here before m todo Ho)) in Hl.
  pose proof (proj1 (refs_upto m t Hin r ltac:(subst t; left; reflexivity))). lia.
Qed.

Lemma types_loop_spec : forall ls, layers_ok functions ls -> forall todo before D input ts,
  output = before ++ todo -> length D = length before -> types_at D ts ->
  length input = length (filter is_input todo) ->
  exists P, types_loop (skipn (length before) ls) (length before) input (pick refd before D) ts = Ok P /\
    tall todo D input = Some P.
Proof.
  intros ls Hls. induction todo as [|m todo IH]; intros before D input ts Ho HD Hts Hin.
  - rewrite app_nil_r in Ho. subst before. destruct Hls as [Hl _]. assert (Hsk : skipn (length output) ls = []) by (rewrite <- Hl; apply skipn_all). rewrite Hsk.
    exists ts. split; [reflexivity|]. cbn. f_equal. destruct Hts as (Hlt & Hpre & _).
    apply list_ext; [congruence|]. intros j Hj. symmetry. apply Hpre. exact Hj.
  - rewrite (layers_suffix ls Hls before m todo Ho). cbn [types_loop lcomputed lused tall].
    rewrite comp_of_fn, used_of_refd.
    (* the rest of the loop, once the type T of this column is stored *)
    assert (Hrest : forall T ts1 input1, length ts1 = length output ->
      (forall j, j < length (D ++ [T]) -> nth_error ts1 j = nth_error (D ++ [T]) j) ->
      (forall j k, nth_error output j = Some k -> nth_error ts1 j = Some
        match fn k with
        | None => nth j (D ++ [T]) types_full
        | Some (_, t) =>
            if is_const t then const_type t
            else match is_copy t with
                 | Some r => nth j (D ++ [T]) types_full
                 | None => if last_of t <? length D then tp t D else types_full
                 end
        end) ->
      length input1 = length (filter is_input todo) ->
      exists P,
        match (if refd m then Some (progs_of functions (length before)) else None) with
        | None => types_loop (skipn (length (before ++ [m])) ls) (S (length before)) input1 (pick refd before D) ts1
        | Some ps =>
            match nth_error ts1 (length before) with
            | None => Panicked
            | Some t =>
                bind (run_type_programs ps (pick refd before D ++ [t]) ts1) (fun ts =>
                types_loop (skipn (length (before ++ [m])) ls) (S (length before)) input1 (pick refd before D ++ [t]) ts)
            end
        end = Ok P /\ tall todo (D ++ [T]) input1 = Some P).
    { intros T ts1 input1 Hl1 Hpre1 Hts1 Hin1.
      assert (Ho' : output = (before ++ [m]) ++ todo) by (rewrite <- app_assoc; exact Ho).
      assert (HD' : length (D ++ [T]) = length (before ++ [m])) by (rewrite !app_length, HD; reflexivity).
      assert (HS : S (length before) = length (before ++ [m])) by (rewrite app_length; cbn; lia).
      rewrite HS. destruct (refd m) eqn:Er.
      - assert (Hn1 : nth_error ts1 (length before) = Some T).
        { rewrite Hpre1 by (rewrite app_length; cbn; lia). rewrite nth_error_app2 by lia. rewrite HD, Nat.sub_diag. reflexivity. }
        rewrite Hn1.
        assert (Hpk : pick refd before D ++ [T] = pick refd (before ++ [m]) (D ++ [T])).
        { rewrite pick_snoc by (symmetry; exact HD). rewrite Er. reflexivity. }
        rewrite Hpk. destruct (types_programs before m todo D ts1 T Ho HD Hl1 Hpre1 Hts1) as (ts2 & Hrun & Hat).
        rewrite Hrun. cbn [bind]. apply IH; assumption.
      - assert (Hpk : pick refd before D = pick refd (before ++ [m]) (D ++ [T])).
        { rewrite pick_snoc by (symmetry; exact HD). rewrite Er. reflexivity. }
        rewrite Hpk. apply IH; try assumption. eapply types_skip; eassumption. }
    unfold tnext. cbn [filter] in Hin. rewrite is_input_fn in Hin.
    destruct (fn m) as [[k t]|] eqn:Ef.
    + pose proof (fn_some m k t Ef) as [-> Hfin]. destruct (is_copy t) as [r|] eqn:Ecp.
      * assert (Hc : is_const t = false).
        { destruct (is_const t) eqn:Ec; [rewrite (const_not_copy t Ec) in Ecp; discriminate|reflexivity]. }
        rewrite Hc. destruct (copy_before before m todo Ho t r Ef Ecp) as [Hro Hlt].
        pose proof Hts as (Hl & Hpre & _). rewrite (Hpre (idx r)) by lia.
        rewrite (nth_error_nth' D types_full) by lia.
        destruct (types_next before m todo D ts (nth (idx r) D types_full) Ho HD Hts) as (H1 & H2 & H3);
          [right; exists m, t; split; [exact Ef|congruence]|].
        apply Hrest; assumption.
      * pose proof Hts as (Hl & Hpre & Hts').
        pose proof (Hts' _ _ (nth_here before m todo Ho)) as Hn. rewrite Ef, Ecp in Hn.
        destruct (is_const t) eqn:Ec.
        -- destruct (types_next_computed before m todo D ts (const_type t) Ho HD Hts Hn) as (H2 & H3);
             [exists m, t; auto|]. apply Hrest; assumption.
        -- pose proof (last_before m t Hfin Ec) as Hlb. rewrite (idx_nth _ _ (nth_here before m todo Ho)) in Hlb.
           replace (last_of t <? length D) with true in Hn by (symmetry; apply Nat.ltb_lt; lia).
           destruct (types_next_computed before m todo D ts (tp t D) Ho HD Hts Hn) as (H2 & H3);
             [exists m, t; auto|]. apply Hrest; assumption.
    + destruct input as [|T input]; [discriminate|]. cbn in Hin. apply Nat.succ_inj in Hin.
      destruct (types_next before m todo D ts T Ho HD Hts (or_introl Ef)) as (H1 & H2 & H3).
      apply Hrest; assumption.
Qed.

(* constants *)
Lemma consts_fold : forall X (sel : option value -> X -> X) (fs : list (nat * tree)) (xs : list X),
  (forall f, In f fs -> In (fst f) output) -> NoDup (map fst fs) -> length xs = length output ->
  let xs' := fold_left (fun xs c => update xs (snd c) (sel (fst c))) (consts_of fs) xs in
  length xs' = length output /\
  forall j m, nth_error output j = Some m -> nth_error xs' j =
    match find (fun f => fst f =? m) fs with
    | Some (_, t) => if is_const t then option_map (sel (const_of t)) (nth_error xs j) else nth_error xs j
    | None => nth_error xs j
    end.
Proof.
  intros X sel fs. induction fs as [|[k t] fs IH]; intros xs Hin Hn Hl xs'.
  - split; [exact Hl|]. intros; reflexivity.
  - inversion Hn as [|? ? Hk Hn']; subst. unfold xs', consts_of in *. cbn [filter snd].
    pose proof (Hin (k, t) (or_introl eq_refl)) as Hko. cbn in Hko.
    destruct (is_const t) eqn:Ec.
    + cbn [map fold_left fst snd].
      destruct (IH (update xs (idx k) (sel (const_of t)))) as [H1 H2];
        [intros; apply Hin; right; assumption|exact Hn'|rewrite update_length; exact Hl|].
      split; [exact H1|]. intros j m Hj. rewrite (H2 j m Hj). cbn [find fst]. rewrite nth_error_update.
      destruct (k =? m) eqn:E.
      * apply Nat.eqb_eq in E. subst m. rewrite (find_none_fst fs k Hk), (idx_nth j k Hj), Nat.eqb_refl, Ec. reflexivity.
      * replace (idx k =? j) with false; [reflexivity|]. symmetry. apply Nat.eqb_neq. intros Hc.
        apply Nat.eqb_neq in E. apply E. pose proof (nth_idx k Hko) as Hx. rewrite Hc in Hx. congruence.
    + destruct (IH xs) as [H1 H2]; [intros; apply Hin; right; assumption|exact Hn'|exact Hl|].
      split; [exact H1|]. intros j m Hj. rewrite (H2 j m Hj). cbn [find fst].
      destruct (k =? m) eqn:E; [|reflexivity]. apply Nat.eqb_eq in E. subst m.
      rewrite (find_none_fst fs k Hk), Ec. reflexivity.
Qed.

Lemma fold_left_ext' : forall A B (f g : A -> B -> A) (l : list B) a, (forall a b, f a b = g a b) ->
  fold_left f l a = fold_left g l a.
Proof. intros A B f g l. induction l as [|b l IH]; intros a H; cbn; [reflexivity|]. rewrite H. apply IH, H. Qed.

Lemma update_same : forall A (l : list A) i, update l i (fun x => x) = l.
Proof. intros A l. induction l as [|x l IH]; intros [|i]; cbn; try reflexivity. f_equal. apply IH. Qed.

Lemma types_start : types_at [] (constant_types (consts_of functions) (repeat types_full (length output))).
Proof.
  assert (He : constant_types (consts_of functions) (repeat types_full (length output)) =
    fold_left (fun xs (c : option value * nat) => update xs (snd c)
       ((fun o T => match o with Some v => domain_types L v | None => T end) (fst c)))
      (consts_of functions) (repeat types_full (length output))).
  { unfold constant_types. apply fold_left_ext'. intros ts [o i]. cbn. destruct o; [reflexivity|].
    symmetry. apply update_same. }
  rewrite He.
  destruct (consts_fold types (fun o T => match o with Some v => domain_types L v | None => T end) functions
     (repeat types_full (length output)) functions_in Hndf (repeat_length _ _)) as [H1 H2].
  split; [exact H1|]. split; [intros j Hj; cbn in Hj; lia|]. intros j m Hj. rewrite (H2 j m Hj). fold (fn m).
  assert (Hr : nth_error (repeat types_full (length output)) j = Some types_full).
  { apply nth_error_repeat. apply nth_error_Some. congruence. }
  rewrite Hr. assert (Hnil : nth j [] types_full = types_full) by (destruct j; reflexivity). rewrite Hnil.
  destruct (fn m) as [[k t]|]; [|reflexivity]. destruct (is_const t).
  - cbn. unfold const_type. destruct (const_of t); reflexivity.
  - destruct (is_copy t); [reflexivity|]. cbn. reflexivity.
Qed.

(* ---------- values ---------- *)

Definition vnext (d row : list value) (m : nat) : option (value * list value) :=
  match fn m with
  | None => match row with v :: row' => Some (v, row') | [] => None end
  | Some (_, t) => match sem (fun r => lookup r output d) t with Some v => Some (v, row) | None => None end
  end.

Fixpoint vall (todo : list nat) (d row : list value) : option (list value) :=
  match todo with
  | [] => Some d
  | m :: todo' => match vnext d row m with Some (v, row') => vall todo' (d ++ [v]) row' | None => None end
  end.

(* the values computed so far, when the columns with values d have been passed *)
Definition values_at (d : list value) (vs : list (option value)) : Prop :=
  length vs = length output /\
  forall j m k t, nth_error output j = Some m -> fn m = Some (k, t) ->
    (is_const t = true -> nth_error vs j = Some (const_of t)) /\
    (is_normal t = true -> last_of t < length d -> nth_error vs j = Some (sem (fun r => lookup r output d) t)).

Lemma sem_stable : forall m t (d : list value) v, In (m, t) functions -> last_of t < length d ->
  sem (fun r => lookup r output (d ++ [v])) t = sem (fun r => lookup r output d) t.
Proof.
  intros m t d v H Hl. apply sem_ext. intros r Hr. pose proof (refs_upto m t H r Hr) as [Hle _].
  rewrite !lookup_idx by (eapply function_refs_in; eauto). apply nth_error_app1. lia.
Qed.

Lemma values_programs : forall before m todo (d : list value) vs v, output = before ++ m :: todo ->
  length d = length before -> values_at d vs -> 
  exists vs', run_programs (progs_of functions (length before)) (pick refd (before ++ [m]) (d ++ [v])) vs = Ok vs' /\
    values_at (d ++ [v]) vs'.
Proof.
  intros before m todo d vs v Ho Hd [Hl Hvs]. rewrite run_programs_generic. unfold progs_of.
  destruct (generic_run_spec (option value) (fun p => evaluate p (pick refd (before ++ [m]) (d ++ [v])) None [])
     (fun t => sem (fun r => lookup r output (d ++ [v])) t)
     (fun f => is_normal (snd f) && (last_of (snd f) =? length before)) functions vs)
    as (vs' & Hrun & Hlen' & Hnth).
  - intros [k t] Hin Hq. cbn [snd] in Hq |- *. apply andb_prop in Hq. destruct Hq as [Hn Hl']. apply Nat.eqb_eq in Hl'.
    pose proof (prog_value k t (d ++ [v]) Hin Hn) as Hp. rewrite Hl', (firstn_here before m todo Ho) in Hp.
    apply Hp. rewrite !app_length. cbn [length]. lia.
  - apply functions_in.
  - exact Hndf.
  - exact Hl.
  - exists vs'. split; [exact Hrun|]. split; [exact Hlen'|]. intros j k k' t Hj Ef.
    pose proof (Hnth j k Hj) as Hn. fold (fn k) in Hn. rewrite Ef in Hn. cbn [snd] in Hn.
    destruct (Hvs j k k' t Hj Ef) as [Hvc Hvn]. destruct (fn_some k k' t Ef) as [-> Hin]. split.
    + intros Ec. rewrite (not_normal_const t Ec) in Hn. cbn in Hn. rewrite Hn. apply Hvc, Ec.
    + intros En Hlt. rewrite En in Hn. cbn in Hn. destruct (last_of t =? length before) eqn:El; [exact Hn|].
      apply Nat.eqb_neq in El. rewrite app_length in Hlt. cbn [length] in Hlt.
      rewrite Hn, (sem_stable k t d v Hin) by lia. apply Hvn; [exact En|lia].
Qed.

Lemma const_sem : forall t, is_const t = true -> forall env, sem env t = const_of t.
Proof.
  intros t H env. unfold const_of. apply sem_ext. intros r Hr. unfold is_const in H.
  destruct (references t); [destruct Hr|discriminate].
Qed.

Lemma vnext_typed : forall before m todo D (d row : list value) input v row' T input',
  output = before ++ m :: todo -> length d = length before -> conforms D d ->
  conforms input row -> vnext d row m = Some (v, row') -> tnext D input m = Some (T, input') ->
  types_contains T (stored_as L v) = true /\ conforms input' row'.
Proof.
  intros before m todo D d row input v row' T input' Ho Hd HDd Hin Hv Ht. unfold vnext in Hv. unfold tnext in Ht.
  assert (HlD : length D = length d) by (clear -HDd; induction HDd; cbn; auto).
  destruct (fn m) as [[k t]|] eqn:Ef.
  - pose proof (fn_some m k t Ef) as [-> Hfin].
    destruct (sem (fun r => lookup r output d) t) as [w|] eqn:Es; [|discriminate]. injection Hv as <- <-.
    destruct (is_const t) eqn:Ec.
    + injection Ht as <- <-. split; [|exact Hin]. rewrite (const_sem t Ec) in Es. unfold const_type. rewrite Es.
      apply (proj2 (Hconst m t Hfin)); [|exact Es]. unfold is_const in Ec. destruct (references t); [reflexivity|discriminate].
    + destruct (is_copy t) as [r|] eqn:Ecp.
      * injection Ht as <- <-. split; [|exact Hin]. pose proof (copy_ref t r Ecp) as ->.
        destruct (copy_before before m todo Ho (Ref r) r Ef eq_refl) as [Hro Hlt].
        cbn in Es. rewrite (lookup_idx r d Hro) in Es.
        destruct (conforms_nth L D d (idx r) w HDd Es) as (T & HTn & Hc). rewrite (nth_error_nth D _ types_full HTn). exact Hc.
      * injection Ht as <- <-. split; [|exact Hin].
        pose proof (last_before m t Hfin Ec) as Hlb. rewrite (idx_nth _ _ (nth_here before m todo Ho)) in Hlb.
        destruct (prog_type m t D Hfin (normal_of t Ec Ecp)) as [_ Hp]; [rewrite firstn_length; lia|].
        eapply Hp; [exact HDd|exact Es].
  - destruct Hin as [|T0 v0 input0 row0 Hc Hrest]; [discriminate|]. injection Hv as <- <-. injection Ht as <- <-. split; assumption.
Qed.

Lemma function_row_spec : forall ls, layers_ok functions ls -> forall P todo before D (d row : list value) input vs,
  output = before ++ todo -> length d = length before -> conforms D d -> conforms input row ->
  tall todo D input = Some P -> values_at d vs -> length row = length (filter is_input todo) ->
  function_row (skipn (length before) ls) P (length before) row (pick refd before d) vs d = Ok (vall todo d row).
Proof.
  intros ls Hls P. induction todo as [|m todo IH]; intros before D d row input vs Ho Hd HDd Hin Hall Hvs Hrow.
  - rewrite app_nil_r in Ho. subst before. destruct Hls as [Hl _]. assert (Hsk : skipn (length output) ls = []) by (rewrite <- Hl; apply skipn_all). rewrite Hsk. reflexivity.
  - rewrite (layers_suffix ls Hls before m todo Ho). cbn [function_row lcomputed lused vall].
    rewrite comp_of_fn, used_of_refd.
    assert (HlD : length D = length d) by (clear -HDd; induction HDd; cbn; auto).
    cbn [tall] in Hall. destruct (tnext D input m) as [[T input']|] eqn:Et; [|discriminate].
    pose proof (tall_prefix _ _ _ _ Hall) as [HlP HpreP].
    assert (HPn : nth_error P (length before) = Some T).
    { rewrite HpreP by (rewrite app_length; cbn; lia). rewrite nth_error_app2 by lia. rewrite HlD, Hd, Nat.sub_diag. reflexivity. }
    rewrite HPn.
    assert (Hlen : length (filter is_input (m :: todo)) = (if is_input m then 1 else 0) + length (filter is_input todo)).
    { cbn. destruct (is_input m); reflexivity. }
    rewrite Hlen, is_input_fn in Hrow.
    (* what the layer produces *)
    assert (Hlayer : match (match fn m with
                       | Some (_, t) => match is_copy t with Some r => CCopy (idx r) | None => CComputed end
                       | None => CInput
                       end) with
                     | CInput => match row with v :: row' => Ok (Some v, row') | [] => Panicked end
                     | CCopy src => match nth_error d src with Some v => Ok (Some v, row) | None => Panicked end
                     | CComputed => match nth_error vs (length before) with Some o => Ok (o, row) | None => Panicked end
                     end = Ok (match vnext d row m with Some (v, row') => (Some v, row') | None => (None, row) end)).
    { unfold vnext. destruct Hvs as [Hlv Hvs]. destruct (fn m) as [[k t]|] eqn:Ef.
      - pose proof (fn_some m k t Ef) as [-> Hfin]. destruct (Hvs _ _ _ _ (nth_here before m todo Ho) Ef) as [Hvc Hvn].
        destruct (is_copy t) as [r|] eqn:Ecp.
        + pose proof (copy_ref t r Ecp) as ->. destruct (copy_before before m todo Ho (Ref r) r Ef eq_refl) as [Hro Hlt].
          cbn. rewrite (lookup_idx r d Hro). destruct (nth_error d (idx r)) eqn:En; [reflexivity|]. apply nth_error_None in En. lia.
        + destruct (is_const t) eqn:Ec.
          * rewrite (Hvc eq_refl), (const_sem t Ec). destruct (const_of t); reflexivity.
          * pose proof (last_before m t Hfin Ec) as Hlb. rewrite (idx_nth _ _ (nth_here before m todo Ho)) in Hlb.
            rewrite (Hvn (normal_of t Ec Ecp)) by lia. destruct (sem _ t); reflexivity.
      - destruct row; [cbn in Hrow; lia|]. reflexivity. }
    rewrite Hlayer. destruct (vnext d row m) as [[v row']|] eqn:Ev; [|reflexivity].
    destruct (vnext_typed before m todo D d row input v row' T input' Ho Hd HDd Hin Ev Et) as [Hc Hin'].
    rewrite Hc.
    assert (Ho' : output = (before ++ [m]) ++ todo) by (rewrite <- app_assoc; exact Ho).
    assert (Hd' : length (d ++ [v]) = length (before ++ [m])) by (rewrite !app_length, Hd; reflexivity).
    assert (HS : S (length before) = length (before ++ [m])) by (rewrite app_length; cbn; lia).
    assert (HDd' : conforms (D ++ [T]) (d ++ [v])).
    { apply Forall2_app; [exact HDd|]. constructor; [exact Hc|constructor]. }
    assert (Hrow' : length row' = length (filter is_input todo)).
    { unfold vnext in Ev. destruct (fn m) as [[k t]|].
      - destruct (sem (fun r => lookup r output d) t); [|discriminate]. injection Ev as <- <-. cbn in Hrow. exact Hrow.
      - destruct row as [|w row]; [discriminate|]. injection Ev as <- <-. cbn in Hrow. lia. }
    destruct (values_programs before m todo d vs v Ho Hd Hvs) as (vs' & Hrun & Hat).
    rewrite HS. destruct (skipn (length (before ++ [m])) ls) as [|l0 ls0] eqn:Els.
    + (* last layer: no programs are run *)
      assert (todo = []) as ->.
      { destruct todo as [|m2 todo]; [reflexivity|]. exfalso. rewrite (layers_suffix ls Hls (before ++ [m]) m2 todo Ho') in Els. discriminate. }
      destruct (refd m); reflexivity.
    + rewrite <- Els in *. destruct (refd m) eqn:Er.
      * rewrite pick_snoc in Hrun by (symmetry; exact Hd). rewrite Er in Hrun. rewrite Hrun. cbn [bind].
        assert (Hpk : pick refd before d ++ [v] = pick refd (before ++ [m]) (d ++ [v])).
        { rewrite pick_snoc by (symmetry; exact Hd). rewrite Er. reflexivity. }
        rewrite Hpk. eapply IH; eassumption.
      * rewrite (used_or_not m (length before) (nth_here before m todo Ho) Er) in Hrun. cbn in Hrun. injection Hrun as <-.
        assert (Hpk : pick refd before d = pick refd (before ++ [m]) (d ++ [v])).
        { rewrite pick_snoc by (symmetry; exact Hd). rewrite Er. reflexivity. }
        rewrite Hpk. eapply IH; eassumption.
Qed.

Lemma values_start : values_at [] (start_values (mk_function_op (repeat (mk_layer CInput None) (length output)) (consts_of functions))).
Proof.
  unfold start_values. cbn [constants layers]. rewrite repeat_length.
  destruct (consts_fold (option value) (fun o x => match o with Some v => Some v | None => x end) functions
     (repeat None (length output)) functions_in Hndf (repeat_length _ _)) as [H1 H2].
  split; [exact H1|]. intros j m k t Hj Ef. split; [|intros _ Hl; cbn in Hl; lia].
  intros Ec. rewrite (H2 j m Hj). fold (fn m). rewrite Ef, Ec.
  rewrite nth_error_repeat by (apply nth_error_Some; congruence). cbn. destruct (const_of t); reflexivity.
Qed.

Lemma start_values_layers : forall (ls ls' : list (layer L)) cs, length ls = length ls' ->
  start_values (mk_function_op ls cs) = start_values (mk_function_op ls' cs).
Proof. intros ls ls' cs H. unfold start_values. cbn. rewrite H. reflexivity. Qed.

Lemma function_apply_spec : exists op, function_new debug output functions = Ok op /\
  forall input row, conforms input row -> length row = length (filter is_input output) ->
  function_apply op input row = Ok (vall output [] row).
Proof.
  destruct function_new_spec as (ls & Hnew & Hls). exists (mk_function_op ls (consts_of functions)).
  split; [exact Hnew|]. intros input row Hin Hrow. unfold function_apply, possible_types. cbn [layers constants].
  assert (Hli : length input = length row) by (clear -Hin; induction Hin; cbn; auto).
  destruct (types_loop_spec ls Hls output [] [] input
     (constant_types (consts_of functions) (repeat types_full (length ls)))) as (P & HP & Hall).
  - reflexivity.
  - reflexivity.
  - rewrite (proj1 Hls). apply types_start.
  - congruence.
  - cbn [length skipn] in HP. unfold pick in HP. cbn [combine filter map] in HP. rewrite HP. cbn [bind].
    pose proof (function_row_spec ls Hls P output [] [] [] row input
       (start_values (mk_function_op ls (consts_of functions))) eq_refl eq_refl (Forall2_nil _) Hin Hall) as H.
    cbn [length skipn] in H. unfold pick in H. cbn [combine filter map] in H. apply H; [|exact Hrow].
    rewrite (start_values_layers ls (repeat (mk_layer CInput None) (length output)) (consts_of functions)).
    + apply values_start.
    + rewrite repeat_length. apply (proj1 Hls).
Qed.



(* ---------- the computed row is the specified one ---------- *)

Lemma refs_before : forall before m todo, output = before ++ m :: todo -> forall t, In (m, t) functions ->
  forall r, In r (references t) -> In r output /\ idx r < length before.
Proof.
  intros before m todo Ho t Hin r Hr. split; [eapply function_refs_in; eauto|].
  assert (Hc : is_const t = false) by (unfold is_const; destruct (references t); [destruct Hr|reflexivity]).
  pose proof (last_before m t Hin Hc) as Hl. rewrite (idx_nth _ _ (nth_here before m todo Ho)) in Hl.
  pose proof (proj1 (refs_upto m t Hin r Hr)). lia.
Qed.

Lemma vall_spec : forall todo before (d row row' : list value), output = before ++ todo ->
  length d = length before -> length row = length (filter is_input todo) ->
  (vall todo d row = Some row' <->
   exists ext, row' = d ++ ext /\ length ext = length todo /\ pick is_input todo ext = row /\
     forall m t, In m todo -> In (m, t) functions -> exists v, lookup m output row' = Some v /\
        sem (fun r => lookup r output row') t = Some v).
Proof.
  induction todo as [|m todo IH]; intros before d row row' Ho Hd Hrow.
  - destruct row; [|discriminate]. cbn. split.
    + intros H. injection H as <-. exists []. rewrite app_nil_r. repeat split. intros m t [].
    + intros (ext & -> & Hl & _). destruct ext; [|discriminate]. rewrite app_nil_r. reflexivity.
  - assert (Ho' : output = (before ++ [m]) ++ todo) by (rewrite <- app_assoc; exact Ho).
    assert (Hmo : In m output) by (rewrite Ho; apply in_or_app; right; left; reflexivity).
    pose proof (idx_nth _ _ (nth_here before m todo Ho)) as Him.
    assert (Hmt : ~ In m todo).
    { pose proof Hnd as Hn. rewrite Ho in Hn. apply NoDup_remove_2 in Hn. intros H. apply Hn, in_or_app. right. exact H. }
    assert (Hsem : forall ext t, In (m, t) functions -> sem (fun r => lookup r output (d ++ ext)) t = sem (fun r => lookup r output d) t).
    { intros ext t Hin. apply sem_ext. intros r Hr. destruct (refs_before before m todo Ho t Hin r Hr) as [Hro Hlt].
      rewrite !lookup_idx by exact Hro. apply nth_error_app1. lia. }
    assert (Hhere : forall v ext, lookup m output (d ++ v :: ext) = Some v).
    { intros v ext. rewrite (lookup_idx m _ Hmo), Him, nth_error_app2 by lia. rewrite Hd, Nat.sub_diag. reflexivity. }
    cbn [vall]. unfold vnext.
    assert (Hlen : length (filter is_input (m :: todo)) = (if is_input m then 1 else 0) + length (filter is_input todo)).
    { cbn. destruct (is_input m); reflexivity. }
    rewrite Hlen in Hrow. pose proof (is_input_fn m) as Hi.
    assert (Hpick : forall (v : value) (ext : list value), pick is_input (m :: todo) (v :: ext) =
              if is_input m then v :: pick is_input todo ext else pick is_input todo ext).
    { intros v ext. unfold pick. cbn. destruct (is_input m); reflexivity. }
    destruct (fn m) as [[k t]|] eqn:Ef.
    + pose proof (fn_some m k t Ef) as [-> Hfin]. rewrite Hi in Hrow. cbn in Hrow.
      destruct (sem (fun r => lookup r output d) t) as [v|] eqn:Es.
      * rewrite (IH (before ++ [m]) (d ++ [v]) row row' Ho');
          [|rewrite !app_length, Hd; reflexivity|exact Hrow]. split.
        -- intros (ext & -> & Hl & Hp & Hf). exists (v :: ext). rewrite <- app_assoc in *. cbn [app] in *.
           split; [reflexivity|]. split; [cbn; congruence|]. split; [rewrite Hpick, Hi; exact Hp|].
           intros m0 t0 [<-|Hm0] Hin0; [|apply Hf; assumption].
           rewrite (fn_in m t0 Hin0) in Ef. injection Ef as ->. exists v. split; [apply Hhere|]. rewrite Hsem by exact Hfin. exact Es.
        -- intros (ext & -> & Hl & Hp & Hf). destruct ext as [|w ext]; [discriminate|].
           destruct (Hf m t (or_introl eq_refl) Hfin) as (u & Hu & Hsu). rewrite Hhere in Hu. injection Hu as ->.
           rewrite Hsem, Es in Hsu by exact Hfin. injection Hsu as ->. exists ext. rewrite <- app_assoc. cbn [app].
           split; [reflexivity|]. split; [cbn in Hl; congruence|]. split; [rewrite Hpick, Hi in Hp; exact Hp|].
           intros m0 t0 Hm0 Hin0. apply Hf; [right; exact Hm0|exact Hin0].
      * split; [discriminate|]. intros (ext & -> & Hl & Hp & Hf).
        destruct (Hf m t (or_introl eq_refl) Hfin) as (u & Hu & Hsu). rewrite Hsem, Es in Hsu by exact Hfin. discriminate.
    + rewrite Hi in Hrow. cbn in Hrow. destruct row as [|v row]; [discriminate|]. cbn in Hrow. apply Nat.succ_inj in Hrow.
      rewrite (IH (before ++ [m]) (d ++ [v]) row row' Ho');
        [|rewrite !app_length, Hd; reflexivity|exact Hrow]. split.
      * intros (ext & -> & Hl & Hp & Hf). exists (v :: ext). rewrite <- app_assoc in *. cbn [app] in *.
        split; [reflexivity|]. split; [cbn; congruence|]. split; [rewrite Hpick, Hi, Hp; reflexivity|].
        intros m0 t0 [<-|Hm0] Hin0; [|apply Hf; assumption]. rewrite (fn_in m t0 Hin0) in Ef. discriminate.
      * intros (ext & -> & Hl & Hp & Hf). destruct ext as [|w ext]; [discriminate|].
        rewrite Hpick, Hi in Hp. injection Hp as -> Hp. exists ext. rewrite <- app_assoc. cbn [app].
        split; [reflexivity|]. split; [cbn in Hl; congruence|]. split; [exact Hp|].
        intros m0 t0 Hm0 Hin0. apply Hf; [right; exact Hm0|exact Hin0].
Qed.

Lemma vall_computes : forall row row', length row = length (input_columns output functions) ->
  (vall output [] row = Some row' <-> computes output functions row row').
Proof.
  intros row row' Hrow. change (input_columns output functions) with (filter is_input output) in Hrow.
  rewrite (vall_spec output [] [] row row' eq_refl eq_refl Hrow). cbn [app].
  assert (Hndi : NoDup (filter is_input output)) by (apply NoDup_filter, Hnd).
  unfold computes. change (input_columns output functions) with (filter is_input output).
  assert (Hcol : forall t v, In t (map snd functions) -> (sem (fun r => lookup r output row') t = Some v <->
                  denotes (column_value output row') t v)).
  { intros t v _. apply sem_denotes. intros r _ w. apply lookup_column_value, Hnd. }
  split.
  - intros (ext & -> & Hl & Hp & Hf). split; [exact Hl|]. split.
    + intros m v Hm. apply filter_In in Hm. destruct Hm as [_ Hi].
      rewrite <- (lookup_column_value L (filter is_input output)) by exact Hndi. rewrite <- (lookup_column_value L output) by exact Hnd.
      rewrite <- Hp, pick_lookup by (assumption || lia). reflexivity.
    + intros m t Hin. destruct (Hf m t (function_in_output m t Hin) Hin) as (v & Hv & Hs). exists v.
      split; [apply lookup_column_value; assumption|]. apply Hcol; [apply in_map_iff; exists (m, t); auto|exact Hs].
  - intros (Hl & Hi & Hf). exists row'. split; [reflexivity|]. split; [exact Hl|]. split.
    + apply list_ext.
      * rewrite pick_length by lia. symmetry. exact Hrow.
      * intros j Hj. rewrite pick_length in Hj by lia.
        destruct (nth_error (filter is_input output) j) as [m|] eqn:Em; [|apply nth_error_None in Em; lia].
        destruct (nth_error row j) as [v|] eqn:Ev; [|apply nth_error_None in Ev; lia].
        pose proof (nth_error_In _ _ Em) as Hm.
        assert (Hcv : column_value (filter is_input output) row m v) by (exists j; auto).
        apply (Hi m v Hm) in Hcv. apply (lookup_column_value L output) in Hcv; [|exact Hnd].
        apply filter_In in Hm. rewrite <- (pick_lookup is_input output row' m) in Hcv by (lia || apply Hm).
        unfold lookup in Hcv. destruct (find_index m (filter is_input output)) as [j'|] eqn:Ej; [|discriminate].
        apply find_index_spec in Ej. rewrite (nth_error_NoDup _ _ j' j m Hndi Ej Em) in Hcv. exact Hcv.
    + intros m t _ Hin. destruct (Hf m t Hin) as (v & Hv & Hd). exists v. split; [apply lookup_column_value; assumption|].
      apply Hcol; [apply in_map_iff; exists (m, t); auto|exact Hd].
Qed.

End Proofs.

Theorem function_correct : forall (L : language) (debug : bool) (output : list nat) (functions : list (nat * tree L)),
  typed L -> NoDup output -> NoDup (map fst functions) ->
  (forall m t, In (m, t) functions -> exists before after,
     output = before ++ m :: after /\ forall r, In r (references t) -> In r before) ->
  (debug = true -> forall m t, In (m, t) functions -> no_empty_application t) ->
  (forall m r, In (m, Ref r) functions ->
     exists m' t', In (m', t') functions /\ (forall r', t' <> Ref r') /\ In r (references t')) ->
  (forall m t, In (m, t) functions -> constants_typed t /\
     (references t = [] -> forall v, denotes (fun _ _ => False) t v ->
        types_contains (domain_types L v) (stored_as L v) = true)) ->
  exists op, function_new debug output functions = Ok op /\
    forall input row, conforms input row -> length row = length (input_columns output functions) ->
    exists o, function_apply op input row = Ok o /\
      forall row', o = Some row' <-> computes output functions row row'.
Proof.
  intros L debug output functions HT Hnd Hndf Hord Hne Hcopy Hconst.
  destruct (function_apply_spec L debug output functions Hnd Hndf Hord Hne) as (op & Hnew & Happ).
  - intros m r H. destruct (Hcopy m r H) as (m' & t' & Hin & Hnr & Hr). exists (m', t'). split; [exact Hin|].
    split; [|exact Hr]. unfold is_normal, is_const. cbn [snd]. destruct (references t'); [destruct Hr|]. cbn.
    destruct t'; try reflexivity. exfalso. eapply Hnr. reflexivity.
  - exact HT.
  - intros m t H. destruct (Hconst m t H) as [H1 H2]. split; [exact H1|]. intros Hr v Hv. apply (H2 Hr).
    revert Hv. unfold const_of. apply sem_denotes. intros r Hin. rewrite Hr in Hin. destruct Hin.
  - exists op. split; [exact Hnew|]. intros input row Hin Hrow. exists (vall L output functions output [] row).
    split; [apply Happ; [exact Hin|exact Hrow]|]. intros row'.
    eapply (vall_computes L output functions); eassumption.
Qed.
