From Coq Require Import List Arith Bool Lia.
From Verif Require Import ExprModel ExprSpec.
Import ListNotations.

Section Proofs.
Context (L : language).
Notation value := (val L).
Notation tree := (tree L).

Lemma tree_induction (P : tree -> Prop)
  (Hc : forall v, P (Const v)) (Hr : forall r, P (Ref r))
  (Hu : forall f t, P t -> P (Un f t))
  (Hb : forall f l r, P l -> P r -> P (Bin f l r))
  (Ht : forall f a b c, P a -> P b -> P c -> P (Ter f a b c))
  (Hn : forall f ts, Forall P ts -> P (Nar f ts)) : forall t, P t.
Proof.
  fix IH 1. intros [v|r|f t|f l r|f a b c|f ts].
  - apply Hc.
  - apply Hr.
  - apply Hu, IH.
  - apply Hb; apply IH.
  - apply Ht; apply IH.
  - apply Hn. induction ts as [|t ts IHts]; constructor; [apply IH|exact IHts].
Qed.

(* ---------- reference semantics as a function ---------- *)

Fixpoint collect (l : list (option value)) : option (list value) :=
  match l with
  | [] => Some []
  | Some v :: l' => match collect l' with Some vs => Some (v :: vs) | None => None end
  | None :: _ => None
  end.

Fixpoint sem (env : nat -> option value) (t : tree) : option value :=
  match t with
  | Const v => Some v
  | Ref r => env r
  | Un f t => match sem env t with Some v => ev1 L f v | None => None end
  | Bin f l r =>
      match sem env l, sem env r with Some v, Some w => ev2 L f v w | _, _ => None end
  | Ter f a b c =>
      match sem env a, sem env b, sem env c with
      | Some v, Some w, Some u => ev3 L f v w u
      | _, _, _ => None
      end
  | Nar f ts =>
      match collect (map (sem env) ts) with Some vs => evn L f vs | None => None end
  end.

Lemma collect_denotes : forall (bound : nat -> value -> Prop) env ts,
  Forall (fun t => forall v, sem env t = Some v <-> denotes bound t v) ts ->
  forall vs, collect (map (sem env) ts) = Some vs <-> denotes_list bound ts vs.
Proof.
  intros bound env ts H. induction H as [|t ts Ht _ IH]; intros vs; cbn.
  - split; [intros E; injection E as <-; constructor|inversion 1; reflexivity].
  - split.
    + destruct (sem env t) as [v|] eqn:E; [|discriminate].
      destruct (collect (map (sem env) ts)) as [vs'|] eqn:E'; [|discriminate].
      intros H; injection H as <-. constructor; [apply Ht; reflexivity|apply IH; reflexivity].
    + inversion 1 as [|? ? v vs' Hv Hvs]; subst. apply Ht in Hv. apply IH in Hvs.
      rewrite Hv, Hvs. reflexivity.
Qed.

Lemma sem_denotes : forall (bound : nat -> value -> Prop) env t,
  (forall r, In r (references t) -> forall v, env r = Some v <-> bound r v) ->
  forall v, sem env t = Some v <-> denotes bound t v.
Proof.
  intros bound env t. induction t as [c|r|f t IH|f l r IHl IHr|f a b c IHa IHb IHc|f ts IH]
    using tree_induction; intros Hb v; cbn [sem references] in *.
  - split; [intros E; injection E as <-; constructor|inversion 1; reflexivity].
  - rewrite (Hb r (or_introl eq_refl)). split; [constructor; assumption|inversion 1; assumption].
  - specialize (IH Hb). split.
    + destruct (sem env t) as [w|]; [|discriminate]. intros E. econstructor; [|exact E].
      apply IH; reflexivity.
    + inversion 1 as [| |? ? w ? Hw He| | |]; subst. apply IH in Hw. rewrite Hw. exact He.
  - specialize (IHl (fun r Hr => Hb r (in_or_app _ _ _ (or_introl Hr)))).
    specialize (IHr (fun r Hr => Hb r (in_or_app _ _ _ (or_intror Hr)))). split.
    + destruct (sem env l) as [w1|]; [|discriminate]. destruct (sem env r) as [w2|]; [|discriminate].
      intros E. econstructor; [apply IHl; reflexivity|apply IHr; reflexivity|exact E].
    + inversion 1 as [| | |? ? ? w1 w2 ? H1 H2 He| |]; subst. apply IHl in H1. apply IHr in H2.
      rewrite H1, H2. exact He.
  - specialize (IHa (fun r Hr => Hb r (in_or_app _ _ _ (or_introl Hr)))).
    specialize (IHb (fun r Hr => Hb r (in_or_app _ _ _ (or_intror (in_or_app _ _ _ (or_introl Hr)))))).
    specialize (IHc (fun r Hr => Hb r (in_or_app _ _ _ (or_intror (in_or_app _ _ _ (or_intror Hr)))))).
    split.
    + destruct (sem env a) as [w1|]; [|discriminate]. destruct (sem env b) as [w2|]; [|discriminate].
      destruct (sem env c) as [w3|]; [|discriminate].
      intros E. econstructor; [apply IHa|apply IHb|apply IHc|exact E]; reflexivity.
    + inversion 1 as [| | | |? ? ? ? w1 w2 w3 ? H1 H2 H3 He|]; subst.
      apply IHa in H1. apply IHb in H2. apply IHc in H3. rewrite H1, H2, H3. exact He.
  - assert (HF : Forall (fun t => forall v, sem env t = Some v <-> denotes bound t v) ts).
    { rewrite Forall_forall in *. intros t Ht. apply IH; [exact Ht|].
      intros r Hr. apply Hb. apply in_flat_map. exists t. auto. }
    pose proof (collect_denotes bound env ts HF) as Hcol. split.
    + destruct (collect (map (sem env) ts)) as [vs|]; [|discriminate].
      intros E. econstructor; [apply Hcol; reflexivity|exact E].
    + inversion 1 as [| | | | |? ? vs ? Hvs He]; subst. apply Hcol in Hvs. rewrite Hvs. exact He.
Qed.

(* ---------- compilation ---------- *)

Lemma find_index_spec : forall (l : list nat) r i, find_index r l = Some i -> nth_error l i = Some r.
Proof.
  induction l as [|x l IH]; intros r i H; cbn in H; [discriminate|].
  destruct (x =? r) eqn:E.
  - injection H as <-. apply Nat.eqb_eq in E. subst. reflexivity.
  - destruct (find_index r l) as [j|] eqn:Ej; [|discriminate]. injection H as <-. cbn. auto.
Qed.

Lemma find_index_in : forall (l : list nat) r, In r l -> exists i, find_index r l = Some i.
Proof.
  induction l as [|x l IH]; intros r H; [destruct H|]. cbn.
  destruct (x =? r) eqn:E; [eexists; reflexivity|].
  destruct H as [->|H]; [rewrite Nat.eqb_refl in E; discriminate|].
  destruct (IH r H) as [i ->]. eexists. reflexivity.
Qed.

Lemma find_index_none : forall (l : list nat) r, find_index r l = None -> ~ In r l.
Proof. intros l r H Hin. destruct (find_index_in l r Hin) as [i Hi]. congruence. Qed.

Lemma nth_error_NoDup : forall A (l : list A) i j x, NoDup l ->
  nth_error l i = Some x -> nth_error l j = Some x -> i = j.
Proof.
  intros A l i j x Hnd Hi Hj. eapply NoDup_nth_error; [exact Hnd| |congruence].
  apply nth_error_Some. congruence.
Qed.

Definition is_this (this : option nat) (r : nat) : bool :=
  match this with Some h => h =? r | None => false end.

Definition env_of (this : option nat) (thisv : option value) (refmap : list nat)
    (refs : list value) (r : nat) : option value :=
  if is_this this r then thisv
  else match find_index r refmap with Some i => nth_error refs i | None => None end.

Lemma env_of_binding : forall this thisv refmap refs r v, NoDup refmap ->
  env_of this thisv refmap refs r = Some v <-> binding this thisv refmap refs r v.
Proof.
  intros this thisv refmap refs r v Hnd. unfold env_of, binding, is_this.
  destruct this as [h|].
  - destruct (h =? r) eqn:E.
    + apply Nat.eqb_eq in E. subst. split; [auto|]. intros [[_ H]|[H _]]; [exact H|congruence].
    + apply Nat.eqb_neq in E. split.
      * intros H. right. split; [congruence|]. destruct (find_index r refmap) as [i|] eqn:Ei;
          [|discriminate]. exists i. split; [apply find_index_spec, Ei|exact H].
      * intros [[H _]|[_ (i & Hi & Hv)]]; [congruence|].
        destruct (find_index r refmap) as [j|] eqn:Ej.
        -- apply find_index_spec in Ej. rewrite (nth_error_NoDup _ refmap j i r Hnd Ej Hi). exact Hv.
        -- apply find_index_none in Ej. exfalso. apply Ej. eapply nth_error_In, Hi.
  - split.
    + intros H. right. split; [congruence|]. destruct (find_index r refmap) as [i|] eqn:Ei;
        [|discriminate]. exists i. split; [apply find_index_spec, Ei|exact H].
    + intros [[H _]|[_ (i & Hi & Hv)]]; [congruence|].
      destruct (find_index r refmap) as [j|] eqn:Ej.
      * apply find_index_spec in Ej. rewrite (nth_error_NoDup _ refmap j i r Hnd Ej Hi). exact Hv.
      * apply find_index_none in Ej. exfalso. apply Ej. eapply nth_error_In, Hi.
Qed.

Definition build_list (this : option nat) (refmap : list nat) :=
  fix go (ts : list tree) : res (list (sop L)) :=
    match ts with
    | [] => Ok []
    | t :: ts' => bind (build this refmap t) (fun o => bind (go ts') (fun o' => Ok (o ++ o')))
    end.

Lemma build_nar : forall this refmap f ts,
  build this refmap (Nar f ts) = bind (build_list this refmap ts) (fun o => Ok (o ++ [OpN f (length ts)])).
Proof. reflexivity. Qed.

Lemma build_exists : forall this refmap (t : tree),
  (forall r, In r (references t) -> this = Some r \/ In r refmap) ->
  exists o, build this refmap t = Ok o.
Proof.
  intros this refmap t. induction t as [c|r|f t IH|f l r IHl IHr|f a b c IHa IHb IHc|f ts IH]
    using tree_induction; intros H; cbn [references] in H.
  - eexists. reflexivity.
  - cbn [build]. fold (is_this this r). destruct (is_this this r) eqn:E; [eexists; reflexivity|].
    destruct (H r (or_introl eq_refl)) as [->|Hin].
    + cbn in E. rewrite Nat.eqb_refl in E. discriminate.
    + destruct (find_index_in refmap r Hin) as [i ->]. eexists. reflexivity.
  - destruct (IH H) as [o Ho]. cbn [build]. rewrite Ho. eexists. reflexivity.
  - destruct (IHl (fun r0 Hr => H r0 (in_or_app _ _ _ (or_introl Hr)))) as [o1 H1].
    destruct (IHr (fun r0 Hr => H r0 (in_or_app _ _ _ (or_intror Hr)))) as [o2 H2].
    cbn [build]. rewrite H1, H2. eexists. reflexivity.
  - destruct (IHa (fun r0 Hr => H r0 (in_or_app _ _ _ (or_introl Hr)))) as [o1 H1].
    destruct (IHb (fun r0 Hr => H r0 (in_or_app _ _ _ (or_intror (in_or_app _ _ _ (or_introl Hr)))))) as [o2 H2].
    destruct (IHc (fun r0 Hr => H r0 (in_or_app _ _ _ (or_intror (in_or_app _ _ _ (or_intror Hr)))))) as [o3 H3].
    cbn [build]. rewrite H1, H2, H3. eexists. reflexivity.
  - rewrite build_nar. assert (exists o, build_list this refmap ts = Ok o) as [o ->];
      [|eexists; reflexivity].
    induction IH as [|t ts Ht _ IHts]; [eexists; reflexivity|].
    destruct Ht as [o1 H1].
    { intros r Hr. apply H. cbn. apply in_or_app. auto. }
    destruct IHts as [o2 H2].
    { intros r Hr. apply H. cbn. apply in_or_app. auto. }
    cbn [build_list]. rewrite H1. cbn [bind]. fold (build_list this refmap). rewrite H2.
    eexists. reflexivity.
Qed.

(* the height check succeeds on compiled code *)
Lemma heights_list : forall (debug : bool) this refmap (ts : list tree) o,
  Forall (fun t : tree => forall o : list (sop L), build this refmap t = Ok o -> forall (rest : list (sop L)) h m,
            exists m', check_heights debug (o ++ rest) h m = check_heights debug rest (h + 1) m') ts ->
  build_list this refmap ts = Ok o -> forall (rest : list (sop L)) h m,
  exists m', check_heights debug (o ++ rest) h m = check_heights debug rest (h + length ts) m'.
Proof.
  intros debug this refmap ts. induction ts as [|t ts IH]; intros o HF Hb rest h m.
  - cbn in Hb. injection Hb as <-. cbn. exists m. rewrite Nat.add_0_r. reflexivity.
  - inversion HF as [|? ? Ht Hts]; subst. cbn [build_list] in Hb. fold (build_list this refmap) in Hb.
    destruct (build this refmap t) as [o1|] eqn:E1; cbn [bind] in Hb; [|discriminate].
    destruct (build_list this refmap ts) as [o2|] eqn:E2; cbn [bind] in Hb; [|discriminate].
    injection Hb as <-. rewrite <- app_assoc.
    destruct (Ht o1 eq_refl (o2 ++ rest) h m) as [m1 H1]. rewrite H1.
    destruct (IH o2 Hts eq_refl rest (h + 1) m1) as [m2 H2]. rewrite H2.
    exists m2. f_equal. cbn. lia.
Qed.

Lemma heights_tree : forall (debug : bool) this refmap (t : tree),
  (debug = true -> no_empty_application t) ->
  forall o : list (sop L), build this refmap t = Ok o -> forall (rest : list (sop L)) h m,
  exists m', check_heights debug (o ++ rest) h m = check_heights debug rest (h + 1) m'.
Proof.
  intros debug this refmap t. induction t as [c|r|f t IH|f l r IHl IHr|f a b c IHa IHb IHc|f ts IH]
    using tree_induction; intros Hne o Hb rest h m.
  - cbn in Hb. injection Hb as <-. cbn. eexists. reflexivity.
  - cbn [build] in Hb. fold (is_this this r) in Hb. destruct (is_this this r).
    + injection Hb as <-. cbn. eexists. reflexivity.
    + destruct (find_index r refmap); [|discriminate]. injection Hb as <-. cbn. eexists. reflexivity.
  - cbn [build] in Hb. destruct (build this refmap t) as [o1|] eqn:E1; cbn [bind] in Hb; [|discriminate].
    injection Hb as <-. rewrite <- app_assoc.
    destruct (IH Hne o1 eq_refl ([Op1 f] ++ rest) h m) as [m1 ->].
    cbn. replace (h + 1 =? 0) with false by (symmetry; apply Nat.eqb_neq; lia). eexists. reflexivity.
  - cbn [build] in Hb. destruct (build this refmap l) as [o1|] eqn:E1; cbn [bind] in Hb; [|discriminate].
    destruct (build this refmap r) as [o2|] eqn:E2; cbn [bind] in Hb; [|discriminate].
    injection Hb as <-. rewrite <- !app_assoc.
    destruct (IHl (fun H => proj1 (Hne H)) o1 eq_refl (o2 ++ [Op2 f] ++ rest) h m) as [m1 ->].
    destruct (IHr (fun H => proj2 (Hne H)) o2 eq_refl ([Op2 f] ++ rest) (h + 1) m1) as [m2 ->].
    cbn [check_heights app]. replace (h + 1 + 1 <=? 1) with false by (symmetry; apply Nat.leb_gt; lia).
    eexists. f_equal. lia.
  - cbn [build] in Hb. destruct (build this refmap a) as [o1|] eqn:E1; cbn [bind] in Hb; [|discriminate].
    destruct (build this refmap b) as [o2|] eqn:E2; cbn [bind] in Hb; [|discriminate].
    destruct (build this refmap c) as [o3|] eqn:E3; cbn [bind] in Hb; [|discriminate].
    injection Hb as <-. rewrite <- !app_assoc.
    destruct (IHa (fun H => proj1 (Hne H)) o1 eq_refl (o2 ++ o3 ++ [Op3 f] ++ rest) h m) as [m1 ->].
    destruct (IHb (fun H => proj1 (proj2 (Hne H))) o2 eq_refl (o3 ++ [Op3 f] ++ rest) (h + 1) m1) as [m2 ->].
    destruct (IHc (fun H => proj2 (proj2 (Hne H))) o3 eq_refl ([Op3 f] ++ rest) (h + 1 + 1) m2) as [m3 ->].
    cbn [check_heights app]. replace (h + 1 + 1 + 1 <=? 2) with false by (symmetry; apply Nat.leb_gt; lia).
    eexists. f_equal. lia.
  - rewrite build_nar in Hb. destruct (build_list this refmap ts) as [o1|] eqn:E1; cbn [bind] in Hb; [|discriminate].
    injection Hb as <-. rewrite <- app_assoc.
    assert (HF : Forall (fun t : tree => forall o : list (sop L), build this refmap t = Ok o -> forall (rest : list (sop L)) h m,
       exists m', check_heights debug (o ++ rest) h m = check_heights debug rest (h + 1) m') ts).
    { assert (Hne' : debug = true -> fold_right (fun t P => no_empty_application t /\ P) True ts).
      { intros H. exact (proj2 (Hne H)). }
      clear -IH Hne'. induction IH as [|t ts Ht _ IHts]; constructor.
      - intros o. apply Ht. intros H. exact (proj1 (Hne' H)).
      - apply IHts. intros H. exact (proj2 (Hne' H)). }
    destruct (heights_list debug this refmap ts o1 HF E1 ([OpN f (length ts)] ++ rest) h m) as [m1 ->].
    cbn [check_heights app].
    replace (h + length ts <? length ts) with false by (symmetry; apply Nat.ltb_ge; lia).
    destruct ts as [|t ts].
    + destruct debug.
      * exfalso. exact (proj1 (Hne eq_refl) eq_refl).
      * cbn. eexists. f_equal. lia.
    + cbn [length]. eexists. f_equal. lia.
Qed.

Lemma compile_exists : forall debug this refmap (t : tree),
  (forall r, In r (references t) -> this = Some r \/ In r refmap) ->
  (debug = true -> no_empty_application t) ->
  exists p, compile debug this refmap t = Ok p.
Proof.
  intros debug this refmap t Hr Hne. unfold compile.
  destruct (build_exists this refmap t Hr) as [o Ho]. rewrite Ho. cbn [bind].
  destruct (heights_tree debug this refmap t Hne o Ho [] 0 0) as [m Hm].
  unfold new_program. rewrite app_nil_r in Hm. rewrite Hm. cbn. eexists. reflexivity.
Qed.

Lemma compile_build : forall debug this refmap (t : tree) p,
  compile debug this refmap t = Ok p -> build this refmap t = Ok p.
Proof.
  intros debug this refmap t p H. unfold compile in H.
  destruct (build this refmap t) as [o|]; cbn [bind] in H; [|discriminate].
  unfold new_program in H. destruct (check_heights debug o 0 0); cbn [bind] in H; [|discriminate].
  injection H as <-. reflexivity.
Qed.

(* ---------- evaluation of compiled code ---------- *)

Lemma pop_n_app : forall (vs st : list value), pop_n (length vs) (vs ++ st) = Some (vs, st).
Proof.
  induction vs as [|v vs IH]; intros st; cbn; [reflexivity|]. rewrite IH. reflexivity.
Qed.

Lemma evaluate_list : forall this thisv refmap (refs : list value) (ts : list tree) o,
  Forall (fun t : tree => forall o : list (sop L), build this refmap t = Ok o -> forall rest st,
            evaluate (o ++ rest) refs thisv st =
            match sem (env_of this thisv refmap refs) t with
            | Some v => evaluate rest refs thisv (v :: st)
            | None => Ok None
            end) ts ->
  build_list this refmap ts = Ok o -> forall rest st,
  evaluate (o ++ rest) refs thisv st =
  match collect (map (sem (env_of this thisv refmap refs)) ts) with
  | Some vs => evaluate rest refs thisv (rev vs ++ st)
  | None => Ok None
  end.
Proof.
  intros this thisv refmap refs ts. induction ts as [|t ts IH]; intros o HF Hb rest st.
  - cbn in Hb. injection Hb as <-. reflexivity.
  - inversion HF as [|? ? Ht Hts]; subst. cbn [build_list] in Hb. fold (build_list this refmap) in Hb.
    destruct (build this refmap t) as [o1|] eqn:E1; cbn [bind] in Hb; [|discriminate].
    destruct (build_list this refmap ts) as [o2|] eqn:E2; cbn [bind] in Hb; [|discriminate].
    injection Hb as <-. rewrite <- app_assoc, (Ht o1 eq_refl). cbn [map collect].
    destruct (sem (env_of this thisv refmap refs) t) as [v|]; [|reflexivity].
    rewrite (IH o2 Hts eq_refl).
    destruct (collect (map (sem (env_of this thisv refmap refs)) ts)) as [vs|]; [|reflexivity].
    cbn [rev]. rewrite <- app_assoc. reflexivity.
Qed.

Lemma collect_length : forall (l : list (option value)) vs, collect l = Some vs -> length vs = length l.
Proof.
  induction l as [|[v|] l IH]; intros vs H; cbn in H; try discriminate.
  - injection H as <-. reflexivity.
  - destruct (collect l) as [vs'|]; [|discriminate]. injection H as <-. cbn. f_equal. auto.
Qed.

Lemma evaluate_tree : forall this thisv refmap (refs : list value) (t : tree),
  length refmap <= length refs ->
  forall o, build this refmap t = Ok o -> forall rest st,
  evaluate (o ++ rest) refs thisv st =
  match sem (env_of this thisv refmap refs) t with
  | Some v => evaluate rest refs thisv (v :: st)
  | None => Ok None
  end.
Proof.
  intros this thisv refmap refs t Hlen.
  induction t as [c|r|f t IH|f l r IHl IHr|f a b c IHa IHb IHc|f ts IH]
    using tree_induction; intros o Hb rest st.
  - cbn in Hb. injection Hb as <-. reflexivity.
  - cbn [build] in Hb. fold (is_this this r) in Hb. cbn [sem]. unfold env_of.
    destruct (is_this this r).
    + injection Hb as <-. cbn. destruct thisv; reflexivity.
    + destruct (find_index r refmap) as [i|] eqn:Ei; [|discriminate]. injection Hb as <-. cbn.
      destruct (nth_error refs i) as [v|] eqn:En; [reflexivity|].
      apply nth_error_None in En. apply find_index_spec in Ei.
      assert (i < length refmap) by (apply nth_error_Some; congruence). lia.
  - cbn [build] in Hb. destruct (build this refmap t) as [o1|] eqn:E1; cbn [bind] in Hb; [|discriminate].
    injection Hb as <-. rewrite <- app_assoc, (IH o1 eq_refl). cbn [sem].
    destruct (sem (env_of this thisv refmap refs) t) as [v|]; [|reflexivity].
    cbn. destruct (ev1 L f v); reflexivity.
  - cbn [build] in Hb. destruct (build this refmap l) as [o1|] eqn:E1; cbn [bind] in Hb; [|discriminate].
    destruct (build this refmap r) as [o2|] eqn:E2; cbn [bind] in Hb; [|discriminate].
    injection Hb as <-. rewrite <- !app_assoc, (IHl o1 eq_refl). cbn [sem].
    destruct (sem (env_of this thisv refmap refs) l) as [v|]; [|reflexivity].
    rewrite (IHr o2 eq_refl).
    destruct (sem (env_of this thisv refmap refs) r) as [w|]; [|reflexivity].
    cbn. destruct (ev2 L f v w); reflexivity.
  - cbn [build] in Hb. destruct (build this refmap a) as [o1|] eqn:E1; cbn [bind] in Hb; [|discriminate].
    destruct (build this refmap b) as [o2|] eqn:E2; cbn [bind] in Hb; [|discriminate].
    destruct (build this refmap c) as [o3|] eqn:E3; cbn [bind] in Hb; [|discriminate].
    injection Hb as <-. rewrite <- !app_assoc, (IHa o1 eq_refl). cbn [sem].
    destruct (sem (env_of this thisv refmap refs) a) as [v|]; [|reflexivity].
    rewrite (IHb o2 eq_refl).
    destruct (sem (env_of this thisv refmap refs) b) as [w|]; [|reflexivity].
    rewrite (IHc o3 eq_refl).
    destruct (sem (env_of this thisv refmap refs) c) as [u|]; [|reflexivity].
    cbn. destruct (ev3 L f v w u); reflexivity.
  - rewrite build_nar in Hb. destruct (build_list this refmap ts) as [o1|] eqn:E1; cbn [bind] in Hb; [|discriminate].
    injection Hb as <-. rewrite <- app_assoc.
    rewrite (evaluate_list this thisv refmap refs ts o1 IH E1). cbn [sem].
    destruct (collect (map (sem (env_of this thisv refmap refs)) ts)) as [vs|] eqn:Ec; [|reflexivity].
    cbn [evaluate app].
    assert (Hl : length ts = length (rev vs)).
    { rewrite rev_length. apply collect_length in Ec. rewrite map_length in Ec. lia. }
    rewrite Hl, pop_n_app, rev_involutive. destruct (evn L f vs); reflexivity.
Qed.

Lemma compile_evaluate : forall debug this thisv refmap refs (t : tree) p,
  compile debug this refmap t = Ok p -> length refmap <= length refs ->
  evaluate p refs thisv [] = Ok (sem (env_of this thisv refmap refs) t).
Proof.
  intros debug this thisv refmap refs t p Hc Hlen. apply compile_build in Hc.
  pose proof (evaluate_tree this thisv refmap refs t Hlen p Hc [] []) as H.
  rewrite app_nil_r in H. rewrite H.
  destruct (sem (env_of this thisv refmap refs) t); reflexivity.
Qed.

Lemma compile_denotes : forall debug this thisv refmap refs (t : tree) p,
  compile debug this refmap t = Ok p -> NoDup refmap -> length refmap <= length refs ->
  exists o, evaluate p refs thisv [] = Ok o /\
            forall v, o = Some v <-> denotes (binding this thisv refmap refs) t v.
Proof.
  intros debug this thisv refmap refs t p Hc Hnd Hlen.
  exists (sem (env_of this thisv refmap refs) t). split; [eapply compile_evaluate; eassumption|].
  intros v. apply sem_denotes. intros r _ w. apply env_of_binding, Hnd.
Qed.

(* ---------- renaming ---------- *)

Lemma evaluate_rename : forall (map : nat -> option nat) (ops : list (sop L)) refs refs' this st,
  (forall i, nth_error refs' (match map i with Some j => j | None => i end) = nth_error refs i) ->
  evaluate (rename_references map ops) refs' this st = evaluate ops refs this st.
Proof.
  intros map ops. induction ops as [|op ops IH]; intros refs refs' this st H; [reflexivity|].
  change (rename_references map (op :: ops)) with (rename_op map op :: rename_references map ops).
  assert (Hp : forall (o : option value) st', match o with
               | Some v => evaluate (rename_references map ops) refs' this (v :: st')
               | None => Ok None end =
             match o with
               | Some v => evaluate ops refs this (v :: st')
               | None => Ok None end).
  { intros [v|] st'; [apply IH, H|reflexivity]. }
  destruct op as [[v|i|]|f|f|f|f n]; cbn [rename_op rename_svalue evaluate].
  - apply IH, H.
  - rewrite H. destruct (nth_error refs i); [apply IH, H|reflexivity].
  - apply Hp.
  - destruct (pop st) as [[v st']|]; [apply Hp|reflexivity].
  - destruct (pop_n 2 st) as [[[|v [|w [|u vs]]] st']|]; try reflexivity. apply Hp.
  - destruct (pop_n 3 st) as [[[|v [|w [|u [|z vs]]]] st']|]; try reflexivity. apply Hp.
  - destruct (pop_n n st) as [[vs st']|]; [apply Hp|reflexivity].
Qed.

End Proofs.
Arguments sem {L}. Arguments env_of {L}. Arguments collect {L}.
