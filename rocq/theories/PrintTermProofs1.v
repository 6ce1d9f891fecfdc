(** Grouping to the left. *)
From Coq Require Import String List Arith ZArith Bool Ascii Lia.
From Verif Require Import ParseModel ParseSpec NumLitSpec PrintTermModel PrintTermSpec.
Import ListNotations.
Local Open Scope list_scope.

Section PtermInd.
  Variable P : pterm -> Prop.
  Hypotheses (Hv : forall k n, P (PVar k n)) (Ha : P PAnon) (Hi : forall z, P (PInt z)) (Hr : forall t, P (PIri t))
    (Hf : forall t args, Forall P args -> P (PFun t args)) (Ht : forall args, Forall P args -> P (PTuple args))
    (Ho : forall k args, Forall P args -> P (POp k args)).
  Fixpoint pterm_induction (p : pterm) : P p.
  Proof.
    assert (L : forall l : list pterm, Forall P l) by (fix go 1; intros [|x l]; constructor; [apply pterm_induction|apply go]).
    destruct p as [k n| |z|t|t args|args|k args]; [apply Hv|apply Ha|apply Hi|apply Hr|apply Hf, L|apply Ht, L|apply Ho, L].
  Defined.
End PtermInd.

Lemma text_eqb_eq a b : text_eqb a b = true <-> a = b.
Proof. unfold text_eqb. destruct (list_eq_dec ascii_dec a b); split; congruence. Qed.

Definition group_eqb (a b : group) : bool := match a, b with Additive, Additive | Multiplicative, Multiplicative => true | _, _ => false end.
Definition gkind (k : text) : option group := option_map snd (find (fun x => text_eqb (fst x) k) arithmetic_kinds).
Lemma gkind_iff k g : gkind k = Some g <-> In (k, g) arithmetic_kinds.
Proof.
  unfold gkind. split.
  - destruct (find _ _) as [[a b]|] eqn:E; [|discriminate]. cbn. intros [= <-]. apply find_some in E. destruct E as (H & E). apply text_eqb_eq in E. cbn in E. now subst.
  - intros H. unfold arithmetic_kinds in H. cbn [In] in H. destruct H as [H|[H|[H|[H|[]]]]]; injection H as <- <-; reflexivity.
Qed.
Lemma gkind_fun k g g' : In (k, g) arithmetic_kinds -> In (k, g') arithmetic_kinds -> g = g'.
Proof. rewrite <- !gkind_iff. congruence. Qed.

Definition same_group (k k2 : text) : bool := match gkind k, gkind k2 with Some a, Some b => group_eqb a b | _, _ => false end.
Fixpoint pattach (k : text) (a b : pterm) : pterm :=
  match b with
  | POp k2 [x; y] => if same_group k k2 then POp k2 [pattach k a x; y] else POp k [a; b]
  | _ => POp k [a; b]
  end.
Definition build (k : text) (l : list pterm) : pterm :=
  match gkind k, l with Some _, [a; b] => pattach k a b | _, _ => POp k l end.
Fixpoint regroup (p : pterm) : pterm :=
  match p with
  | PFun t args => PFun t (map regroup args)
  | PTuple args => PTuple (map regroup args)
  | POp k args => build k (map regroup args)
  | p => p
  end.

Lemma group_eqb_eq a b : group_eqb a b = true <-> a = b.
Proof. destruct a, b; cbn; split; congruence. Qed.
Lemma same_group_iff k k2 g : In (k, g) arithmetic_kinds -> (same_group k k2 = true <-> In (k2, g) arithmetic_kinds).
Proof. intros H. apply gkind_iff in H. unfold same_group. rewrite H, <- gkind_iff. destruct (gkind k2) as [b|]; [|split; discriminate]. rewrite group_eqb_eq. split; congruence. Qed.
Lemma pattach_not k g a b : In (k, g) arithmetic_kinds -> ~ in_group g b -> pattach k a b = POp k [a; b].
Proof.
  intros Hk H. destruct b as [| | | | | |k2 [|x [|y [|? ?]]]]; try reflexivity. cbn. destruct (same_group k k2) eqn:E; auto.
  apply (same_group_iff _ _ g Hk) in E. exfalso. apply H. now exists k2, x, y.
Qed.
Lemma pattach_op k g a k2 x y : In (k, g) arithmetic_kinds -> In (k2, g) arithmetic_kinds -> pattach k a (POp k2 [x; y]) = POp k2 [pattach k a x; y].
Proof. intros H H2. cbn. now rewrite (proj2 (same_group_iff k k2 g H)). Qed.
Lemma in_group_dec g p : {in_group g p} + {~ in_group g p}.
Proof.
  destruct p as [| | | | | |k [|x [|y [|? ?]]]]; try (right; intros (k' & a & b & E & _); discriminate).
  destruct (gkind k) as [g'|] eqn:E; [destruct (group_eqb g' g) eqn:G|].
  - left. apply group_eqb_eq in G. subst. apply gkind_iff in E. now exists k, x, y.
  - right. intros (k' & a & b & [= <- <- <-] & H). apply gkind_iff in H. rewrite H in E. injection E as <-. assert (group_eqb g g = true) by now apply group_eqb_eq. congruence.
  - right. intros (k' & a & b & [= <- <- <-] & H). apply gkind_iff in H. congruence.
Qed.

Lemma left_grouped_app f l l' : left_grouped f (l ++ l') = left_grouped (left_grouped f l) l'.
Proof. apply fold_left_app. Qed.
Lemma pattach_fold k g a : In (k, g) arithmetic_kinds -> forall l f, ~ in_group g f -> Forall (fun x => In (fst x, g) arithmetic_kinds) l ->
  pattach k a (left_grouped f l) = left_grouped a ((k, f) :: l).
Proof.
  intros Hk l. induction l as [|[k2 x] l IH] using rev_ind; intros f Hf Hl; [now apply (pattach_not _ g)|].
  apply Forall_app in Hl. destruct Hl as (Hl & Hx). apply Forall_inv in Hx. cbn in Hx.
  assert (E : forall h, left_grouped h (l ++ [(k2, x)]) = POp k2 [left_grouped h l; x]) by (intros h; now rewrite left_grouped_app).
  rewrite E, (pattach_op _ g), IH by auto. change (left_grouped a ((k, f) :: l ++ [(k2, x)])) with (left_grouped (POp k [a; f]) (l ++ [(k2, x)])). now rewrite E.
Qed.

Lemma regroup_in_group g p : in_group g (regroup p) <-> in_group g p.
Proof.
  destruct p as [| | | | | |k args]; try reflexivity; try (split; intros (k' & a & b & E & _); discriminate).
  cbn. unfold build. destruct (gkind k) as [g'|] eqn:G.
  - apply gkind_iff in G. destruct args as [|a [|b [|c args]]]; try (split; intros (k' & x & y & E & _); discriminate). cbn.
    enough (K : exists k' x y, pattach k (regroup a) (regroup b) = POp k' [x; y] /\ In (k', g') arithmetic_kinds).
    { destruct K as (k' & x & y & -> & K). split; intros (k'' & x' & y' & [= <- <- <-] & H).
      - exists k, a, b. split; auto. now rewrite (gkind_fun _ _ _ H K).
      - exists k', x, y. split; auto. now rewrite (gkind_fun _ _ _ H G). }
    destruct (in_group_dec g' (regroup b)) as [(k2 & x & y & E & H)|H].
    + rewrite E, (pattach_op _ g') by auto. eauto 6.
    + rewrite (pattach_not _ g') by auto. eauto 6.
  - replace (match map regroup args with [] | _ => POp k (map regroup args) end) with (POp k (map regroup args)) by (destruct args; reflexivity).
    split; intros (k' & x & y & [= <- E] & H); apply gkind_iff in H; congruence.
Qed.

Definition pair_regrouped (x y : text * pterm) : Prop := fst x = fst y /\ regrouped (snd x) (snd y).
(** What regrouping an operation gives. *)
Definition chain_of (g : group) (p : pterm) : Prop := exists f l f' l', operands g p f l /\ regrouped f f' /\ Forall2 pair_regrouped l l' /\
  regroup p = left_grouped f' l' /\ ~ in_group g f' /\ Forall (fun x => In (fst x, g) arithmetic_kinds) l'.
Lemma regroup_ok p : regrouped p (regroup p) /\ forall g, chain_of g p.
Proof.
  assert (C : forall p, regrouped p (regroup p) -> forall g, ~ in_group g p -> chain_of g p).
  { intros q H g Hn. exists q, [], (regroup q), []. split; [now apply o_one|]. split; auto. split; [constructor|]. split; auto. split; [now rewrite regroup_in_group|constructor]. }
  assert (Fl : forall args, Forall (fun p => regrouped p (regroup p) /\ forall g, chain_of g p) args -> Forall2 regrouped args (map regroup args)).
  { intros args H. induction H; cbn; constructor; tauto. }
  assert (B : forall p, regroup p = p -> regrouped p p -> (forall g, ~ in_group g p) -> regrouped p (regroup p) /\ forall g, chain_of g p).
  { intros q E H Hn. assert (R : regrouped q (regroup q)) by now rewrite E. split; auto. }
  assert (N : forall p, match p with POp _ _ => False | _ => True end -> forall g, ~ in_group g p) by (intros q Hp g (? & ? & ? & -> & _); exact Hp).
  induction p as [k n| |z|t|t args IH|args IH|k args IH] using pterm_induction.
  - apply B; [reflexivity|constructor|now apply N].
  - apply B; [reflexivity|constructor|now apply N].
  - apply B; [reflexivity|constructor|now apply N].
  - apply B; [reflexivity|constructor|now apply N].
  - assert (R : regrouped (PFun t args) (regroup (PFun t args))) by (apply rg_fun; auto). split; [exact R|]. intros g. apply C; [exact R|now apply N].
  - assert (R : regrouped (PTuple args) (regroup (PTuple args))) by (apply rg_tuple; auto). split; [exact R|]. intros g. apply C; [exact R|now apply N].
  - assert (M : {g | in_group g (POp k args)} + {forall g, ~ in_group g (POp k args)}).
    { destruct (in_group_dec Additive (POp k args)) as [H|H]; [left; eauto|]. destruct (in_group_dec Multiplicative (POp k args)) as [H'|H']; [left; eauto|]. right. intros []; auto. }
    destruct M as [(g & H)|H].
    + assert (K : chain_of g (POp k args)).
      { destruct H as (k' & a & b & [= <- ->] & Hk). apply Forall_inv_tail in IH as IHb. apply Forall_inv in IH. apply Forall_inv in IHb.
        destruct IH as (_ & IHa). destruct IHb as (_ & IHb). specialize (IHa g). specialize (IHb g). destruct IHa as (f & l & f' & l' & Ho & Hf & Hl & E & Hn & Hg). destruct IHb as (h & m & h' & m' & Ho' & Hh & Hm & E' & Hn' & Hg').
        exists f, (l ++ (k, h) :: m), f', (l' ++ (k, h') :: m'). split; [now apply o_more|]. split; auto. split; [apply Forall2_app; auto; constructor; [split; auto|auto]|]. split; [|split; auto].
        - cbn. unfold build. rewrite (proj2 (gkind_iff k g)) by auto. rewrite E', (pattach_fold _ g) by auto. now rewrite left_grouped_app, E.
        - apply Forall_app. auto. }
      assert (R : regrouped (POp k args) (regroup (POp k args))).
      { destruct K as (f & l & f' & l' & Ho & Hf & Hl & E & _). rewrite E. now apply (rg_group g _ f l). }
      split; auto. intros g'. destruct (group_eqb g' g) eqn:G; [apply group_eqb_eq in G; now subst|].
      apply C; auto. intros (k' & a & b & [= <- ->] & H'). destruct H as (k' & a' & b' & [= <- <- <-] & H). rewrite (gkind_fun _ _ _ H H') in G. assert (group_eqb g' g' = true) by now apply group_eqb_eq. congruence.
    + assert (R : regrouped (POp k args) (regroup (POp k args))).
      { replace (regroup (POp k args)) with (POp k (map regroup args)); [apply rg_op; auto|]. cbn. unfold build. destruct (gkind k) as [g|] eqn:G; [|now destruct (map regroup args)].
        destruct args as [|a [|b [|c args]]]; try reflexivity. exfalso. apply gkind_iff in G. apply (H g). now exists k, a, b. }
      split; auto.
Qed.

(** ** Terms grouped to the left *)
Fixpoint size (p : pterm) : nat :=
  match p with PFun _ l | PTuple l | POp _ l => S (list_sum (map size l)) | _ => 1 end.
Lemma size_pattach k a : forall b, size (pattach k a b) = S (size a + size b).
Proof.
  fix IH 1. intros b. destruct b as [| | | | | |k2 [|x [|y [|? ?]]]]; try (cbn; lia).
  assert (E : size (pattach k a x) = S (size a + size x)) by apply IH. clear IH. cbn [pattach]. destruct (same_group k k2); cbn -[pattach]; [rewrite E|]; lia.
Qed.
Lemma size_regroup p : size (regroup p) = size p.
Proof.
  assert (L : forall args, Forall (fun p => size (regroup p) = size p) args -> list_sum (map size (map regroup args)) = list_sum (map size args)).
  { intros args H. unfold list_sum. induction H; cbn; lia. }
  induction p as [| | | |t args IH|args IH|k args IH] using pterm_induction; auto; cbn; try now rewrite L.
  unfold build. assert (E : size (POp k (map regroup args)) = S (list_sum (map size args))) by (cbn; now rewrite L).
  destruct (gkind k); [|now destruct (map regroup args)]. destruct args as [|a [|b [|c args]]]; auto. rewrite <- E. cbn. rewrite size_pattach. lia.
Qed.
Lemma map_fixed {A} (f : A -> A) l : map f l = l <-> forall x, In x l -> f x = x.
Proof.
  induction l as [|a l IH]; cbn; [split; [intros _ ? []|auto]|]. split.
  - intros [= E E'] x [<-|H]; auto. now apply IH.
  - intros H. f_equal; [now apply H; left|apply IH; auto].
Qed.
Lemma regroup_fixed p : regroup p = p <-> groups_left p.
Proof.
  induction p as [k n| |z|t|t args IH|args IH|k args IH] using pterm_induction; try (split; [constructor|reflexivity]).
  - rewrite Forall_forall in IH. split.
    + intros [= E]. apply g_fun. intros x Hx. apply IH; auto. eapply map_fixed; eauto.
    + intros H. inversion H as [| | | |? ? H'| |]; subst. cbn. f_equal. apply map_fixed. intros x Hx. apply IH; auto.
  - rewrite Forall_forall in IH. split.
    + intros [= E]. apply g_tuple. intros x Hx. apply IH; auto. eapply map_fixed; eauto.
    + intros H. inversion H as [| | | | |? H'|]; subst. cbn. f_equal. apply map_fixed. intros x Hx. apply IH; auto.
  - rewrite Forall_forall in IH. split.
    + intros E. cbn in E. unfold build in E. destruct (gkind k) as [g|] eqn:G; [apply gkind_iff in G|].
      * destruct args as [|a [|b [|c args]]].
        -- apply g_op; [intros ? []|discriminate].
        -- cbn in E. injection E as E. apply g_op; [|discriminate]. intros x [<-|[]]. apply IH; [now left|auto].
        -- cbn [map] in E. destruct (in_group_dec g (regroup b)) as [(k2 & x & y & Eb & H2)|H2].
           ++ rewrite Eb, (pattach_op _ g) in E by auto. injection E as E1 E2 E3. exfalso.
              assert (S1 : size (regroup b) = size b) by apply size_regroup. rewrite Eb, <- E3 in S1. cbn in S1. lia.
           ++ rewrite (pattach_not _ g) in E by auto. injection E as E1 E2. apply g_op; [intros x [<-|[<-|[]]]; apply IH; cbn; auto|].
              intros a' b' g' [= <- <-] Hg Hb. rewrite (gkind_fun _ _ _ Hg G) in Hb. apply H2. now rewrite regroup_in_group.
        -- cbn in E. injection E as E1 E2 E3 E4. apply g_op; [|discriminate]. intros x [<-|[<-|[<-|H]]]; apply IH; cbn; auto. eapply map_fixed; eauto.
      * assert (E' : map regroup args = args) by (destruct (map regroup args); now injection E). apply g_op; [intros x Hx; apply IH; auto; eapply map_fixed; eauto|].
        intros a b g _ Hg. apply gkind_iff in Hg. congruence.
    + intros H. inversion H as [| | | | | |? ? Ha Hg]; subst. assert (E : map regroup args = args) by (apply map_fixed; intros x Hx; apply IH; auto).
      cbn. rewrite E. unfold build. destruct (gkind k) as [g|] eqn:G; [|now destruct args]. destruct args as [|a [|b [|c args]]]; auto.
      apply gkind_iff in G. rewrite (pattach_not _ g); auto. eapply Hg; eauto.
Qed.

(** ** The relation is a function *)
Lemma operands_unique g p f l : operands g p f l -> forall f' l', operands g p f' l' -> f = f' /\ l = l'.
Proof.
  induction 1 as [p H|k a b f l h m Hk Ha IHa Hb IHb]; intros f' l' H'.
  - inversion H' as [|k a b f l h m Hk Ha Hb]; subst; auto. exfalso. apply H. now exists k, a, b.
  - inversion H' as [q Hn|k' a' b' f0 l0 h0 m0 Hk' Ha' Hb']; subst; [exfalso; apply Hn; now exists k, a, b|].
    destruct (IHa _ _ Ha') as (-> & ->). destruct (IHb _ _ Hb') as (-> & ->). auto.
Qed.
Lemma operands_size g p f l : operands g p f l -> size f <= size p /\ Forall (fun x => size (snd x) < size p) l /\ (l <> [] -> size f < size p).
Proof.
  induction 1 as [p H|k a b f l h m Hk Ha (IHa & IHa' & _) Hb (IHb & IHb' & _)]; [repeat split; auto; congruence|].
  assert (E : size (POp k [a; b]) = S (size a + size b)) by (cbn; lia). rewrite E. split; [lia|]. split; [|lia].
  apply Forall_app. split; [eapply Forall_impl; [|exact IHa']; cbn; lia|]. constructor; [cbn; lia|]. eapply Forall_impl; [|exact IHb']; cbn; lia.
Qed.
Lemma regrouped_is p : forall q, regrouped p q -> q = regroup p.
Proof.
  assert (L : forall N, (forall p, size p < N -> forall q, regrouped p q -> q = regroup p) -> forall l l', list_sum (map size l) < N -> Forall2 regrouped l l' -> l' = map regroup l).
  { intros N H l. induction l as [|a l IH]; intros l' Hs Hl; inversion Hl as [|? b ? m Hab Hm]; subst; auto. unfold list_sum in *. cbn in *. f_equal; [apply H; auto; lia|apply IH; auto; lia]. }
  enough (K : forall N p, size p < N -> forall q, regrouped p q -> q = regroup p) by (apply (K (S (size p)) p); lia).
  induction N as [|N IH]; intros r Hr q H; [lia|].
  inversion H as [| | | |t args args' Ha|args args' Ha|k args args' H1 H2 Ha|g r' f l f' l' Hg Ho Hf Hl]; subst; auto.
  - cbn. f_equal. apply (L N IH); auto. cbn in Hr. lia.
  - cbn. f_equal. apply (L N IH); auto. cbn in Hr. lia.
  - rewrite (L N IH args args') by (auto; cbn in Hr; lia). cbn. unfold build. destruct (gkind k) as [g|] eqn:G; [|now destruct (map regroup args)].
    destruct args as [|a [|b [|c args]]]; try reflexivity. exfalso. apply gkind_iff in G. destruct g; [apply H1|apply H2]; now exists k, a, b.
  - destruct (proj2 (regroup_ok r) g) as (f0 & l0 & f0' & l0' & Ho' & Hf' & Hl' & E & _). rewrite E.
    destruct (operands_unique _ _ _ _ Ho _ _ Ho') as (<- & <-). clear Ho'.
    destruct (operands_size _ _ _ _ Ho) as (S1 & S2 & S3).
    assert (Hn : l <> []) by (intros ->; inversion Ho; subst; [contradiction|match goal with E : ?a ++ _ :: _ = [] |- _ => now destruct a end]).
    specialize (S3 Hn). rewrite (IH f ltac:(lia) f' Hf), (IH f ltac:(lia) f0' Hf'). f_equal.
    clear -Hl Hl' S2 IH Hr. revert l0' Hl'. induction Hl as [|x y l l' Hxy Hl IHl]; intros m Hm; inversion Hm as [|? z ? m' Hz Hm']; subst; auto.
    apply Forall_inv in S2 as S3. apply Forall_inv_tail in S2. f_equal; auto. destruct x as [k1 p1], y as [k2 p2], z as [k3 p3], Hxy as [E1 R1], Hz as [E2 R2]. cbn in *. assert (p2 = regroup p1) by (apply IH; [lia|auto]). assert (p3 = regroup p1) by (apply IH; [lia|auto]). congruence.
Qed.
Lemma regroup_idempotent p : regroup (regroup p) = regroup p.
Proof.
  assert (L : forall args, Forall (fun p => regroup (regroup p) = regroup p) args -> map regroup (map regroup args) = map regroup args).
  { intros args H. induction H; cbn; f_equal; auto. }
  assert (B : forall k a b, regroup a = a -> regroup b = b -> gkind k <> None -> regroup (pattach k a b) = pattach k a b).
  { intros k a b Ha.
    assert (N : forall g b, gkind k = Some g -> regroup b = b -> ~ in_group g b -> regroup (pattach k a b) = pattach k a b).
    { intros g d G Hd H. apply gkind_iff in G as Hg. rewrite (pattach_not k g) by auto. cbn [regroup map]. rewrite Ha, Hd. unfold build. rewrite G. now apply (pattach_not k g). }
    induction b as [k0 n0| |z0|t0|t0 l0 _|l0 _|k2 l0 IHl] using pterm_induction; intros Hb Hk;
      (destruct (gkind k) as [g|] eqn:G; [|congruence]); assert (Hg := proj1 (gkind_iff k g) G);
      (match goal with |- regroup (pattach k a ?b) = _ => destruct (in_group_dec g b) as [H|H];
        [|now apply (N g)] end);
      try (exfalso; destruct H as (? & ? & ? & E & _); discriminate).
    destruct l0 as [|x [|y [|z l]]]; try (exfalso; destruct H as (? & ? & ? & E & _); discriminate).
    assert (H2 : In (k2, g) arithmetic_kinds) by (destruct H as (? & ? & ? & E & H2); now injection E as -> _ _).
    apply regroup_fixed in Hb. inversion Hb as [| | | | | |? ? H3 H4]; subst.
    assert (Hx : regroup (pattach k a x) = pattach k a x) by (apply (Forall_inv IHl); [apply regroup_fixed, H3; now left|congruence]).
    assert (Hy : regroup y = y) by (apply regroup_fixed, H3; right; now left).
    rewrite (pattach_op k g) by auto. cbn [regroup map]. rewrite Hx, Hy. unfold build. rewrite (proj2 (gkind_iff k2 g)) by auto.
    apply (pattach_not k2 g); auto. eapply H4; eauto. }
  induction p as [k n| |z|t|t args IH|args IH|k args IH] using pterm_induction; auto; cbn [regroup]; try now rewrite L.
  unfold build. destruct (gkind k) as [g|] eqn:G.
  - destruct args as [|a [|b [|c args]]]; cbn [map].
    + cbn [regroup map]. unfold build. now rewrite G.
    + cbn [regroup map]. unfold build. rewrite G. now rewrite (Forall_inv IH).
    + apply B; [exact (Forall_inv IH)|exact (Forall_inv (Forall_inv_tail IH))|congruence].
    + specialize (L _ IH). cbn [map] in L. cbn [regroup map]. unfold build. rewrite G. now rewrite L.
  - assert (E : regroup (POp k (map regroup args)) = POp k (map regroup args)) by (cbn [regroup]; unfold build; rewrite G; rewrite (L _ IH); now destruct (map regroup args)). now destruct (map regroup args).
Qed.
