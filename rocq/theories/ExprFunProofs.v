(* The functions of ExprFunModel.v announce the types of their results, and satisfy the laws that
   the filter operator relies on. *)
From Coq Require Import List ZArith Bool Lia.
From Verif Require Import IntModel ExprModel ExprSpec ExprFunModel.
Import ListNotations.

Section Proofs.
Context (O : float_ops) (small : dvalue O -> bool).
Notation L := (nemo small).
Notation stored := (storage_type small).

Lemma contains_union : forall a b t, types_contains (types_union a b) t = types_contains a t || types_contains b t.
Proof. intros a b []; reflexivity. Qed.
Lemma contains_inter : forall a b t, types_contains (types_inter a b) t = types_contains a t && types_contains b t.
Proof. intros a b []; reflexivity. Qed.
Lemma contains_single : forall s t, types_contains (types_single s) t = stype_eqb s t.
Proof. intros [] []; reflexivity. Qed.
Lemma contains_full : forall t, types_contains types_full t = true.
Proof. intros []; reflexivity. Qed.

Lemma types_eqb_eq : forall a b, types_eqb a b = true -> a = b.
Proof. intros [[] [] [] [] []] [[] [] [] [] []] H; cbn in H; try discriminate; reflexivity. Qed.

Lemma unique_one : forall t a b, types_is_unique t = true -> types_contains t a = true -> types_contains t b = true -> a = b.
Proof. intros [[] [] [] [] []] [] [] H Ha Hb; cbn in *; try discriminate; reflexivity. Qed.

(* NumericUpcast announces the common type of the arguments, or Double if they differ *)
Lemma upcast_contains : forall ts first rest, ts = first :: rest -> forall s,
  types_contains (propagate NumericUpcast ts) s =
  (stype_eqb Int64 s && forallb (fun t => types_contains t Int64) ts) ||
  (stype_eqb SFloat s && forallb (fun t => types_contains t SFloat) ts) ||
  (stype_eqb SDouble s &&
     (existsb (fun t => negb (types_eqb t first) || (negb (types_is_unique t) && (1 <? length ts)%nat)) ts ||
      forallb (fun t => types_contains t SDouble) ts)).
Proof.
  intros ts first rest -> s. unfold propagate.
  destruct (forallb (fun t => types_contains t Int64) (first :: rest)),
    (forallb (fun t => types_contains t SFloat) (first :: rest)),
    (existsb _ (first :: rest) || forallb (fun t => types_contains t SDouble) (first :: rest)), s; reflexivity.
Qed.

Lemma conforms_forallb : forall ts (vs : list (dvalue O)) s, @conforms L ts vs ->
  (forall v, In v vs -> stored v = s) -> forallb (fun t => types_contains t s) ts = true.
Proof.
  intros ts vs s H. induction H as [|t v ts vs Hv _ IH]; intros Hs; [reflexivity|]. cbn.
  rewrite IH by (intros; apply Hs; right; assumption). cbn in Hv. rewrite (Hs v (or_introl eq_refl)) in Hv. rewrite Hv. reflexivity.
Qed.

Lemma upcast_same : forall ts (vs : list (dvalue O)) s, @conforms L ts vs -> vs <> [] ->
  (s = Int64 \/ s = SFloat \/ s = SDouble) -> (forall v, In v vs -> stored v = s) ->
  types_contains (propagate NumericUpcast ts) s = true.
Proof.
  intros ts vs s H Hn Hs Hall. pose proof (conforms_forallb ts vs s H Hall) as Hf.
  destruct ts as [|first rest]; [exfalso; apply Hn; inversion H; reflexivity|].
  rewrite (upcast_contains _ first rest eq_refl). destruct Hs as [ -> | [ -> | -> ] ]; rewrite Hf.
  - reflexivity.
  - cbn. reflexivity.
  - rewrite orb_true_r. cbn. reflexivity.
Qed.

Lemma upcast_mixed : forall ts (vs : list (dvalue O)) v w, @conforms L ts vs -> In v vs -> In w vs ->
  stored v <> stored w -> types_contains (propagate NumericUpcast ts) SDouble = true.
Proof.
  intros ts vs v w H Hv Hw Hd. destruct ts as [|first rest]; [exfalso; assert (E : vs = []) by (inversion H; reflexivity); rewrite E in Hv; destruct Hv|].
  rewrite (upcast_contains _ first rest eq_refl). set (ts := first :: rest) in *.
  assert (Hlen : (1 <? length ts)%nat = true).
  { apply Nat.ltb_lt. assert (Hl : length ts = length vs) by (clear -H; induction H; cbn; auto).
    rewrite Hl. destruct vs as [|a [|b vs]]; cbn; [destruct Hv| |lia].
    destruct Hv as [<-|[]], Hw as [<-|[]]. congruence. }
  rewrite Hlen.
  destruct (existsb (fun t => negb (types_eqb t first) || negb (types_is_unique t) && true) ts) eqn:E.
  { reflexivity. }
  exfalso. apply Hd.
  assert (Hall : forall t, In t ts -> t = first /\ types_is_unique t = true).
  { intros t Ht. destruct (negb (types_eqb t first) || negb (types_is_unique t) && true) eqn:Ex.
    - enough (existsb (fun t => negb (types_eqb t first) || negb (types_is_unique t) && true) ts = true) by congruence.
      apply existsb_exists. eauto.
    - apply orb_false_iff in Ex. destruct Ex as [E1 E2]. rewrite andb_true_r in E2.
      apply negb_false_iff in E1. apply negb_false_iff in E2. apply types_eqb_eq in E1. auto. }
  assert (Hin : forall v, In v vs -> types_contains first (stored v) = true).
  { clear -H Hall. intros v Hv. assert (exists t, In t ts /\ types_contains t (stored v) = true) as (t & Ht & Hc).
    { clear Hall. induction H as [|t x l vs Hx _ IH]; [destruct Hv|]. destruct Hv as [<-|Hv].
      - exists t. split; [left; reflexivity|exact Hx].
      - destruct (IH Hv) as (t' & Ht' & Hc'). exists t'. split; [right; exact Ht'|exact Hc']. }
    destruct (Hall t Ht) as [-> _]. exact Hc. }
  eapply unique_one; [apply (Hall first); left; reflexivity|apply Hin, Hv|apply Hin, Hw].
Qed.

Lemma from_any_stored : forall v n, from_any v = Some n ->
  stored v = match n with NI _ => Int64 | NF _ => SFloat | ND _ => SDouble end.
Proof. intros v n H; destruct v; cbn in H; try discriminate; injection H as <-; reflexivity. Qed.

Lemma of_outcome_cases : forall o w, @of_outcome O o = Some w -> (exists z, w = VInt z) \/ (exists b, w = VBool b).
Proof. intros [] w H; cbn in H; try discriminate; injection H as <-; eauto. Qed.

Lemma stored_bool : forall b, types_contains ids (stored (VBool b)) = true.
Proof. intros b. cbn. destruct (small (VBool b)); reflexivity. Qed.

(* which operations on integers give integers *)
Definition no_truth (o : outcome) : Prop := match o with Truth _ => False | _ => True end.

Lemma no_truth_num : forall o w, no_truth o -> @of_outcome O o = Some w -> exists r, w = VInt r.
Proof. intros [] w Hn H; cbn in H; try discriminate; [injection H as <-; eauto|destruct Hn]. Qed.

Lemma nt_some : forall o, no_truth (some_num o).
Proof. intros []; exact I. Qed.

Lemma nt_run1 : forall d f z, no_truth (run1 d f z).
Proof.
  intros d [] z; unfold run1, absolute, negation, squareroot.
  - destruct (z =? _)%Z; [destruct d|]; exact I.
  - apply nt_some.
  - destruct (z <? 0)%Z; exact I.
Qed.

Lemma nt_ilog : forall fuel v b n r, no_truth (ilog_loop fuel v b n r).
Proof.
  induction fuel as [|fuel IH]; intros; [exact I|]. cbn [ilog_loop]. destruct (_ <=? _)%Z; [apply IH|exact I].
Qed.

Lemma nt_pow2 : forall fuel b e a, no_truth (pow_loop2 fuel b e a).
Proof.
  induction fuel as [|fuel IH]; intros; [exact I|]. cbn [pow_loop2]. destruct (_ >? _)%Z; [|exact I]. cbv zeta.
  destruct (checked _); [|exact I]. destruct (Z.odd _); [|apply IH]. destruct (checked _); [apply IH|exact I].
Qed.

Lemma nt_run2 : forall d f a b, is_comparison f = false -> no_truth (run2 d f a b).
Proof.
  intros d f a b Hc. destruct f; try discriminate Hc; unfold run2.
  - apply nt_some.
  - apply nt_some.
  - apply nt_some.
  - unfold division. destruct (_ =? _)%Z; [exact I|apply nt_some].
  - unfold remainder. destruct (_ =? _)%Z; [exact I|]. destruct (_ && _); exact I.
  - unfold power. destruct (_ <? _)%Z; [exact I|]. unfold checked_pow. destruct (_ =? _)%Z; [exact I|].
    destruct (pow_loop1 _ _ _); try exact I. destruct (_ =? _)%Z; [exact I|apply nt_pow2].
  - unfold logarithm. destruct (_ || _); [exact I|]. unfold ilog. destruct (_ <? _)%Z; [exact I|apply nt_ilog].
  - unfold bitwise_shl. destruct (_ <? _)%Z; [exact I|]. destruct (shift_amount d b); exact I.
  - unfold bitwise_shr. destruct (_ <? _)%Z; [exact I|]. destruct (shift_amount d b); exact I.
  - unfold bitwise_shru. destruct (_ <? _)%Z; [exact I|]. destruct (shift_amount d b); [destruct (_ >? _)%Z|]; exact I.
Qed.

Lemma nt_runn : forall d f l, no_truth (runn d f l).
Proof. intros d f [|z l]; [exact I|]. destruct f; unfold runn; try exact I; apply nt_some. Qed.

Lemma run1_num : forall f z w, @of_outcome O (run1 false f z) = Some w -> exists r, w = VInt r.
Proof. intros. eapply no_truth_num; [|eassumption]; apply nt_run1. Qed.
Lemma run2_num : forall f a b w, is_comparison f = false -> @of_outcome O (run2 false f a b) = Some w -> exists r, w = VInt r.
Proof. intros. eapply no_truth_num; [|eassumption]; apply nt_run2; assumption. Qed.
Lemma runn_num : forall f l w, @of_outcome O (runn false f l) = Some w -> exists r, w = VInt r.
Proof. intros. eapply no_truth_num; [|eassumption]; apply nt_runn. Qed.

Lemma run2_truth : forall f a b w, is_comparison f = true -> @of_outcome O (run2 false f a b) = Some w -> exists r, w = VBool r.
Proof. intros f a b w Hc H. destruct f; try discriminate Hc; cbn [run2 lessthan] in H; injection H as <-; eauto. Qed.

Lemma all_some_map : forall A B (f : A -> option B) (l : list A) r, all_some (map f l) = Some r ->
  length r = length l /\ (forall x, In x l -> exists y, f x = Some y /\ In y r) /\
  (forall y, In y r -> exists x, In x l /\ f x = Some y).
Proof.
  intros A B f l. induction l as [|x l IH]; intros r H; cbn in H.
  - injection H as <-. split; [reflexivity|]. split; [intros x []|intros y []].
  - destruct (f x) as [y|] eqn:E; [|discriminate]. destruct (all_some (map f l)) as [r'|]; [|discriminate].
    injection H as <-. destruct (IH r' eq_refl) as (H1 & H2 & H3). split; [cbn; congruence|]. split.
    + intros z [<-|Hz]; [exists y; split; [exact E|left; reflexivity]|]. destruct (H2 z Hz) as (u & Hu & Hin). exists u. split; [exact Hu|right; exact Hin].
    + intros z [<-|Hz]; [exists x; split; [left; reflexivity|exact E]|]. destruct (H3 z Hz) as (u & Hu & Hin). exists u. split; [right; exact Hu|exact Hin].
Qed.

(* what list_cast says about the arguments *)
Lemma list_cast_spec : forall vs r, list_cast vs = Some r -> vs <> [] /\
  match r with
  | LI _ => forall v, In v vs -> stored v = Int64
  | LF _ => forall v, In v vs -> stored v = SFloat
  | LD _ => (forall v, In v vs -> stored v = SDouble) \/ exists v w, In v vs /\ In w vs /\ stored v <> stored w
  end.
Proof.
  intros vs r H. unfold list_cast in H. destruct vs as [|v0 vs0]; [discriminate|]. split; [discriminate|].
  remember (v0 :: vs0) as vs. clear Heqvs v0 vs0.
  destruct (all_some (map from_any vs)) as [[|first rest]|] eqn:E; try discriminate.
  destruct (all_some_map _ _ _ _ _ E) as (Hlen & Hto & Hfrom).
  destruct (forallb (fun n => same_type n first) (first :: rest)) eqn:Es.
  - rewrite forallb_forall in Es.
    assert (Hst : forall v, In v vs -> stored v = match first with NI _ => Int64 | NF _ => SFloat | ND _ => SDouble end).
    { intros v Hv. destruct (Hto v Hv) as (n & Hn & Hin). rewrite (from_any_stored v n Hn).
      specialize (Es n Hin). destruct n, first; try discriminate; reflexivity. }
    unfold collect_same in H. destruct first.
    + destruct (all_some (map as_int (NI z :: rest))); [|discriminate]. injection H as <-. exact Hst.
    + destruct (all_some (map as_float (NF f :: rest))); [|discriminate]. injection H as <-. exact Hst.
    + destruct (all_some (map as_double (ND d :: rest))); [|discriminate]. injection H as <-. left. exact Hst.
  - cbn [map collect_same] in H. match type of H with option_map _ ?x = _ => destruct x end; [|discriminate]. injection H as <-. right.
    assert (exists n, In n (first :: rest) /\ same_type n first = false) as (n & Hn & Hne).
    { clear -Es. induction (first :: rest) as [|x l IH] in Es |- *; [discriminate|]. cbn in Es.
      destruct (same_type x first) eqn:Ex; [destruct (IH Es) as (n & Hn & Hf); exists n; split; [right; exact Hn|exact Hf]|].
      exists x. split; [left; reflexivity|exact Ex]. }
    destruct (Hfrom n Hn) as (v & Hv & Hfv). destruct (Hfrom first (or_introl eq_refl)) as (w & Hw & Hfw).
    exists v, w. split; [exact Hv|]. split; [exact Hw|]. rewrite (from_any_stored v n Hfv), (from_any_stored w first Hfw).
    destruct n, first; try discriminate.
Qed.

Lemma nemo_typed : typed L.
Proof.
  constructor.
  - (* unary *)
    intros f v w t Hev Hc. inversion Hc as [|? ? ? ? Hv _]; subst. cbn [nemo ev1 ty1 stored_as] in *.
    destruct f as [n| | | | | | | | |]; cbn [eval1 prop1 propagate] in *.
    + assert (Hst : stored w = stored v).
      { unfold num1_eval in Hev. destruct (from_any v) as [[z|f|d]|] eqn:E; [| | |discriminate];
          rewrite (from_any_stored v _ E).
        - destruct n; try discriminate; try (injection Hev as <-; reflexivity);
            destruct (run1_num _ _ _ Hev) as [r ->]; reflexivity.
        - destruct (f1 O n f); [|discriminate]. injection Hev as <-. reflexivity.
        - destruct (d1 O n d); [|discriminate]. injection Hev as <-. reflexivity. }
      rewrite Hst. cbn [fold_left]. rewrite contains_inter, contains_full. exact Hv.
    + destruct v; try discriminate. injection Hev as <-. apply stored_bool.
    + injection Hev as <-. apply stored_bool.
    + injection Hev as <-. apply stored_bool.
    + injection Hev as <-. apply stored_bool.
    + injection Hev as <-. apply stored_bool.
    + injection Hev as <-. apply stored_bool.
    + injection Hev as <-. apply stored_bool.
    + injection Hev as <-. apply stored_bool.
    + destruct v; try discriminate; injection Hev as <-; cbn; destruct (small _); reflexivity.
  - (* binary *)
    intros f v1 v2 w ts Hev Hc. cbn [nemo ev2 ty2 stored_as] in *.
    destruct f as [| |o]; cbn [eval2 prop2] in *.
    + injection Hev as <-. apply stored_bool.
    + injection Hev as <-. apply stored_bool.
    + unfold pair_cast in Hev. destruct (from_any v1) as [n1|] eqn:E1; [|discriminate].
      destruct (from_any v2) as [n2|] eqn:E2; [|discriminate].
      pose proof (from_any_stored _ _ E1) as S1. pose proof (from_any_stored _ _ E2) as S2.
      assert (Hsame : forall s, (s = Int64 \/ s = SFloat \/ s = SDouble) -> stored v1 = s -> stored v2 = s ->
                types_contains (propagate NumericUpcast ts) s = true).
      { intros s Hs H1 H2. apply (upcast_same ts [v2; v1] s Hc); [discriminate|exact Hs|].
        intros v [<-|[<-|[]]]; assumption. }
      assert (Hmix : stored v1 <> stored v2 -> types_contains (propagate NumericUpcast ts) SDouble = true).
      { intros Hd. apply (upcast_mixed ts [v2; v1] v1 v2 Hc); [right; left; reflexivity|left; reflexivity|exact Hd]. }
      destruct (is_comparison o) eqn:Ec.
      { assert (exists b, w = VBool b) as [b ->]; [|apply stored_bool].
        assert (is_shift o = false) as Esh by (destruct o; try discriminate; reflexivity). rewrite Esh in Hev.
        destruct n1, n2; try (injection Hev as <-; eauto); eauto using run2_truth. }
      destruct (is_shift o) eqn:Esh.
      { cbn [propagate]. rewrite contains_single. assert (exists z, w = VInt z) as [z ->]; [|reflexivity].
        destruct n1, n2; try discriminate. eauto using run2_num. }
      destruct n1, n2; cbn [to_double] in Hev;
        try (match type of Hev with option_map _ ?x = _ => destruct x end; [|discriminate]; injection Hev as <-; cbn [storage_type]);
        try (apply Hsame; auto; fail); try (apply Hmix; rewrite S1, S2; discriminate).
      destruct (run2_num _ _ _ _ Ec Hev) as [r ->]. apply Hsame; auto.
  - intros [].
  - (* n-ary *)
    intros f vs w ts Hev Hc. cbn [nemo evn tyn stored_as] in *.
    assert (Hcast : forall r, list_cast vs = Some r -> match r with
        | LI _ => types_contains (propagate NumericUpcast ts) Int64 = true
        | LF _ => types_contains (propagate NumericUpcast ts) SFloat = true
        | LD _ => types_contains (propagate NumericUpcast ts) SDouble = true end).
    { intros r Hr. destruct (list_cast_spec vs r Hr) as [Hne Hs].
      assert (Hne' : rev vs <> []).
      { intros E. apply Hne. rewrite <- (rev_involutive vs), E. reflexivity. }
      destruct r.
      - apply (upcast_same ts (rev vs) Int64 Hc Hne'); [auto|]. intros v Hv. apply Hs. apply in_rev. exact Hv.
      - apply (upcast_same ts (rev vs) SFloat Hc Hne'); [auto|]. intros v Hv. apply Hs. apply in_rev. exact Hv.
      - destruct Hs as [Hs|(v & w0 & Hv & Hw & Hd)].
        + apply (upcast_same ts (rev vs) SDouble Hc Hne'); [auto|]. intros v Hv. apply Hs. apply in_rev. exact Hv.
        + apply (upcast_mixed ts (rev vs) v w0 Hc); [apply -> in_rev; exact Hv|apply -> in_rev; exact Hw|exact Hd]. }
    destruct f as [| |o|]; cbn [evaln propn] in *.
    + match type of Hev with option_map _ ?x = _ => destruct x end; [|discriminate]. injection Hev as <-. apply stored_bool.
    + match type of Hev with option_map _ ?x = _ => destruct x end; [|discriminate]. injection Hev as <-. apply stored_bool.
    + destruct (is_bitwise o).
      * destruct (list_same vs) as [[l| |]|]; try discriminate. destruct (runn_num _ _ _ Hev) as [r ->]. reflexivity.
      * destruct (list_cast vs) as [[l|l|l]|]; [| | |discriminate].
        -- destruct (runn_num _ _ _ Hev) as [r ->]. exact (Hcast _ eq_refl).
        -- destruct (fn_ O (Some o) l); [|discriminate]. injection Hev as <-. exact (Hcast _ eq_refl).
        -- destruct (dn_ O (Some o) l); [|discriminate]. injection Hev as <-. exact (Hcast _ eq_refl).
    + destruct (list_cast vs) as [[l|l|l]|]; [discriminate| | |discriminate].
      * destruct (fn_ O None l); [|discriminate]. injection Hev as <-. exact (Hcast _ eq_refl).
      * destruct (dn_ O None l); [|discriminate]. injection Hev as <-. exact (Hcast _ eq_refl).
Qed.

Lemma nemo_lawful : (forall a b, feqb O a b = feqb O b a) -> (forall a b, deqb O a b = deqb O b a) -> lawful L.
Proof.
  intros Hf Hd. constructor.
  - intros vs. cbn [nemo evn conjunction truth evaln]. split.
    + intros (w & Hw & Ht) v Hv.
      destruct (all_some (map (fun v => match v with VBool b => Some b | _ => None end) vs)) as [bs|] eqn:E; [|discriminate].
      injection Hw as <-. injection Ht as Ht. rewrite forallb_forall in Ht.
      destruct (all_some_map _ _ _ _ _ E) as (_ & Hto & _). destruct (Hto v Hv) as (b & Hb & Hin).
      specialize (Ht b Hin). cbn in Ht. subst b. exact Hb.
    + intros H. destruct (all_some (map (fun v => match v with VBool b => Some b | _ => None end) vs)) as [bs|] eqn:E.
      * eexists. split; [reflexivity|]. cbn. f_equal. apply forallb_forall. intros b Hb.
        destruct (all_some_map _ _ _ _ _ E) as (_ & _ & Hfrom). destruct (Hfrom b Hb) as (v & Hv & Hvb).
        specialize (H v Hv). congruence.
      * exfalso. clear -E H. induction vs as [|v vs IH]; cbn in E; [discriminate|].
        pose proof (H v (or_introl eq_refl)) as Hv. rewrite Hv in E.
        destruct (all_some (map (fun v => match v with VBool b => Some b | _ => None end) vs)) eqn:E'; [discriminate|].
        apply IH; [intros; apply H; right; assumption|reflexivity].
  - intros [] v w H; try discriminate. cbn [nemo ev2 eval2 truth veqb]. eexists. split; [reflexivity|]. split; congruence.
  - intros v w. cbn [nemo veqb].
    assert (Hl : forall a b, listnat_eqb a b = listnat_eqb b a).
    { intros a b. unfold listnat_eqb. destruct (list_eq_dec Nat.eq_dec a b), (list_eq_dec Nat.eq_dec b a); congruence. }
    destruct v, w; cbn; try reflexivity; auto using Z.eqb_sym, Nat.eqb_sym.
    + destruct b, b0; reflexivity.
    + rewrite (Hl s s0), (Hl t t0). reflexivity.
    + rewrite (Hl l l0), (Hl t t0). reflexivity.
  - reflexivity.
Qed.

End Proofs.
