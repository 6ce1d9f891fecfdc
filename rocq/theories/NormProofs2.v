(** The structure of normalized rules. *)
From Coq Require Import List Arith ZArith Bool Lia Permutation.
From Verif Require Import TableModel EngineModel EngineSpec EngineProofs1 NormModel NormSpec NormProofs1.
Import ListNotations.

Definition isb (v : var) : bool := v mod 4 =? 0.
Definition ish (v : var) : bool := v mod 4 =? 1.
Lemma isb_body k : isb (body_var k) = true.
Proof. unfold isb, body_var. rewrite Nat.mul_comm, Nat.mod_mul; auto. Qed.
Lemma ish_head k : ish (head_var k) = true.
Proof. unfold ish, head_var. rewrite Nat.add_comm, Nat.mul_comm, Nat.mod_add; auto. Qed.
Lemma isb_head k : isb (head_var k) = false.
Proof. unfold isb, head_var. rewrite Nat.add_comm, Nat.mul_comm, Nat.mod_add; auto. Qed.
Lemma ish_body k : ish (body_var k) = false.
Proof. unfold ish, body_var. rewrite Nat.mul_comm, Nat.mod_mul; auto. Qed.
Lemma isb_gen v : isb v = true -> generated v.
Proof. intros H. left. exists (v / 4). unfold isb in H. apply Nat.eqb_eq in H. unfold body_var, var in *. rewrite (Nat.div_mod v 4) at 1 by lia. lia. Qed.
Lemma ish_gen v : ish v = true -> generated v.
Proof. intros H. right. left. exists (v / 4). unfold ish in H. apply Nat.eqb_eq in H. unfold head_var, var in *. rewrite (Nat.div_mod v 4) at 1 by lia. lia. Qed.
Lemma gen_dec v : {generated v} + {~ generated v}.
Proof.
  destruct (isb v) eqn:E1; [left; now apply isb_gen|]. destruct (ish v) eqn:E2; [left; now apply ish_gen|].
  destruct (Nat.eq_dec v agg_out) as [->|E3]; [left; unfold generated; auto|].
  destruct (Nat.eq_dec v agg_in) as [->|E4]; [left; unfold generated; auto|].
  destruct (Nat.eq_dec v anonymous) as [->|E5]; [left; unfold generated; auto 6|].
  right. intros [(k & ->)|[(k & ->)|[->|[->| ->]]]]; try congruence; [rewrite isb_body in E1|rewrite ish_head in E2]; discriminate.
Qed.

Lemma to_oper_assign x n : to_oper (new_assignment x n) = OEq x (to_expr n).
Proof. destruct n; reflexivity. Qed.

(** ** Body atoms *)
Definition slot (os : list nop) (t : term) (x : var) : Prop :=
  t = TVar x \/ (t = TAnon /\ isb x = true) \/
  (t <> TAnon /\ isb x = true /\ exists n, norm_term t = Some n /\ In (new_assignment x n) os).

Lemma slot_mono os os' t x : incl os os' -> slot os t x -> slot os' t x.
Proof. intros Hi [H|[H|(H1 & H2 & n & H3 & H4)]]; [left; auto|right; left; auto|right; right; repeat split; auto; exists n; auto]. Qed.
Lemma slots_mono os os' ts xs : incl os os' -> Forall2 (slot os) ts xs -> Forall2 (slot os') ts xs.
Proof. intros Hi H. induction H; constructor; auto. eapply slot_mono; eauto. Qed.

Lemma norm_body_terms_spec : forall ts used k xs os k', norm_body_terms ts used k = Some (xs, os, k') ->
  (forall t, In t ts -> has_ex t = false) -> (forall v, In (TVar v) ts -> isb v = false) -> (forall v, In v used -> isb v = false) ->
  k <= k' /\ Forall2 (slot os) ts xs /\
  (forall x, In x xs -> isb x = true -> exists j, k < j <= k' /\ x = body_var j) /\
  NoDup xs /\ (forall x, In x xs -> ~ In x used) /\
  (forall v, In (TVar v) ts -> In v xs \/ In v used) /\
  (forall o, In o os -> exists i t x n, nth_error ts i = Some t /\ nth_error xs i = Some x /\ o = new_assignment x n /\
     norm_term t = Some n /\ isb x = true /\ t <> TAnon).
Proof.
  induction ts as [|t ts IH]; intros used k xs os k' E He Hu Hused.
  { simpl in E. injection E as <- <- <-. split; [lia|]. split; [constructor|]. split; [intros x []|]. split; [constructor|]. split; [intros x []|]. split; [intros v []|intros o []]. }
  assert (Hfresh : forall n, (t = TAnon \/ norm_term t = Some n) -> (forall v, t = TVar v -> In v used) ->
     forall xs1 os1, norm_body_terms ts used (S k) = Some (xs1, os1, k') ->
     forall os0, (t = TAnon /\ os0 = os1) \/ (t <> TAnon /\ os0 = new_assignment (body_var (S k)) n :: os1) ->
     k <= k' /\ Forall2 (slot os0) (t :: ts) (body_var (S k) :: xs1) /\
     (forall x, In x (body_var (S k) :: xs1) -> isb x = true -> exists j, k < j <= k' /\ x = body_var j) /\
     NoDup (body_var (S k) :: xs1) /\ (forall x, In x (body_var (S k) :: xs1) -> ~ In x used) /\
     (forall v, In (TVar v) (t :: ts) -> In v (body_var (S k) :: xs1) \/ In v used) /\
     (forall o, In o os0 -> exists i t' x n, nth_error (t :: ts) i = Some t' /\ nth_error (body_var (S k) :: xs1) i = Some x /\ o = new_assignment x n /\
        norm_term t' = Some n /\ isb x = true /\ t' <> TAnon)).
  { intros n Hn Hv xs1 os1 E1 os0 Hos. destruct (IH used (S k) xs1 os1 k' E1) as (K & F & X & N & U & V & O).
    { intros u Hin. apply He. now right. } { intros v Hin. apply Hu. now right. } { auto. }
    assert (Hi : incl os1 os0) by (destruct Hos as [[_ ->]|[_ ->]]; [apply incl_refl|intros o Ho; now right]).
    split; [lia|]. split; [|split; [|split; [|split; [|split]]]].
    - constructor; [|eapply slots_mono; eauto]. destruct Hos as [[-> _]|[Hna ->]]; [right; left; split; auto; apply isb_body|].
      right. right. split; auto. split; [apply isb_body|]. exists n. split; [|now left]. destruct Hn; [contradiction|auto].
    - intros x [<-|Hx] Hb; [exists (S k); split; auto; lia|]. destruct (X x Hx Hb) as (j & Hj & ->). exists j. split; auto. lia.
    - constructor; auto. intros Hin. destruct (X _ Hin (isb_body _)) as (j & Hj & Ej). unfold body_var in Ej. lia.
    - intros x [<-|Hx]; auto. intros Hin. apply Hused in Hin. rewrite isb_body in Hin. discriminate.
    - intros v [Ev|Hin]; [right; auto|]. destruct (V v Hin); [left; now right|auto].
    - intros o Ho. assert (Hc : (t <> TAnon /\ o = new_assignment (body_var (S k)) n) \/ In o os1).
      { destruct Hos as [[_ ->]|[Hna ->]]; auto. destruct Ho as [<-|Ho]; auto. }
      destruct Hc as [(Hna & ->)|Hc].
      + exists 0, t, (body_var (S k)), n. repeat split; auto; [|apply isb_body]. destruct Hn; [contradiction|auto].
      + destruct (O o Hc) as (i & t' & x & n' & H1 & H2 & H3). exists (S i), t', x, n'. auto. }
  assert (Hfr : forall n, norm_term t = Some n -> t <> TAnon -> (forall v, t = TVar v -> In v used) ->
     match norm_body_terms ts used (S k) with Some (xs, os, k') => Some (body_var (S k) :: xs, new_assignment (body_var (S k)) n :: os, k') | None => None end = Some (xs, os, k') ->
     k <= k' /\ Forall2 (slot os) (t :: ts) xs /\
     (forall x, In x xs -> isb x = true -> exists j, k < j <= k' /\ x = body_var j) /\
     NoDup xs /\ (forall x, In x xs -> ~ In x used) /\ (forall v, In (TVar v) (t :: ts) -> In v xs \/ In v used) /\
     (forall o, In o os -> exists i t' x n, nth_error (t :: ts) i = Some t' /\ nth_error xs i = Some x /\ o = new_assignment x n /\
        norm_term t' = Some n /\ isb x = true /\ t' <> TAnon)).
  { intros n Hn Hna Hv E1. destruct (norm_body_terms ts used (S k)) as [[[xs1 os1] k1]|] eqn:E2; [|discriminate]. injection E1 as <- <- ->.
    apply (Hfresh n (or_intror Hn) Hv xs1 os1 eq_refl). auto. }
  assert (Het : has_ex t = false) by (apply He; now left).
  simpl in E. destruct t as [v| |v|c|kk us|f u ds|us]; try discriminate.
  - destruct (memv v used) eqn:Em.
    + apply memv_in in Em. apply (Hfr (NVar v)); auto; [discriminate|]. intros w Ew. injection Ew as <-. auto.
    + apply memv_false in Em. destruct (norm_body_terms ts (v :: used) k) as [[[xs1 os1] k1]|] eqn:E1; [|discriminate]. injection E as <- <- <-.
      assert (Hbv : isb v = false) by (apply Hu; now left).
      destruct (IH (v :: used) k xs1 os1 k1 E1) as (K & F & X & N & U & V & O).
      { intros u Hin. apply He. now right. } { intros w Hin. apply Hu. now right. } { intros w [<-|Hw]; auto. }
      split; auto. split; [|split; [|split; [|split; [|split]]]].
      * constructor; auto. left. reflexivity.
      * intros x [<-|Hx] Hb; [congruence|auto].
      * constructor; auto. intros Hin. apply (U v Hin). now left.
      * intros x [<-|Hx]; auto. intros Hin. apply (U x Hx). now right.
      * intros w [Ew|Hin]; [injection Ew as <-; left; now left|]. destruct (V w Hin) as [?|[<-|?]]; auto; left; simpl; auto.
      * intros o Ho. destruct (O o Ho) as (i & t' & x & n' & H1 & H2 & H3). exists (S i), t', x, n'. auto.
  - destruct (norm_body_terms ts used (S k)) as [[[xs1 os1] k1]|] eqn:E2; [|discriminate]. injection E as <- <- ->.
    apply (Hfresh (NConst 0%Z) (or_introl eq_refl)) with (os1 := os1); [intros v' Ev'; discriminate Ev'|reflexivity|auto].
  - apply (Hfr (NConst c)); auto; discriminate.
  - match type of E with match ?X with _ => _ end = _ => destruct X as [n|] eqn:En; [|discriminate] end. apply (Hfr n); [reflexivity|discriminate|intros; discriminate|exact E].
Qed.

Lemma norm_body_terms_total : forall ts used k, (forall t, In t ts -> op_term t = true) -> exists xs os k', norm_body_terms ts used k = Some (xs, os, k').
Proof.
  induction ts as [|t ts IH]; intros used k H; simpl; eauto.
  assert (IH' : forall used k, exists xs os k', norm_body_terms ts used k = Some (xs, os, k')) by (intros; apply IH; intros; apply H; now right).
  assert (Ht : op_term t = true) by (apply H; now left).
  destruct (IH' used (S k)) as (xs1 & os1 & k1 & E1). destruct t as [v| |v|c|kk us|f u ds|us]; try discriminate; rewrite ?E1; eauto.
  1,2: destruct (memv v used); [rewrite ?E1; eauto|]; destruct (IH' (v :: used) k) as (xs2 & os2 & k2 & ->); eauto.
  destruct (proj1 (norm_term_op _) Ht) as (n & En). rewrite En, ?E1. eauto.
Qed.

Definition atom_rel (os : list nop) (a : tag * list term) (b : atom) : Prop :=
  fst a = fst b /\ NoDup (snd b) /\ Forall2 (slot os) (snd a) (snd b) /\ (forall v, In (TVar v) (snd a) -> In v (snd b)) /\
  (forall x, In x (snd b) -> isb x = true \/ In (TVar x) (snd a)).
Lemma atom_rel_mono os os' a b : incl os os' -> atom_rel os a b -> atom_rel os' a b.
Proof. intros Hi (H1 & H2 & H3 & H4 & H5). repeat split; auto. eapply slots_mono; eauto. Qed.
Lemma atoms_rel_mono os os' l l' : incl os os' -> Forall2 (atom_rel os) l l' -> Forall2 (atom_rel os') l l'.
Proof. intros Hi H. induction H; constructor; auto. eapply atom_rel_mono; eauto. Qed.

Lemma slots_in os ts xs x : Forall2 (slot os) ts xs -> In x xs -> isb x = true \/ In (TVar x) ts.
Proof.
  induction 1 as [|t y ts xs Hs _ IH]; intros Hin; [destruct Hin|]. destruct Hin as [<-|Hin].
  - destruct Hs as [->|[[_ ?]|(_ & ? & _)]]; [right; now left|auto|auto].
  - destruct (IH Hin); [auto|right; now right].
Qed.

(** An operation that stems from a term of a body atom. *)
Definition atom_op (l : list (tag * list term)) (l' : list atom) (o : nop) : Prop :=
  exists m p ts xs i t x n, nth_error l m = Some (p, ts) /\ nth_error l' m = Some (p, xs) /\
    nth_error ts i = Some t /\ nth_error xs i = Some x /\ o = new_assignment x n /\ norm_term t = Some n /\ isb x = true /\ t <> TAnon.

Lemma filter_range (P : var -> bool) l : (forall x, In x l -> P x = false) -> filter P l = [].
Proof. induction l as [|x l IH]; intros H; simpl; auto. rewrite (H x); [|now left]. apply IH. intros; apply H. now right. Qed.

Lemma norm_body_spec : forall l k l' os k', norm_body l k = Some (l', os, k') ->
  (forall p ts t, In (p, ts) l -> In t ts -> has_ex t = false) -> (forall p ts v, In (p, ts) l -> In (TVar v) ts -> isb v = false) ->
  k <= k' /\ Forall2 (atom_rel os) l l' /\
  (forall x, In x (atom_vars l') -> isb x = true -> exists j, k < j <= k' /\ x = body_var j) /\
  NoDup (filter isb (atom_vars l')) /\ (forall o, In o os -> atom_op l l' o).
Proof.
  induction l as [|[p ts] l IH]; intros k l' os k' E He Hu; simpl in E.
  - injection E as <- <- <-. split; [lia|]. split; [constructor|]. split; [intros x []|]. split; [constructor|intros o []].
  - destruct (norm_body_terms ts [] k) as [[[xs os1] k1]|] eqn:E1; [|discriminate].
    destruct (norm_body l k1) as [[[l1 os2] k2]|] eqn:E2; [|discriminate]. injection E as <- <- <-.
    destruct (norm_body_terms_spec ts [] k xs os1 k1 E1) as (K & F & X & N & U & V & O).
    { intros t Ht. apply (He p ts t); [now left|auto]. } { intros v Hv. apply (Hu p ts v); [now left|auto]. } { intros v []. }
    destruct (IH k1 l1 os2 k2 E2) as (K' & F' & X' & N' & O').
    { intros q us t Hq Ht. apply (He q us t); [now right|auto]. } { intros q us v Hq Hv. apply (Hu q us v); [now right|auto]. }
    split; [lia|]. split; [|split; [|split]].
    + constructor.
      * split; auto. split; auto. split; [apply slots_mono with os1; auto; apply incl_appl, incl_refl|]. split.
        -- intros v Hv. destruct (V v Hv) as [?|[]]. auto.
        -- intros x Hx. simpl. eapply slots_in; eauto.
      * apply atoms_rel_mono with os2; auto. apply incl_appr, incl_refl.
    + intros x Hx Hb. unfold atom_vars in Hx. simpl in Hx. apply in_app_iff in Hx. destruct Hx as [Hx|Hx]; [destruct (X x Hx Hb) as (j & Hj & ->)|destruct (X' x Hx Hb) as (j & Hj & ->)]; exists j; split; auto; lia.
    + unfold atom_vars. simpl. rewrite filter_app. apply NoDup_app'; auto; [now apply NoDup_filter|].
      intros x Hx Hy. apply filter_In in Hx. apply filter_In in Hy. destruct Hx as [Hx Hb]. destruct Hy as [Hy _].
      destruct (X x Hx Hb) as (j & Hj & Ej). destruct (X' x Hy Hb) as (j' & Hj' & Ej'). unfold body_var, var in *. lia.
    + intros o Ho. apply in_app_iff in Ho. destruct Ho as [Ho|Ho].
      * destruct (O o Ho) as (i & t & x & n & H1 & H2 & H3). exists 0, p, ts, xs, i, t, x, n. auto.
      * destruct (O' o Ho) as (m & q & us & ys & H). exists (S m), q, us, ys. exact H.
Qed.
Lemma norm_body_total : forall l k, (forall p ts t, In (p, ts) l -> In t ts -> op_term t = true) -> exists l' os k', norm_body l k = Some (l', os, k').
Proof.
  induction l as [|[p ts] l IH]; intros k H; simpl; eauto.
  destruct (norm_body_terms_total ts [] k) as (xs & os & k1 & ->); [intros t Ht; eapply H; [now left|auto]|].
  destruct (IH k1) as (l' & os' & k' & ->); [intros q us t Hq Ht; apply (H q us t); [now right|auto]|eauto].
Qed.

(** ** Head atoms *)
Definition hslot (os : list nop) (t : term) (h : hterm) : Prop :=
  match t with
  | TVar v => h = HVar v
  | TEx v => h = HEx v
  | TConst c => h = HConst c
  | TAgg _ _ _ => h = HVar agg_out
  | TOp _ _ => exists j n sa, h = HVar (head_var j) /\ norm_hterm t = Some (n, sa) /\ In (new_assignment (head_var j) n) os
  | TAnon => h = HVar anonymous
  | TComplex _ => False
  end.
Lemma hslot_mono os os' t h : incl os os' -> hslot os t h -> hslot os' t h.
Proof. intros Hi. destruct t; simpl; auto. intros (j & n & sa & H1 & H2 & H3). exists j, n, sa. auto. Qed.
Lemma hslots_mono os os' ts hs : incl os os' -> Forall2 (hslot os) ts hs -> Forall2 (hslot os') ts hs.
Proof. intros Hi H. induction H; constructor; auto. eapply hslot_mono; eauto. Qed.

(** The head variables generated. *)
Definition gen_heads (hs : list hterm) : list var := filter ish (flat_map hterm_vars hs).

Lemma norm_head_terms_spec : forall ts i k ag hs os a k', norm_head_terms ts i k ag = Some (hs, os, a, k') ->
  (forall t v, In t ts -> t = TVar v \/ t = TEx v -> ish v = false) -> (forall t, In t ts -> has_anon t = false /\ (forall kk us, t = TOp kk us -> has_ex t = false)) ->
  k <= k' /\ Forall2 (hslot os) ts hs /\
  (forall v, In v (gen_heads hs) -> exists j, k < j <= k' /\ v = head_var j) /\ NoDup (gen_heads hs) /\
  (forall o, In o os -> exists m t n sa j, nth_error ts m = Some t /\ nth_error hs m = Some (HVar (head_var j)) /\ (exists kk us, t = TOp kk us) /\
      norm_hterm t = Some (n, sa) /\ o = new_assignment (head_var j) n) /\
  ((a = ag /\ forall t, In t ts -> ~ aggregating t) \/
   exists f s ds vs m t, a = Some ((f, s, ds), vs, i + m) /\ nth_error ts m = Some t /\ aggregates f s ds t /\ forall v, In v vs <-> In v (outer_vars t) /\ v <> agg_out).
Proof.
  induction ts as [|t ts IH]; intros i k ag hs os a k' E Hu He.
  { simpl in E. injection E as <- <- <- <-. split; [lia|]. split; [constructor|]. split; [intros v []|]. split; [constructor|]. split; [intros o []|]. left; split; auto; intros t []. }
  assert (Hu' : forall t v, In t ts -> t = TVar v \/ t = TEx v -> ish v = false) by (intros t0 v0 H0 H1; apply (Hu t0 v0); [now right|exact H1]).
  assert (He' : forall t, In t ts -> has_anon t = false /\ (forall kk us, t = TOp kk us -> has_ex t = false)) by (intros; apply He; now right).
  (* shared end of all cases *)
  assert (Hgo : forall h ag1 hs1 os1 k1, norm_head_terms ts (S i) k1 ag1 = Some (hs1, os1, a, k') -> k <= k1 ->
     hs = h :: hs1 -> (forall v, In v (filter ish (hterm_vars h)) -> v = head_var k1 /\ k1 = S k) -> length (hterm_vars h) <= 1 ->
     (os = os1 /\ (forall kk us, t <> TOp kk us) \/ exists kk us n sa, t = TOp kk us /\ h = HVar (head_var (S k)) /\ norm_hterm t = Some (n, sa) /\ os = new_assignment (head_var (S k)) n :: os1) ->
     hslot os t h ->
     ((ag1 = ag /\ ~ aggregating t) \/ (exists f s ds vs, ag1 = Some ((f, s, ds), vs, i) /\ aggregates f s ds t /\ (forall v, In v vs <-> In v (outer_vars t) /\ v <> agg_out))) ->
     k <= k' /\ Forall2 (hslot os) (t :: ts) hs /\
     (forall v, In v (gen_heads hs) -> exists j, k < j <= k' /\ v = head_var j) /\ NoDup (gen_heads hs) /\
     (forall o, In o os -> exists m t' n sa j, nth_error (t :: ts) m = Some t' /\ nth_error hs m = Some (HVar (head_var j)) /\ (exists kk us, t' = TOp kk us) /\
         norm_hterm t' = Some (n, sa) /\ o = new_assignment (head_var j) n) /\
     ((a = ag /\ forall t', In t' (t :: ts) -> ~ aggregating t') \/
      exists f s ds vs m t', a = Some ((f, s, ds), vs, i + m) /\ nth_error (t :: ts) m = Some t' /\ aggregates f s ds t' /\ forall v, In v vs <-> In v (outer_vars t') /\ v <> agg_out)).
  { intros h ag1 hs1 os1 k1 E1 Hk1 -> Hh Hlen Hos Hsl Hag. destruct (IH (S i) k1 ag1 hs1 os1 a k' E1 Hu' He') as (K & F & G & N & O & A).
    assert (Hi : incl os1 os) by (destruct Hos as [[-> _]|(kk & us & n & sa & _ & _ & _ & ->)]; [apply incl_refl|intros x Hx; now right]).
    split; [lia|]. split; [constructor; auto; eapply hslots_mono; eauto|]. split; [|split; [|split]].
    - intros v Hv. unfold gen_heads in Hv. simpl in Hv. rewrite filter_app in Hv. apply in_app_iff in Hv. destruct Hv as [Hv|Hv].
      + destruct (Hh v Hv) as [-> ->]. exists (S k). split; [lia|auto].
      + destruct (G v Hv) as (j & Hj & ->). exists j. split; [lia|auto].
    - unfold gen_heads. simpl. rewrite filter_app. apply NoDup_app'; auto.
      + apply NoDup_filter. destruct (hterm_vars h) as [|x [|y l]]; simpl in Hlen; try lia; repeat constructor; auto.
      + intros v Hv Hw. destruct (Hh v Hv) as [-> ->]. destruct (G _ Hw) as (j & Hj & Ej). unfold head_var in Ej. lia.
    - intros o Ho. destruct Hos as [[-> _]|(kk & us & n & sa & -> & -> & En & ->)].
      + destruct (O o Ho) as (m & t' & n & sa & j & H). exists (S m), t', n, sa, j. exact H.
      + destruct Ho as [<-|Ho].
        * exists 0, (TOp kk us), n, sa, (S k). repeat split; eauto.
        * destruct (O o Ho) as (m & t' & n' & sa' & j & H). exists (S m), t', n', sa', j. exact H.
    - destruct A as [[-> Hno]|(f & s & ds & vs & m & t' & -> & Hm & Ha & Hvs)].
      + destruct Hag as [[-> Hnt]|(f & s & ds & vs & -> & Ha & Hvs)].
        * left. split; auto. intros t' [<-|Ht]; auto.
        * right. exists f, s, ds, vs, 0, t. rewrite Nat.add_0_r. auto.
      + right. exists f, s, ds, vs, (S m), t'. rewrite Nat.add_succ_r. auto. }
  assert (Hna : forall t, (match t with TVar _ | TEx _ | TAnon | TConst _ => True | _ => False end) -> ~ aggregating t).
  { intros u Hu0 (f & s & ds & Ha). inversion Ha; subst; auto. }
  simpl in E. destruct t as [v| |v|c|kk us|f s ds|us]; try discriminate.
  - destruct (norm_head_terms ts (S i) k ag) as [[[[hs1 os1] a1] k1]|] eqn:E1; [|discriminate]. injection E as <- <- <- <-.
    eapply Hgo; [exact E1|lia|reflexivity| |simpl; lia|left; split; [reflexivity|discriminate]|reflexivity|left; split; [reflexivity|apply Hna; exact Logic.I]].
    intros w Hw. simpl in Hw. rewrite (Hu (TVar v) v) in Hw; [destruct Hw|now left|auto].
  - destruct (He TAnon) as [H _]; [now left|discriminate].
  - destruct (norm_head_terms ts (S i) k ag) as [[[[hs1 os1] a1] k1]|] eqn:E1; [|discriminate]. injection E as <- <- <- <-.
    eapply Hgo; [exact E1|lia|reflexivity| |simpl; lia|left; split; [reflexivity|discriminate]|reflexivity|left; split; [reflexivity|apply Hna; exact Logic.I]].
    intros w Hw. simpl in Hw. rewrite (Hu (TEx v) v) in Hw; [destruct Hw|now left|auto].
  - destruct (norm_head_terms ts (S i) k ag) as [[[[hs1 os1] a1] k1]|] eqn:E1; [|discriminate]. injection E as <- <- <- <-.
    eapply Hgo; [exact E1|lia|reflexivity|intros w []|simpl; lia|left; split; [reflexivity|discriminate]|reflexivity|left; split; [reflexivity|apply Hna; exact Logic.I]].
  - match type of E with match ?X with _ => _ end = _ => destruct X as [[n sa]|] eqn:En; [|discriminate] end.
    match type of E with match ?X with _ => _ end = _ => destruct X as [[[[hs1 os1] a1] k1]|] eqn:E1; [|discriminate] end. injection E as <- <- <- <-.
    destruct (He (TOp kk us)) as [Hae Hee]; [now left|]. specialize (Hee kk us eq_refl).
    assert (En' : norm_hterm (TOp kk us) = Some (n, sa)) by exact En.
    destruct (norm_hterm_spec (TOp kk us) n sa En' (conj Hae Hee)) as (_ & Hnv & Hsa).
    eapply Hgo; [exact E1|lia|reflexivity| | | | |].
    + intros w Hw. simpl in Hw. rewrite ish_head in Hw. destruct Hw as [<-|[]]. auto.
    + simpl. lia.
    + right. exists kk, us, n, sa. auto.
    + exists (S k), n, sa. split; [reflexivity|]. split; [exact En|now left].
    + destruct sa as [[[f s] ds]|]; [right|left; auto]. exists f, s, ds. eexists. split; [reflexivity|]. split; auto.
      intros v. rewrite filter_In, Hnv, negb_true_iff, Nat.eqb_neq. intuition.
  - match type of E with match ?X with _ => _ end = _ => destruct X as [[[[hs1 os1] a1] k1]|] eqn:E1; [|discriminate] end. injection E as <- <- <- <-.
    eapply Hgo; [exact E1|lia|reflexivity| | | |reflexivity|].
    + intros w Hw. simpl in Hw. destruct Hw.
    + simpl. lia.
    + left. split; auto. discriminate.
    + right. exists f, s, ds, []. split; auto. split; [constructor|]. intros v. simpl. tauto.
Qed.
