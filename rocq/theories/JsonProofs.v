(** Proofs for the import of JSON. *)
From Coq Require Import List String ZArith Lia FinFun.
From Verif Require Import JsonModel JsonSpec.
Import ListNotations.
Local Open Scope list_scope.
Local Open Scope Z_scope.

Section Proofs.
Context {float : Type}.
Notation json := (json float).
Notation dv := (dv float).
Notation triple := (triple float).
Implicit Types (D t : list triple).

(** ** Sizes *)
Definition sizes (p : list (Z * json)) : nat := fold_right (fun x n => size (snd x) + n)%nat O p.
Lemma sizes_app p q : sizes (p ++ q) = (sizes p + sizes q)%nat.
Proof. unfold sizes. induction p as [|x p IH]; cbn; auto. rewrite IH. lia. Qed.
Lemma sizes_rev p : sizes (rev p) = sizes p.
Proof. induction p as [|x p IH]; cbn [rev]; auto. rewrite sizes_app, IH. change (sizes (x :: p)) with (size (snd x) + sizes p)%nat. change (sizes [x]) with (size (snd x) + 0)%nat. lia. Qed.
Lemma size_array e (l : list json) : In e l -> (size e < size (JArray l))%nat.
Proof. cbn [size]. induction l as [|x l IH]; intros []; cbn [fold_right]; [subst; lia|]. specialize (IH H). lia. Qed.
Lemma size_object k e (l : list (string * json)) : In (k, e) l -> (size e < size (JObject l))%nat.
Proof. cbn [size]. induction l as [|x l IH]; intros []; cbn [fold_right]; [subst; cbn [snd]; lia|]. specialize (IH H). lia. Qed.

(** ** Children *)
Lemma children_ok id : forall (l : list (dv * json)) max t m p, children id max l = (t, m, p) ->
  max <= m /\
  (forall n a x, In (n, a, x) t -> n = DInt id /\ exists e c, In (a, e) l /\ x = DInt c /\ In (c, e) p) /\
  (forall c e, In (c, e) p -> max < c <= m) /\ NoDup (map fst p) /\
  (forall k e, In (k, e) l -> exists c, In (DInt id, k, DInt c) t /\ In (c, e) p) /\
  (forall n a x n' a', In (n, a, x) t -> In (n', a', x) t -> a = a') /\
  (NoDup (map fst l) -> functional t) /\ sizes p = fold_right (fun x n => size (snd x) + n)%nat O l /\
  (forall c e, In (c, e) p -> exists k, In (k, e) l).
Proof.
  induction l as [|(k, e) l IH]; intros max t m p H; cbn [children] in H.
  - injection H as <- <- <-. repeat split; try lia; try (intros; contradiction); try constructor. intros _ n a x y [].
  - destruct (children id (max + 1) l) as ((t', m'), p') eqn:E. injection H as <- <- <-. destruct (IH _ _ _ _ E) as (I1 & I2 & I3 & I4 & I5 & I6 & I7 & I8 & I9). clear IH E.
    assert (F : forall n a c, In (n, a, DInt c) t' -> max + 1 < c). { intros n a c H. destruct (I2 _ _ _ H) as (_ & e' & c' & _ & Ec & Hc). injection Ec as ->. apply I3 in Hc. lia. }
    split; [lia|]. split; [|split; [|split; [|split; [|split; [|split; [|split]]]]]].
    + intros n a x [H|H]; [injection H as <- <- <-; split; auto; exists e, (max + 1); repeat split; now left|]. destruct (I2 _ _ _ H) as (-> & e' & c & A & -> & B). split; auto. exists e', c. repeat split; now right.
    + intros c e' [H|H]; [injection H as <- <-; lia|]. apply I3 in H. lia.
    + cbn [map fst]. constructor; auto. intros H. apply in_map_iff in H. destruct H as ((c, e') & Ec & H). apply I3 in H. cbn in Ec. lia.
    + intros k' e' [H|H]; [injection H as <- <-; exists (max + 1); split; now left|]. destruct (I5 _ _ H) as (c & A & B). exists c. split; now right.
    + intros n a x n' a' [H|H] [H'|H'].
      * injection H as <- <- <-. now injection H' as _ <-.
      * injection H as <- <- <-. apply F in H'. lia.
      * injection H' as <- <- <-. apply F in H. lia.
      * eapply I6; eauto.
    + cbn [map fst]. intros N. inversion_clear N as [|? ? Nk Nl]. intros n a x y [H|H] [H'|H'].
      * congruence.
      * injection H as <- <- <-. destruct (I2 _ _ _ H') as (_ & e' & _ & A & _). exfalso. apply Nk. apply (in_map fst) in A. exact A.
      * injection H' as <- <- <-. destruct (I2 _ _ _ H) as (_ & e' & _ & A & _). exfalso. apply Nk. apply (in_map fst) in A. exact A.
      * eapply I7; eauto.
    + cbn [sizes fold_right snd]. fold (sizes p'). now rewrite I8.
    + intros c e' [H|H]; [injection H as <- <-; exists k; now left|]. destruct (I9 _ _ H) as (k' & K). exists k'. now right.
Qed.
Lemma enumerate_in l : forall i k (e : json), In (k, e) (enumerate i l) <-> exists n, nth_error l n = Some e /\ k = DInt (i + Z.of_nat n).
Proof.
  induction l as [|x l IH]; intros i k e; cbn [enumerate].
  - split; [intros []|]. intros ([|n] & H & _); discriminate.
  - split.
    + intros [H|H]; [injection H as <- <-; exists O; split; auto; f_equal; lia|]. apply IH in H. destruct H as (n & H & ->). exists (S n). split; auto. f_equal. lia.
    + intros ([|n] & H & ->); cbn [nth_error] in H; [injection H as ->; left; f_equal; f_equal; lia|]. right. apply IH. exists n. split; auto. f_equal. lia.
Qed.
Lemma enumerate_nodup l : forall i, NoDup (map fst (enumerate (float := float) i l)).
Proof.
  induction l as [|x l IH]; intros i; cbn [enumerate map fst]; constructor; auto. intros H. apply in_map_iff in H. destruct H as ((k, e) & E & H). cbn in E. subst. apply enumerate_in in H. destruct H as (n & _ & E). injection E as E. lia.
Qed.
Lemma enumerate_sizes l : forall i, fold_right (fun x n => size (snd x) + n)%nat O (enumerate (float := float) i l) = fold_right (fun e n => size e + n)%nat O l.
Proof. induction l as [|x l IH]; intros i; cbn [enumerate fold_right snd]; auto. Qed.
Lemma members_in (l : list (string * json)) k e : In (k, e) (members l) <-> exists s, In (s, e) l /\ k = DString s.
Proof.
  unfold members. rewrite in_map_iff. split.
  - intros ((s, e') & E & H). injection E as <- <-. eauto.
  - intros (s & H & ->). exists (s, e). auto.
Qed.
Lemma members_nodup (l : list (string * json)) : NoDup (map fst l) -> NoDup (map fst (members l)).
Proof.
  intros H. replace (map fst (members l)) with (map (DString (float := float)) (map fst l)) by (unfold members; rewrite !map_map; reflexivity). apply Injective_map_NoDup; auto. intros a b E. now injection E.
Qed.
Lemma members_sizes (l : list (string * json)) : fold_right (fun x n => size (snd x) + n)%nat O (members l) = fold_right (fun x n => size (snd x) + n)%nat O l.
Proof. induction l as [|x l IH]; cbn; auto. Qed.

(** ** One node *)
Definition visited id max v t m (p : list (Z * json)) : Prop :=
  max <= m /\ (forall n a x, In (n, a, x) t -> n = DInt id) /\
  (forall c e, In (c, e) p -> max < c <= m) /\ NoDup (map fst p) /\
  functional t /\
  (forall n a c, edge t n a c -> exists i, c = DInt i /\ max < i <= m) /\
  (forall n a c n' a', edge t n a c -> edge t n' a' c -> a = a') /\
  (S (sizes p) = size v) /\ (forall c e, In (c, e) p -> proper e) /\
  (forall D, (forall x, In x t -> In x D) -> (forall a x, In (DInt id, a, x) D -> In (DInt id, a, x) t) ->
     (forall c e, In (c, e) p -> describes D c e) -> describes D id v).
Ltac ins := repeat match goal with H : In _ (_ :: _) |- _ => destruct H as [H|H] | H : In _ [] |- _ => destruct H end.
Lemma visit_scalar id max v ty x : size v = 1%nat ->
  (forall D, scalar D id ty x -> describes D id v) ->
  visited id max v [(DInt id, type_iri, DString ty); (DInt id, value_iri, x)] max [].
Proof.
  intros Hs Hd. split; [lia|]. split; [|split; [|split; [|split; [|split; [|split; [|split; [|split]]]]]]].
  - intros n a y H. ins; congruence.
  - intros c e [].
  - constructor.
  - unfold type_iri, value_iri. intros n a y z H H'. ins; try congruence; exfalso; congruence.
  - intros n a c (H & N1 & N2). exfalso. unfold type_iri, value_iri in H. ins; congruence.
  - intros n a c n' a' (H & N1 & N2). exfalso. unfold type_iri, value_iri in H. ins; congruence.
  - rewrite Hs. reflexivity.
  - intros c e [].
  - intros D H1 H2 _. apply Hd. split; [split|].
    + apply H1. now left.
    + intros a y H. apply H2 in H. unfold type_iri, value_iri in H. ins; injection H; auto.
    + apply H1. right. now left.
Qed.
Lemma visit_children id max v ty l t m p : children id max l = (t, m, p) ->
  (forall a e, In (a, e) l -> a <> DIri "type" /\ a <> DIri "value") -> NoDup (map fst l) ->
  size v = S (fold_right (fun x n => size (snd x) + n)%nat O l) -> (forall a e, In (a, e) l -> proper e) ->
  (forall D, typed D id ty (fun a => exists e, In (a, e) l) ->
    (forall a e, In (a, e) l -> exists c, In (DInt id, a, DInt c) D /\ describes D c e) -> describes D id v) ->
  visited id max v ((DInt id, type_iri, DString ty) :: t) m p.
Proof.
  intros E Ha Hn Hs Hp Hd. destruct (children_ok id l max t m p E) as (I1 & I2 & I3 & I4 & I5 & I6 & I7 & I8 & I9). clear E.
  assert (T : forall n a x, In (n, a, x) t -> a <> DIri "type"). { intros n a x H. destruct (I2 _ _ _ H) as (_ & e & c & K & _). now apply Ha in K. }
  split; [lia|]. split; [|split; [|split; [|split; [|split; [|split; [|split; [|split]]]]]]]; auto.
  - intros n a x [H|H]; [congruence|]. now apply I2 in H.
  - intros n a x y [H|H] [H'|H'].
    + congruence.
    + injection H as <- <- <-. now apply T in H'.
    + injection H' as <- <- <-. now apply T in H.
    + eapply I7; eauto.
  - intros n a c ([H|H] & N1 & N2); [unfold type_iri in H; congruence|]. destruct (I2 _ _ _ H) as (_ & e & i & _ & -> & K). exists i. split; auto. now apply I3 in K.
  - intros n a c n' a' ([H|H] & N1 & N2) ([H'|H'] & N1' & N2'); try (unfold type_iri in *; congruence). eapply I6; eauto.
  - rewrite Hs. now rewrite I8.
  - intros c e H. destruct (I9 _ _ H) as (k & K). eauto.
  - intros D H1 H2 H3. apply Hd.
    + split; [apply H1; now left|]. intros a x H. apply H2 in H. destruct H as [H|H]; [left; unfold type_iri in H; congruence|]. right. destruct (I2 _ _ _ H) as (_ & e & _ & K & _). eauto.
    + intros a e H. destruct (I5 _ _ H) as (c & A & B). exists c. split; [apply H1; now right|auto].
Qed.
Lemma visit_ok id max v t m p : proper v -> visit id max v = (t, m, p) -> visited id max v t m p.
Proof.
  intros Hp H. destruct v as [|b|n|s|l|l]; cbn [visit] in H.
  - injection H as <- <- <-. split; [lia|]. split; [|split; [|split; [|split; [|split; [|split; [|split; [|split]]]]]]].
    + intros n a y H. ins; congruence.
    + intros c e [].
    + constructor.
    + intros n a y z H H'. ins; congruence.
    + intros n a c (H & N1 & N2). exfalso. unfold type_iri in H. ins; congruence.
    + intros n a c n' a' (H & N1 & N2). exfalso. unfold type_iri in H. ins; congruence.
    + reflexivity.
    + intros c e [].
    + intros D H1 H2 _. constructor. split; [apply H1; now left|]. intros a x H. apply H2 in H. ins. left. unfold type_iri in H. congruence.
  - injection H as <- <- <-. apply visit_scalar; auto. intros D. apply d_bool.
  - injection H as <- <- <-. apply visit_scalar; auto. intros D. destruct n; [apply d_int|apply d_float].
  - injection H as <- <- <-. apply visit_scalar; auto. intros D. apply d_string.
  - destruct (children id max (enumerate 0 l)) as ((t', m'), p') eqn:E. injection H as <- <- <-. inversion_clear Hp as [| | | |? Hl|]. eapply visit_children; eauto.
    + intros a e H. apply enumerate_in in H. destruct H as (n & _ & ->). split; discriminate.
    + apply enumerate_nodup.
    + now rewrite enumerate_sizes.
    + intros a e H. apply enumerate_in in H. destruct H as (n & H & _). apply nth_error_In in H. auto.
    + intros D (T1 & T2) H. apply d_array.
      * split; auto. intros a x K. destruct (T2 a x K) as [->|(e & He)]; auto. right. apply enumerate_in in He. destruct He as (n & He & ->). exists n, e. auto.
      * intros i e He. apply (H (DInt (Z.of_nat i)) e). apply enumerate_in. eauto.
  - destruct (children id max (members l)) as ((t', m'), p') eqn:E. injection H as <- <- <-. inversion_clear Hp as [| | | | |? Hn Hl]. eapply visit_children; eauto.
    + intros a e H. apply members_in in H. destruct H as (s & _ & ->). split; discriminate.
    + now apply members_nodup.
    + now rewrite members_sizes.
    + intros a e H. apply members_in in H. destruct H as (s & H & _). eauto.
    + intros D (T1 & T2) H. apply d_object.
      * split; auto. intros a x K. destruct (T2 a x K) as [->|(e & He)]; auto. right. apply members_in in He. destruct He as (s & He & ->). eauto.
      * intros k e He. apply (H (DString k) e). apply members_in. eauto.
Qed.

(** ** More triples *)
Lemma describes_type D c e : describes D c e -> exists ty, In (DInt c, DIri "type", ty) D.
Proof. intros [? (H & _)|? ? ((H & _) & _)|? ? ((H & _) & _)|? ? ((H & _) & _)|? ? ((H & _) & _)|? ? (H & _) _|? ? (H & _) _]; eauto. Qed.
Lemma weaken id t D : (forall n a x, In (n, a, x) t -> n = DInt id) -> (forall a x, ~ In (DInt id, a, x) D) ->
  forall k e c, (size e < k)%nat -> describes D c e -> describes (t ++ D) c e.
Proof.
  intros Ht Hid. induction k as [|k IH]; intros e c Hk H; [lia|].
  assert (N : c <> id). { intros ->. destruct (describes_type _ _ _ H) as (ty & K). now apply Hid in K. }
  assert (I : forall a x, In (DInt c, a, x) (t ++ D) -> In (DInt c, a, x) D). { intros a x K. apply in_app_or in K. destruct K as [K|K]; auto. apply Ht in K. congruence. }
  assert (T : forall ty P, typed D c ty P -> typed (t ++ D) c ty P). { intros ty P (A & B). split; [apply in_or_app; auto|]. intros a x K. eapply B; eauto. }
  assert (S : forall ty x, scalar D c ty x -> scalar (t ++ D) c ty x). { intros ty x (A & B). split; [auto|apply in_or_app; auto]. }
  inversion H; subst.
  - apply d_null. auto.
  - apply d_bool. auto.
  - apply d_int. auto.
  - apply d_float. auto.
  - apply d_string. auto.
  - apply d_array; auto. intros i e He. destruct (H1 i e He) as (c' & A & B). exists c'. split; [apply in_or_app; auto|]. apply IH; auto. apply nth_error_In in He. apply size_array in He. lia.
  - apply d_object; auto. intros s e He. destruct (H1 s e He) as (c' & A & B). exists c'. split; [apply in_or_app; auto|]. apply IH; auto. apply size_object in He. lia.
Qed.

(** ** The loop *)
Lemma run_ok : forall fuel stack max, NoDup (map fst stack) -> (forall id v, In (id, v) stack -> id <= max /\ proper v) -> (sizes stack <= fuel)%nat ->
  exists D, run fuel stack max = Some D /\
  (forall n a x, In (n, a, x) D -> exists i, n = DInt i /\ (In i (map fst stack) \/ max < i)) /\
  (forall id v, In (id, v) stack -> describes D id v) /\ functional D /\
  (forall n a c, edge D n a c -> exists i, c = DInt i /\ max < i) /\
  (forall n a c n' a', edge D n a c -> edge D n' a' c -> n = n' /\ a = a').
Proof.
  induction fuel as [|fuel IH]; intros stack max Hn Hs Hf.
  - destruct stack as [|(id, v) stack]; [|exfalso; cbn in Hf; destruct v; cbn in Hf; lia]. exists []. cbn. repeat split; try (intros; contradiction). intros n a x y []. intros n a c ([] & _). all: destruct H as ([] & _).
  - destruct stack as [|(id, v) stack].
    { exists []. cbn. repeat split; try (intros; contradiction). intros n a x y []. intros n a c ([] & _). all: destruct H as ([] & _). }
    cbn [run]. destruct (visit id max v) as ((t, m), p) eqn:E. destruct (Hs id v (or_introl eq_refl)) as (Hid & Hv). apply visit_ok in E; auto. destruct E as (V1 & V2 & V3 & V4 & V5 & V6 & V7 & V8 & V9 & V10).
    cbn [map fst] in Hn. inversion_clear Hn as [|? ? Nid Nst].
    assert (St : forall i w, In (i, w) stack -> i <= max /\ i <> id). { intros i w K. split; [apply (Hs i w); now right|]. intros ->. apply Nid. apply (in_map fst) in K. exact K. }
    destruct (IH (rev p ++ stack) m) as (D & -> & R1 & R2 & R3 & R4 & R5).
    { rewrite map_app, map_rev. clear - V3 V4 Nst St. apply NoDup_rev in V4. revert V4. assert (A : forall x, In x (rev (map fst p)) -> max < x). { intros x Hx. apply in_rev in Hx. apply in_map_iff in Hx. destruct Hx as ((c, e) & <- & H). apply V3 in H. cbn. lia. }
      induction (rev (map fst p)) as [|x l IH]; intros N; cbn [app]; auto. inversion_clear N as [|? ? Nx Nl]. constructor; [|apply IH; auto; intros y Hy; apply A; now right]. intros H. apply in_app_or in H. destruct H as [H|H]; auto. apply in_map_iff in H. destruct H as ((i, w) & E & H). cbn in E. subst. apply St in H. specialize (A x (or_introl eq_refl)). lia. }
    { intros i w H. apply in_app_or in H. destruct H as [H|H]; [apply in_rev in H; split; [apply V3 in H; lia|eapply V9; eauto]|]. split; [apply St in H; lia|apply (Hs i w); now right]. }
    { rewrite sizes_app, sizes_rev. cbn [sizes fold_right snd] in Hf. fold (sizes stack) in Hf. lia. }
    assert (Nd : forall a x, ~ In (DInt id, a, x) D).
    { intros a x H. destruct (R1 _ _ _ H) as (i & Ei & [K|K]); injection Ei as <-; [|lia]. apply in_map_iff in K. destruct K as ((i, w) & Ei & K). cbn in Ei. subst i. apply in_app_or in K. destruct K as [K|K]; [apply in_rev in K; apply V3 in K; lia|]. apply St in K. tauto. }
    exists (t ++ D). split; [reflexivity|]. split; [|split; [|split; [|split]]].
    + intros n a x H. apply in_app_or in H. destruct H as [H|H]; [exists id; apply V2 in H; split; auto; left; now left|]. destruct (R1 _ _ _ H) as (i & -> & [K|K]); exists i; (split; [reflexivity|]); [|right; lia].
      rewrite map_app in K. apply in_app_or in K. destruct K as [K|K]; [|left; now right]. rewrite map_rev in K. apply in_rev in K. apply in_map_iff in K. destruct K as ((c, e) & <- & K). apply V3 in K. right. cbn. lia.
    + intros i w [H|H].
      * injection H as <- <-. apply V10.
        -- intros x H. apply in_or_app. auto.
        -- intros a x H. apply in_app_or in H. destruct H as [H|H]; auto. now apply Nd in H.
        -- intros c e H. apply (weaken id t D V2 Nd (S (size e))); auto. apply R2. apply in_or_app. left. now apply in_rev in H.
      * apply (weaken id t D V2 Nd (S (size w))); auto. apply R2. apply in_or_app. auto.
    + intros n a x y H H'. apply in_app_or in H, H'. destruct H as [H|H], H' as [H'|H'].
      * eapply V5; eauto.
      * apply V2 in H. subst. now apply Nd in H'.
      * apply V2 in H'. subst. now apply Nd in H.
      * eapply R3; eauto.
    + intros n a c (H & N). apply in_app_or in H. destruct H as [H|H]; [destruct (V6 n a c (conj H N)) as (i & -> & K); exists i; split; auto; lia|]. destruct (R4 n a c (conj H N)) as (i & -> & K). exists i. split; auto. lia.
    + intros n a c n' a' (H & N) (H' & N'). apply in_app_or in H, H'. destruct H as [H|H], H' as [H'|H'].
      * split; [apply V2 in H, H'; congruence|]. eapply V7; [exact (conj H N)|exact (conj H' N')].
      * destruct (V6 n a c (conj H N)) as (i & -> & K). destruct (R4 n' a' _ (conj H' N')) as (j & Ej & K'). injection Ej as <-. lia.
      * destruct (V6 n' a' c (conj H' N')) as (i & -> & K). destruct (R4 n a _ (conj H N)) as (j & Ej & K'). injection Ej as <-. lia.
      * eapply R5; [exact (conj H N)|exact (conj H' N')].
Qed.
Lemma read_json_ok (v : json) : proper v -> exists D, read_json v = Some D /\ describes D 0 v /\ functional D /\
  (forall n a x, In (n, a, x) D -> exists i, n = DInt i /\ 0 <= i) /\
  (forall n a c, edge D n a c -> exists i, c = DInt i /\ 0 < i) /\
  (forall n a c n' a', edge D n a c -> edge D n' a' c -> n = n' /\ a = a').
Proof.
  intros Hv. destruct (run_ok (size v) [(0, v)] 0) as (D & E & R1 & R2 & R3 & R4 & R5).
  - repeat constructor. intros [].
  - intros id w [H|[]]. injection H as <- <-. split; [lia|auto].
  - cbn. lia.
  - exists D. split; [exact E|]. split; [apply R2; now left|]. split; [exact R3|]. split; [|split; [exact R4|exact R5]].
    intros n a x H. destruct (R1 n a x H) as (i & -> & [[<-|[]]|K]); [exists 0|exists i]; split; auto; lia.
Qed.

(** ** Reading back *)
Lemma type_same D id ty ty' P P' : functional D -> typed D id ty P -> typed D id ty' P' -> ty = ty'.
Proof. intros F (H & _) (H' & _). specialize (F _ _ _ _ H H'). now injection F. Qed.
Lemma value_same D id ty ty' x y : functional D -> scalar D id ty x -> scalar D id ty' y -> x = y.
Proof. intros F (_ & H) (_ & H'). exact (F _ _ _ _ H H'). Qed.
Ltac differ := match goal with F : functional ?D, H : typed ?D ?i ?a _, H' : typed ?D ?i ?b _ |- _ => exfalso; pose proof (type_same _ _ _ _ _ _ F H H') as K; discriminate K end.
Lemma nth_len (l l' : list json) : (forall i e, nth_error l i = Some e -> exists e', nth_error l' i = Some e') -> (List.length l <= List.length l')%nat.
Proof.
  intros H. destruct (Nat.le_gt_cases (List.length l) (List.length l')) as [K|K]; auto. exfalso. destruct (nth_error l (List.length l')) as [e|] eqn:E; [|apply nth_error_None in E; lia]. destruct (H _ _ E) as (e' & E'). assert (nth_error l' (List.length l') <> None) as N by congruence. apply nth_error_Some in N. lia.
Qed.
Lemma read_back D (F : functional D) : forall k (v w : json) id, (size v < k)%nat -> describes D id v -> describes D id w -> same v w.
Proof.
  induction k as [|k IH]; intros v w id Hk Hv Hw; [lia|].
  inversion Hv; subst; inversion Hw; subst;
    repeat match goal with H : scalar _ _ _ _ |- _ => pose proof (proj1 H); revert H end; intros; try differ; try (apply s_null);
    try (match goal with H : scalar _ _ _ ?x, H' : scalar _ _ _ ?y |- _ => assert_fails (constr_eq H H'); pose proof (value_same _ _ _ _ _ _ F H H') as K; first [discriminate K|injection K as K; subst; constructor] end).
  - apply s_array.
    + apply Nat.le_antisymm; apply nth_len; intros i e He.
      * destruct (H0 i e He) as (c & A & _). destruct (proj2 H1 _ _ A) as [K|(j & e' & K & Ej)]; [discriminate|]. injection Ej as Ej. apply Nat2Z.inj in Ej. subst. eauto.
      * destruct (H2 i e He) as (c & A & _). destruct (proj2 H _ _ A) as [K|(j & e' & K & Ej)]; [discriminate|]. injection Ej as Ej. apply Nat2Z.inj in Ej. subst. eauto.
    + intros i e e' He He'. destruct (H0 i e He) as (c & A & B). destruct (H2 i e' He') as (c' & A' & B'). pose proof (F _ _ _ _ A A') as K. injection K as <-. eapply IH; eauto. apply nth_error_In in He. apply size_array in He. lia.
  - apply s_object.
    + intros s. split; intros Hin; apply in_map_iff in Hin; destruct Hin as ((s', e) & <- & He); cbn [fst].
      * destruct (H0 _ _ He) as (c & A & _). destruct (proj2 H1 _ _ A) as [K|(j & e' & K & Ej)]; [discriminate|]. injection Ej as ->. apply (in_map fst) in K. exact K.
      * destruct (H2 _ _ He) as (c & A & _). destruct (proj2 H _ _ A) as [K|(j & e' & K & Ej)]; [discriminate|]. injection Ej as ->. apply (in_map fst) in K. exact K.
    + intros s e e' He He'. destruct (H0 _ _ He) as (c & A & B). destruct (H2 _ _ He') as (c' & A' & B'). pose proof (F _ _ _ _ A A') as K. injection K as <-. eapply IH; eauto. apply size_object in He. lia.
Qed.
(** the order of the triples does not matter *)
Lemma describes_set D D' : (forall x, In x D <-> In x D') -> forall k v id, (size v < k)%nat -> describes D id v -> describes D' id v.
Proof.
  intros S. assert (T : forall id ty P, typed D id ty P -> typed D' id ty P). { intros id ty P (A & B). split; [now apply S|]. intros a x H. apply B with x. now apply S. }
  assert (C : forall id ty x, scalar D id ty x -> scalar D' id ty x). { intros id ty x (A & B). split; [auto|now apply S]. }
  induction k as [|k IH]; intros v id Hk H; [lia|]. inversion H; subst; try (constructor; now auto).
  - apply d_array; auto. intros i e He. destruct (H1 i e He) as (c & A & B). exists c. split; [now apply S|]. apply IH; auto. apply nth_error_In in He. apply size_array in He. lia.
  - apply d_object; auto. intros s e He. destruct (H1 s e He) as (c & A & B). exists c. split; [now apply S|]. apply IH; auto. apply size_object in He. lia.
Qed.
End Proofs.
