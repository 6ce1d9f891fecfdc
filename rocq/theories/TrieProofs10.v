(* RowScan enumerates the rows of a tree. *)
From Coq Require Import List ZArith Bool Lia Arith Sorted.
From Verif Require Import ColumnModel ScanModel ScanSpec TrieModel TrieSpec TrieScanSpec TrieProofs1 TrieProofs2 TrieProofs3 TrieProofs4 TrieProofs6 TrieProofs7 TrieProofs8.
Import ListNotations.
Local Open Scope nat_scope.

Section Enum.
Variable n : nat.
Variable types : nat -> list stype.
Variable tau : tree.
Hypothesis Hproper : proper n types tau.

(* the rows below a path, the rest of them *)
Fixpoint below (m : nat) (p : row) : list row :=
  match m with
  | O => [[]]
  | S m' => concat (map (fun t => concat (map (fun z => map (cons (t, z)) (below m' (p ++ [(t, z)]))) (tau p t))) (types (length p)))
  end.
(* complete rows *)
Definition under (p : row) : list row := map (app p) (below (n - length p) p).
Definition under_values (p : row) (t : stype) (l : list Z) : list row := concat (map (fun z => under (p ++ [(t, z)])) l).
Definition under_types (p : row) (ts : list stype) : list row := concat (map (fun t => under_values p t (tau p t)) ts).
Definition later (k : nat) (t : stype) : list stype := filter (fun s => order t <? order s) (types k).

(* what remains to be visited; the frames from the last layer on *)
Fixpoint rest_rows (rfs : list frame) : list row :=
  match rfs with
  | [] => []
  | (t, c, l) :: rfs' =>
      let p := path (rev rfs') in
      under_values p t l ++ under_types p (later (length rfs') t) ++ rest_rows rfs'
  end.
Definition remaining (fs : list frame) : list row := rest_rows (rev fs).

Lemma remaining_snoc : forall (fs : list frame) t c l, remaining (fs ++ [(t, c, l)]) =
  under_values (path fs) t l ++ under_types (path fs) (later (length fs) t) ++ remaining fs.
Proof. intros fs t c l. unfold remaining. rewrite rev_app_distr. cbn [rev app rest_rows]. rewrite rev_involutive, rev_length. reflexivity. Qed.

Lemma below_in : forall m p r, length p + m = n -> (In r (below m p) <-> length r = m /\ in_tree tau p r).
Proof.
  induction m as [|m IH]; intros p r Hl; cbn [below].
  - split; [intros [<-|[]]; split; [reflexivity|exact I]|]. intros [H _]. left. destruct r; [reflexivity|discriminate].
  - rewrite in_concat. split.
    + intros (l & Hin & Hr). apply in_map_iff in Hin. destruct Hin as (t & <- & Ht). apply in_concat in Hr. destruct Hr as (l' & Hin & Hr).
      apply in_map_iff in Hin. destruct Hin as (z & <- & Hz). apply in_map_iff in Hr. destruct Hr as (r' & <- & Hr').
      apply IH in Hr'; [|rewrite app_length; cbn; lia]. destruct Hr' as [H1 H2]. cbn [length in_tree fst snd]. auto.
    + intros [Hlr Hin]. destruct r as [|[t z] r]; [discriminate|]. cbn [length in_tree fst snd] in *. destruct Hin as [Hz Hr].
      exists (concat (map (fun z => map (cons (t, z)) (below m (p ++ [(t, z)]))) (tau p t))). split.
      * apply in_map_iff. exists t. split; [reflexivity|]. apply (p_types _ _ _ Hproper); [lia|]. intros E. rewrite E in Hz. destruct Hz.
      * apply in_concat. exists (map (cons (t, z)) (below m (p ++ [(t, z)]))). split; [apply in_map_iff; eauto|].
        apply in_map. apply IH; [rewrite app_length; cbn; lia|]. split; [lia|exact Hr].
Qed.
Lemma under_in : forall p r, length p <= n -> (In r (under p) <-> exists q, r = p ++ q /\ length r = n /\ in_tree tau p q).
Proof.
  intros p r Hl. unfold under. rewrite in_map_iff. split.
  - intros (q & <- & Hq). apply below_in in Hq; [|lia]. exists q. split; [reflexivity|]. split; [rewrite app_length; lia|apply Hq].
  - intros (q & -> & Hlen & Hq). exists q. split; [reflexivity|]. apply below_in; [lia|]. rewrite app_length in Hlen. split; [lia|exact Hq].
Qed.

(* one layer down *)
Lemma map_concat : forall A B (f : A -> B) ls, map f (concat ls) = concat (map (map f) ls).
Proof. intros A B f. induction ls as [|l ls IH]; [reflexivity|]. cbn. rewrite map_app, IH. reflexivity. Qed.
Lemma under_unfold : forall p, length p < n -> under p = under_types p (types (length p)).
Proof.
  intros p Hl. unfold under, under_types, under_values. destruct (n - length p) as [|m] eqn:Em; [lia|]. cbn [below].
  rewrite map_concat, map_map. f_equal. apply map_ext. intros t. rewrite map_concat, map_map. f_equal. apply map_ext. intros z. unfold under.
  rewrite app_length. cbn [length]. replace (n - (length p + 1)) with m by lia. rewrite !map_map. apply map_ext. intros r. rewrite <- app_assoc. reflexivity.
Qed.
Lemma under_full : forall p, length p = n -> under p = [p].
Proof. intros p H. unfold under. replace (n - length p) with 0 by lia. cbn. rewrite app_nil_r. reflexivity. Qed.

(* ---------- order ---------- *)

Lemma row_lt_app : forall p v w r s, value_lt v w -> row_lt (p ++ v :: r) (p ++ w :: s).
Proof. intros p v w r s H. induction p as [|x p IH]; cbn [app row_lt]; auto. Qed.
Lemma row_lt_prefix : forall p r s, row_lt r s -> row_lt (p ++ r) (p ++ s).
Proof. intros p r s H. induction p as [|x p IH]; cbn [app row_lt]; auto. Qed.

Lemma under_prefix : forall p r, length p <= n -> In r (under p) -> exists q, r = p ++ q /\ length r = n.
Proof. intros p r Hl H. apply under_in in H; [|exact Hl]. destruct H as (q & E & H & _). eauto. Qed.
Lemma under_values_in : forall p t l r, length p < n -> In r (under_values p t l) -> exists z q, In z l /\ r = p ++ (t, z) :: q /\ length r = n.
Proof.
  intros p t l r Hl H. apply in_concat in H. destruct H as (l' & H1 & H2). apply in_map_iff in H1. destruct H1 as (z & <- & Hz).
  apply under_prefix in H2; [|rewrite app_length; cbn; lia]. destruct H2 as (q & -> & Hq). exists z, q. rewrite <- app_assoc in *. auto.
Qed.
Lemma under_types_in : forall p ts r, length p < n -> In r (under_types p ts) -> exists t z q, In t ts /\ In z (tau p t) /\ r = p ++ (t, z) :: q /\ length r = n.
Proof.
  intros p ts r Hl H. apply in_concat in H. destruct H as (l & H1 & H2). apply in_map_iff in H1. destruct H1 as (t & <- & Ht).
  apply under_values_in in H2; [|exact Hl]. destruct H2 as (z & q & Hz & Hq). exists t, z, q. auto.
Qed.

Lemma concat_sorted : forall A (R : A -> A -> Prop) (ls : list (list A)), (forall l, In l ls -> StronglySorted R l) ->
  StronglySorted (fun l m => forall x y, In x l -> In y m -> R x y) ls -> StronglySorted R (concat ls).
Proof.
  intros A R. induction ls as [|l ls IH]; intros H Hs; [constructor|]. inversion Hs as [|? ? Hs' Hf]; subst. cbn [concat]. apply sorted_app_intro.
  - apply H. left. reflexivity.
  - apply IH; [|exact Hs']. intros m Hm. apply H. right. exact Hm.
  - intros x y Hx Hy. apply in_concat in Hy. destruct Hy as (m & Hm & Hy). apply (proj1 (Forall_forall _ _) Hf m Hm x y Hx Hy).
Qed.
Lemma map_sorted : forall A B (R : A -> A -> Prop) (Q : B -> B -> Prop) (f : A -> B) l, (forall x y, R x y -> Q (f x) (f y)) ->
  StronglySorted R l -> StronglySorted Q (map f l).
Proof.
  intros A B R Q f l H. induction l as [|x l IH]; intros Hs; [constructor|]. inversion Hs as [|? ? Hs' Hf]; subst. cbn. constructor; [apply IH, Hs'|].
  apply Forall_forall. intros y Hy. apply in_map_iff in Hy. destruct Hy as (z & <- & Hz). apply H, (proj1 (Forall_forall _ _) Hf z Hz).
Qed.

Lemma under_sorted : forall m p, length p + m = n -> StronglySorted row_lt (under p).
Proof.
  induction m as [|m IH]; intros p Hl.
  - rewrite under_full by lia. repeat constructor.
  - rewrite under_unfold by lia. unfold under_types. apply concat_sorted.
    + intros l Hl'. apply in_map_iff in Hl'. destruct Hl' as (t & <- & _). unfold under_values. apply concat_sorted.
      * intros l Hl'. apply in_map_iff in Hl'. destruct Hl' as (z & <- & _). apply IH. rewrite app_length. cbn. lia.
      * apply (map_sorted _ _ Z.lt); [|apply (p_increasing _ _ _ Hproper); lia]. intros x y Hxy r s Hr Hs.
        apply under_prefix in Hr; [|rewrite app_length; cbn; lia]. apply under_prefix in Hs; [|rewrite app_length; cbn; lia].
        destruct Hr as (q & -> & _), Hs as (q' & -> & _). rewrite <- !app_assoc. apply row_lt_app. right. auto.
    + apply (map_sorted _ _ (fun s t => order s < order t)); [|apply (p_sorted _ _ _ Hproper); lia]. intros s t Hst r r' Hr Hr'.
      apply under_values_in in Hr; [|lia]. apply under_values_in in Hr'; [|lia]. destruct Hr as (z & q & _ & -> & _), Hr' as (z' & q' & _ & -> & _). apply row_lt_app. left. exact Hst.
Qed.

(* ---------- frames ---------- *)

(* the frames are part of the tree *)
Definition good_frame (k : nat) (p : row) (f : frame) : Prop :=
  In (f_type f) (types k) /\ exists gone, tau p (f_type f) = gone ++ ahead (f_current f) (snd f).
Definition good (fs : list frame) : Prop :=
  length fs <= n /\ forall k f, nth_error fs k = Some f -> good_frame k (path (firstn k fs)) f.

Lemma good_snoc : forall fs f, good (fs ++ [f]) <-> good fs /\ length fs < n /\ good_frame (length fs) (path fs) f.
Proof.
  intros fs f. unfold good. rewrite app_length. cbn [length]. split.
  - intros [Hl H]. split; [|split; [lia|]].
    + split; [lia|]. intros k g Hk. pose proof (nth_Some_lt _ _ _ _ Hk) as Hlt. rewrite <- (firstn_snoc_le _ fs f k) by flia.
      apply H. rewrite nth_error_app1 by flia. exact Hk.
    + specialize (H (length fs) f (nth_snoc _ _ _)). rewrite firstn_snoc_le, firstn_all in H by lia. exact H.
  - intros ([Hl H] & Hlt & Hf). split; [lia|]. intros k g Hk. destruct (Nat.lt_ge_cases k (length fs)) as [Hlt'|Hge].
    + rewrite nth_error_app1 in Hk by exact Hlt'. rewrite firstn_snoc_le by lia. apply H, Hk.
    + pose proof (nth_Some_lt _ _ _ _ Hk) as Hk'. rewrite app_length in Hk'. cbn in Hk'. assert (k = length fs) by flia. subst k.
      rewrite nth_snoc in Hk. injection Hk as <-. rewrite firstn_snoc_le, firstn_all by lia. exact Hf.
Qed.

Lemma path_length : forall fs, length (path fs) = length fs.
Proof. intros. unfold path. apply map_length. Qed.

(* what remains comes after the current path, in order *)
Lemma remaining_after : forall fs, good fs -> on_values fs ->
  forall r, In r (remaining fs) -> length r = n /\ row_lt (path fs) (firstn (length fs) r).
Proof.
  induction fs as [|f fs IH] using rev_ind; intros G Hv r Hr; [destruct Hr|]. apply good_snoc in G. destruct G as (G & Hl & Gf).
  destruct f as [[t c] l]. rewrite remaining_snoc in Hr. destruct c as [v|]; [|exfalso; apply (Hv (t, None, l)); [apply in_or_app; right; left; reflexivity|reflexivity]].
  rewrite path_snoc. change (f_value (t, Some v, l)) with (t, v). rewrite app_length. cbn [length].
  destruct Gf as [Gt (gone & Gg)]. cbn [f_type f_current fst snd ahead] in Gt, Gg.
  assert (Hfirst : forall w q, firstn (length fs + 1) (path fs ++ w :: q) = path fs ++ [w]).
  { intros w q. rewrite <- (path_length fs), firstn_app_2. reflexivity. }
  apply in_app_or in Hr. destruct Hr as [Hr|Hr]; [|apply in_app_or in Hr; destruct Hr as [Hr|Hr]].
  - apply under_values_in in Hr; [|rewrite path_length; exact Hl]. destruct Hr as (z & q & Hz & -> & Hlen). split; [exact Hlen|]. rewrite Hfirst.
    apply row_lt_app. right. cbn. split; [reflexivity|]. pose proof (p_increasing _ _ _ Hproper (path fs) t ltac:(rewrite path_length; exact Hl)) as Hi.
    unfold increasing in Hi. rewrite Gg in Hi. apply sorted_app in Hi. destruct Hi as (_ & Hi & _). inversion Hi as [|? ? _ Hf]; subst.
    apply (proj1 (Forall_forall _ _) Hf z Hz).
  - apply under_types_in in Hr; [|rewrite path_length; exact Hl]. destruct Hr as (t' & z & q & Ht' & Hz & -> & Hlen). split; [exact Hlen|]. rewrite Hfirst.
    apply row_lt_app. left. unfold later in Ht'. apply filter_In in Ht'. destruct Ht' as [_ Ht']. apply Nat.ltb_lt in Ht'. exact Ht'.
  - destruct (IH G) with (r := r) as [Hlen Hlt]; [intros g Hg; apply Hv, in_or_app; left; exact Hg|exact Hr|]. split; [exact Hlen|].
    assert (E : firstn (length fs + 1) r = firstn (length fs) r ++ [nth (length fs) r dflt]) by (rewrite Nat.add_1_r; apply firstn_snoc; flia).
    rewrite E. clear -Hlt Hlen Hl. 
    assert (HL : length (path fs) = length (firstn (length fs) r)) by (rewrite path_length, firstn_length_le; flia).
    revert Hlt HL. generalize (firstn (length fs) r). generalize (path fs). induction r0 as [|x a IHa]; intros [|y b] Hlt HL; cbn [row_lt app] in *; try tauto.
    destruct Hlt as [H|[-> H]]; [left; exact H|]. right. split; [reflexivity|]. apply IHa; [exact H|]. cbn in HL. lia.
Qed.
End Enum.
