(** The new names of the variables, and columns. *)
From Coq Require Import String Ascii List Arith Bool Decimal DecimalNat DecimalString Lia.
From Verif Require Import QueryModel QuerySpec QueryProofs1.
Import ListNotations.
Local Open Scope list_scope.

Lemma decimal_inj n m : decimal n = decimal m -> n = m.
Proof.
  intros H. unfold decimal in H. apply (f_equal NilEmpty.uint_of_string) in H. rewrite !NilEmpty.usu in H. injection H as H.
  now apply Unsigned.to_uint_inj.
Qed.

Lemma substring_full s : substring 0 (String.length s) s = s.
Proof. induction s as [|a s IH]; cbn; auto. now rewrite IH. Qed.

Lemma append_length s t : String.length (s ++ t) = String.length s + String.length t.
Proof. induction s as [|a s IH]; cbn; auto. Qed.

Lemma strip_plain v : ~ is_label v -> strip_label v = v.
Proof.
  intros H. unfold strip_label. destruct (String.eqb_spec (substring (String.length v - 5) 5 v) "Label") as [Q|Q]; auto.
  exfalso. apply H. exists (substring 0 (String.length v - 5) v). rewrite <- Q. clear.
  assert (G : forall k, k <= String.length v -> v = (substring 0 k v ++ substring k (String.length v - k) v)%string).
  { induction v as [|a v IH]; intros [|k]; cbn; intros L; auto; try lia.
    - now rewrite substring_full.
    - f_equal. apply IH. lia. }
  assert (L : String.length v - (String.length v - 5) = 5 \/ String.length v < 5) by lia. destruct L as [L|L].
  - rewrite <- L at 3. apply G. lia.
  - replace (String.length v - 5) with 0 by lia. cbn. clear - L.
    destruct v as [|a [|b [|c [|d [|e v]]]]]; cbn in *; auto; lia.
Qed.

Fixpoint first_index (u : string) (vs : list string) : option nat :=
  match vs with [] => None | v :: rest => if String.eqb v u then Some 0 else option_map S (first_index u rest) end.

Lemma first_index_in u vs : In u vs -> exists k, first_index u vs = Some k.
Proof.
  induction vs as [|v vs IH]; intros []; cbn.
  - subst. rewrite String.eqb_refl. eauto.
  - destruct (String.eqb v u); eauto. destruct (IH H) as (k & ->). cbn. eauto.
Qed.
Lemma first_index_nth u vs k : first_index u vs = Some k -> nth_error vs k = Some u.
Proof.
  revert k. induction vs as [|v vs IH]; intros k; cbn; [discriminate|]. destruct (String.eqb_spec v u) as [-> |N].
  - intros [= <-]. auto.
  - destruct (first_index u vs); [|discriminate]. intros [= <-]. cbn. auto.
Qed.
Lemma first_index_nodup u vs k : NoDup vs -> nth_error vs k = Some u -> first_index u vs = Some k.
Proof.
  intros N. revert k. induction N as [|v vs Hv _ IH]; intros [|k]; cbn; try discriminate.
  - intros [= ->]. now rewrite String.eqb_refl.
  - intros H. destruct (String.eqb_spec v u) as [-> |]; [apply nth_error_In in H; contradiction|]. now rewrite (IH k H).
Qed.
Lemma first_index_none u vs : first_index u vs = None <-> ~ In u vs.
Proof.
  split.
  - intros H Hu. apply first_index_in in Hu. destruct Hu as (k & E). congruence.
  - intros H. destruct (first_index u vs) as [k|] eqn:E; auto. apply first_index_nth, nth_error_In in E. contradiction.
Qed.

Lemma lookup_push m prefix count v u : ~ is_label v -> ~ is_label u ->
  lookup (push_name m prefix count v) u = match lookup m u with Some w => Some w | None => if String.eqb v u then Some (prefix ++ decimal count)%string else None end.
Proof.
  intros Hv Hu. unfold push_name. rewrite (strip_plain v Hv).
  destruct (String.eqb_spec v u) as [<- |N].
  - destruct (lookup m v) eqn:E; [now rewrite E|]. unfold lookup. cbn [find fst]. now rewrite String.eqb_refl.
  - destruct (lookup m v) eqn:E; [destruct (lookup m u); auto|]. unfold lookup at 1. cbn [find fst].
    destruct (String.eqb_spec v u) as [|_]; [contradiction|].
    destruct (String.eqb_spec (v ++ "Label") u) as [Q|_]; [exfalso; apply Hu; eexists; eauto|]. fold (lookup m u).
    destruct (lookup m u); auto.
Qed.

Lemma lookup_push_all m prefix count vs u : (forall v, In v vs -> ~ is_label v) -> ~ is_label u ->
  lookup (push_all m prefix count vs) u =
  match lookup m u with Some w => Some w | None => option_map (fun k => (prefix ++ decimal (count + k))%string) (first_index u vs) end.
Proof.
  revert m count. induction vs as [|v vs IH]; intros m count Hvs Hu; cbn [push_all first_index].
  - destruct (lookup m u); auto.
  - rewrite IH; [|intros x Hx; apply Hvs; now right|auto]. rewrite lookup_push by (auto; apply Hvs; now left).
    destruct (lookup m u); auto. destruct (String.eqb v u); cbn; [now rewrite Nat.add_0_r|].
    destruct (first_index u vs); cbn; auto. now rewrite Nat.add_succ_r.
Qed.

Section names.
  Variable order : list string -> list string.
  Hypothesis Ho : forall l v, In v (order l) <-> In v l.

  (** The new name of a variable. *)
  Lemma new_name_of prefix vars joins u :
    (forall v, In v joins \/ In v (fst vars) \/ In v (snd vars) -> ~ is_label v) -> ~ is_label u ->
    rename_variable (standardize order prefix vars joins) u =
    match first_index u joins with
    | Some k => ("j" ++ decimal k)%string
    | None => match first_index u (order (fst vars) ++ order (snd vars)) with
              | Some k => (prefix ++ decimal k)%string
              | None => u
              end
    end.
  Proof.
    intros H Hu. unfold rename_variable, standardize.
    rewrite lookup_push_all; [|intros v Hv; apply H; right; rewrite in_app_iff, !Ho in Hv; exact Hv|auto].
    rewrite lookup_push_all by auto. unfold lookup at 1. cbn [find]. destruct (first_index u joins); cbn [option_map]; auto.
    destruct (first_index u (order (fst vars) ++ order (snd vars))); cbn [option_map]; rewrite ?Nat.add_0_l; auto.
  Qed.
End names.

Lemma append_inj_l c s t : (c ++ s = c ++ t)%string -> s = t.
Proof. induction c as [|a c IH]; cbn; auto. intros [= H]. auto. Qed.

Lemma j_not prefix n k : prefix <> "j"%string -> String.length prefix = 1 -> ("j" ++ decimal n <> prefix ++ decimal k)%string.
Proof.
  intros H L E. destruct prefix as [|a [|b p]]; try discriminate. cbn in E. injection E as <- _. apply H. auto.
Qed.

(** The variables found by the code are all the variables that can have values. *)
Lemma value_vars_found p v : In v (value_vars p) -> In v (fst (variables_in p)) \/ In v (snd (variables_in p)).
Proof.
  induction p; cbn; rewrite ?in_app_iff; intros H; try tauto; try (destruct H as [H|H]; [auto|]); try (destruct (IHp H); tauto);
    try (destruct (IHp1 H); tauto); try (destruct (IHp2 H); tauto).
Qed.

Section injective.
  Variable order : list string -> list string.
  Hypothesis Ho : forall l v, In v (order l) <-> In v l.
  Variables (prefix : string) (p : pattern) (joins : list string).
  Hypothesis Hp : In prefix ["l"; "r"; "v"]%string.
  Hypothesis Pn : plain_names p.
  Hypothesis Hj : incl joins (fst (variables_in p)).
  Let f := rename_variable (standardize order prefix (variables_in p) joins).

  Lemma prefix_ok : prefix <> "j"%string /\ String.length prefix = 1.
  Proof. destruct Hp as [<- |[<- |[<- |[]]]]; split; auto; discriminate. Qed.

  Lemma f_name u : In u (all_vars p) ->
    (exists k, first_index u joins = Some k /\ f u = ("j" ++ decimal k)%string) \/
    (~ In u joins /\ exists k, first_index u (order (fst (variables_in p)) ++ order (snd (variables_in p))) = Some k /\ f u = (prefix ++ decimal k)%string) \/
    (~ In u (fst (variables_in p)) /\ ~ In u (snd (variables_in p)) /\ ~ In u joins /\ f u = u).
  Proof.
    intros H. destruct Pn as (P1 & P2). assert (E : f u = match first_index u joins with
    | Some k => ("j" ++ decimal k)%string
    | None => match first_index u (order (fst (variables_in p)) ++ order (snd (variables_in p))) with
              | Some k => (prefix ++ decimal k)%string
              | None => u
              end
    end).
    { apply new_name_of; auto. intros v Hv. apply P1. apply variables_in_all. destruct Hv as [Hv|Hv]; auto. }
    destruct (first_index u joins) as [k|] eqn:F; [left; eauto|]. apply first_index_none in F. right.
    destruct (first_index u (order _ ++ order _)) as [k|] eqn:G; [left; eauto|]. right. apply first_index_none in G.
    rewrite in_app_iff, !Ho in G. tauto.
  Qed.

  Lemma f_inj u w : In u (all_vars p) -> In w (all_vars p) -> f u = f w -> u = w.
  Proof.
    intros Hu Hw E. destruct Pn as (P1 & P2). destruct prefix_ok as (Q1 & Q2).
    assert (New : forall c k x, In x (all_vars p) -> ~ In x (fst (variables_in p)) -> ~ In x (snd (variables_in p)) -> In c ["j"; "l"; "r"; "v"]%string -> x <> (c ++ decimal k)%string).
    { intros c k x X1 X2 X3 X4 X5. apply (P2 x X1); [|exists c, k; auto]. intros G. apply value_vars_found in G. tauto. }
    assert (Hp' : In prefix ["j"; "l"; "r"; "v"]%string) by (right; auto).
    destruct (f_name u Hu) as [(k & A1 & A2)|[(A0 & k & A1 & A2)|(A1 & A2 & A3 & A4)]],
             (f_name w Hw) as [(k' & B1 & B2)|[(B0 & k' & B1 & B2)|(B1 & B2 & B3 & B4)]].
    - rewrite A2, B2 in E. apply append_inj_l, decimal_inj in E. subst k'. apply first_index_nth in A1, B1. congruence.
    - exfalso. apply (j_not prefix k k'); auto. congruence.
    - exfalso. apply (New "j"%string k w); auto; [now left|congruence].
    - exfalso. apply (j_not prefix k' k); auto. congruence.
    - rewrite A2, B2 in E. apply append_inj_l, decimal_inj in E. subst k'. apply first_index_nth in A1, B1. congruence.
    - exfalso. apply (New prefix k w); auto. congruence.
    - exfalso. apply (New "j"%string k' u); auto; [now left|congruence].
    - exfalso. apply (New prefix k' u); auto. congruence.
    - congruence.
  Qed.

  Lemma f_join u k : first_index u joins = Some k -> f u = ("j" ++ decimal k)%string.
  Proof.
    intros H. assert (Hu : In u (all_vars p)).
    { apply variables_in_all. left. apply Hj. apply first_index_nth, nth_error_In in H. auto. }
    destruct (f_name u Hu) as [(k' & A1 & A2)|[(A0 & _)|(_ & _ & A3 & _)]]; [congruence| |];
      exfalso; apply first_index_none in A0 || apply first_index_none in A3; congruence.
  Qed.

  Lemma f_scope u : In u (fst (variables_in p)) \/ In u (snd (variables_in p)) -> ~ In u joins -> exists k, f u = (prefix ++ decimal k)%string.
  Proof.
    intros H N. assert (Hu : In u (all_vars p)) by (apply variables_in_all; auto).
    destruct (f_name u Hu) as [(k & A1 & _)|[(_ & k & _ & A2)|(A1 & A2 & _)]]; [|eauto|tauto].
    apply first_index_none in N. congruence.
  Qed.
End injective.

(** ** Columns *)

Lemma without_drop {A} k gone (l : list A) :
  without k gone l = flat_map (fun i => if existsb (Nat.eqb (k + i)) gone then [] else match nth_error l i with Some x => [x] | None => [] end)
    (seq 0 (List.length l)).
Proof.
  revert k. induction l as [|x l IH]; intros k; cbn [without List.length seq flat_map]; auto.
  rewrite Nat.add_0_r. cbn [nth_error]. assert (E : without (S k) gone l = flat_map (fun i => if existsb (Nat.eqb (k + i)) gone then [] else
    match nth_error (x :: l) i with Some x => [x] | None => [] end) (seq 1 (List.length l))).
  { rewrite IH, <- seq_shift. rewrite flat_map_concat_map, flat_map_concat_map, map_map. f_equal. apply map_ext. intros i.
    cbn [nth_error]. now rewrite Nat.add_succ_r. }
  rewrite <- E. destruct (existsb (Nat.eqb k) gone); auto.
Qed.

Lemma without_columns {A} gone (l : list A) : without 0 gone l = drop_columns gone l.
Proof. apply without_drop. Qed.

Lemma without_map {A B} (g : A -> B) k gone l : without k gone (map g l) = map g (without k gone l).
Proof. revert k. induction l as [|x l IH]; intros k; cbn; auto. destruct (existsb (Nat.eqb k) gone); cbn; now rewrite IH. Qed.

Lemma without_filter {A} (b : A -> bool) k gone gone' (l : list A) :
  (forall i x, nth_error l i = Some x -> b x = negb (existsb (Nat.eqb (k + i)) gone')) ->
  filter b (without k gone l) = without k (gone ++ gone') l.
Proof.
  revert k. induction l as [|x l IH]; intros k H; cbn [without filter]; auto. rewrite existsb_app.
  assert (Hx := H 0 x eq_refl). rewrite Nat.add_0_r in Hx.
  assert (IH' := IH (S k)). rewrite <- IH'; [|intros i y Hy; rewrite Nat.add_succ_l, <- Nat.add_succ_r; now apply H].
  destruct (existsb (Nat.eqb k) gone); cbn [orb filter]; auto. rewrite Hx. destruct (existsb (Nat.eqb k) gone'); auto.
Qed.

Lemma in_without {A} k gone (l : list A) x : In x (without k gone l) -> In x l.
Proof. revert k. induction l as [|y l IH]; intros k; cbn; auto. destruct (existsb _ gone); cbn; intros H; [right|destruct H; [left|right]]; eauto. Qed.

Lemma in_without_at {A} k gone (l : list A) x : In x (without k gone l) -> exists i, nth_error l i = Some x /\ existsb (Nat.eqb (k + i)) gone = false.
Proof.
  revert k. induction l as [|y l IH]; intros k; cbn [without]; [intros []|].
  assert (R : In x (without (S k) gone l) -> exists i, nth_error (y :: l) i = Some x /\ existsb (Nat.eqb (k + i)) gone = false).
  { intros H. apply IH in H. destruct H as (i & H1 & H2). exists (S i). rewrite Nat.add_succ_r. auto. }
  destruct (existsb (Nat.eqb k) gone) eqn:E; auto. intros [-> |H]; auto. exists 0. rewrite Nat.add_0_r. auto.
Qed.
