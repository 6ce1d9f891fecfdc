(** When imports with bindings end. *)
From Coq Require Import List Arith Bool Lia.
From Verif Require Import QueryModel QuerySpec PageModel PageSpec PageProofs1 PageProofs2.
Import ListNotations.

Section reader.
  Variable size : pattern -> nat.
  Variable limit : nat.
  Variable q : pattern.

  Lemma of_pages_fit ps again : (forall p, In p ps -> size (with_bindings q p) < limit) -> exists qs, of_pages size limit q ps again = Ends qs.
  Proof.
    induction ps as [|p ps IH]; cbn [of_pages]; intros F; [eauto|]. unfold query_with_bindings.
    assert (X : size (with_bindings q p) <? limit = true) by (apply Nat.ltb_lt, F; now left). rewrite X.
    destruct IH as (qs & ->); [intros x Hx; apply F; now right|]. cbn. eauto.
  Qed.
  Lemma of_pages_again ps qs0 : exists qs, of_pages size limit q ps (Ends qs0) = Ends qs.
  Proof.
    induction ps as [|p ps (qs & IH)]; cbn [of_pages]; [eauto|]. rewrite IH. destruct (query_with_bindings size limit q p); cbn; eauto.
  Qed.

  Lemma one_combination o n : combinations [(o, n)] = if is_empty n then [] else [[n]].
  Proof. unfold combinations. cbn. destruct (is_empty n); reflexivity. Qed.

  Lemma one_pages n page : bindings_chunks [n] page = Ends (if page <? 1 + count n then map (fun c => [c]) (chunks (Nat.max (div_ceil page 1) 1) n) else [[n]]).
  Proof. unfold bindings_chunks. cbn [sorted fold_right insert split_index]. destruct (page <? 1 + count n); reflexivity. Qed.

  Lemma one_queries o n : (forall r, In r (snd n) -> size (with_bindings q [(fst n, [r])]) < limit) ->
    forall k page, page <= k -> exists fuel qs, queries size limit fuel q [(o, n)] page = Ends qs.
  Proof.
    intros F. destruct (is_empty n) eqn:N.
    { intros _ page _. exists 1, []. cbn [queries]. rewrite one_combination, N. reflexivity. }
    assert (Tiny : forall page, page <= 1 -> exists fuel qs, queries size limit fuel q [(o, n)] page = Ends qs).
    { intros page L. exists 1. cbn [queries]. rewrite one_combination, N. cbn [of_combinations]. rewrite one_pages.
      assert (M : Nat.max page 1 = 1) by lia. rewrite M. assert (X : 1 <? 1 + count n = true).
      { apply Nat.ltb_lt. unfold is_empty in N. apply Nat.eqb_neq in N. lia. }
      rewrite X. cbn [after]. destruct (of_pages_fit (map (fun c => [c]) (chunks (Nat.max (div_ceil 1 1) 1) n)) Endless) as (qs & ->); [|cbn; eauto].
      intros p Hp. apply in_map_iff in Hp. destruct Hp as (c & <- & Hc). change (Nat.max (div_ceil 1 1) 1) with 1 in Hc. unfold chunks in Hc.
      apply in_map_iff in Hc. destruct Hc as (rs & <- & Hrs). assert (Q : exists r, rs = [r] /\ In r (snd n)).
      { assert (Sub : forall r, In r rs -> In r (snd n)) by (intros r Hr; apply (chunk_in r 1); [lia|eauto]). revert Hrs. unfold chunk_list.
        assert (One : forall fuel l, In rs (chop fuel 1 l) -> exists r, rs = [r]).
        { induction fuel as [|f IH]; intros [|x l]; cbn; try tauto. intros [<- |Hx]; [eauto|eauto]. }
        intros Hrs. destruct (One _ _ Hrs) as (r & Q). exists r. split; auto. apply Sub. rewrite Q. now left. }
      destruct Q as (r & -> & Hr). now apply F. }
    induction k as [|k IH]; intros page L; [apply Tiny; lia|].
    destruct (le_lt_dec page 1) as [P|P]; [now apply Tiny|].
    - destruct (IH (div_ceil page 2)) as (fuel & qs & H).
        { unfold div_ceil. assert ((page + (2 - 1)) / 2 < page) by (apply Nat.div_lt_upper_bound; lia). lia. }
        exists (S fuel). cbn [queries]. rewrite one_combination, N. cbn [of_combinations]. rewrite one_pages, H. cbn [after].
        match goal with |- context [of_pages size limit q ?ps _] => destruct (of_pages_again ps qs) as (qs1 & ->) end.
        cbn. eauto.
  Qed.

  Lemma queries_more fuel : forall pb page qs, queries size limit fuel q pb page = Ends qs -> queries size limit (S fuel) q pb page = Ends qs.
  Proof.
    assert (Op : forall ps a b qs, (forall x, a = Ends x -> b = Ends x) -> of_pages size limit q ps a = Ends qs -> of_pages size limit q ps b = Ends qs).
    { intros ps a b qs M. revert qs. induction ps as [|p ps IH]; cbn [of_pages]; intros qs H; [exact H|].
      destruct (query_with_bindings size limit q p).
      - apply after_ends in H. destruct H as (x & H & G). rewrite (IH _ H). exact G.
      - apply after_ends in H. destruct H as (x & H & G). apply after_ends in G. destruct G as (y & G & K). rewrite (IH _ G), (M _ H). exact K. }
    assert (Oc : forall page cs a b qs, (forall x, a = Ends x -> b = Ends x) -> of_combinations size limit q page cs a = Ends qs -> of_combinations size limit q page cs b = Ends qs).
    { intros page cs a b qs M. revert qs. induction cs as [|c cs IH]; cbn [of_combinations]; intros qs H; [exact H|].
      apply after_ends in H. destruct H as (x & H & G). apply after_ends in G. destruct G as (y & G & K). apply after_ends in K. destruct K as (z & K & R).
      rewrite H. cbn [after]. rewrite (Op _ _ _ _ M G). cbn [after]. rewrite (IH _ K). exact R. }
    induction fuel as [|f IH]; intros pb page qs H; [discriminate|]. cbn [queries] in H |- *. revert H. apply Oc. intros x. apply IH.
  Qed.
  Lemma queries_mono pb page qs fuel fuel' : fuel <= fuel' -> queries size limit fuel q pb page = Ends qs -> queries size limit fuel' q pb page = Ends qs.
  Proof. induction 1; auto. intros H'. apply queries_more. auto. Qed.

  Variable server : pattern -> answer.
  Hypothesis Hs : forall q', server q' <> Too_large.

  Lemma load_pages_ends again pb qs : exists r, load_pages server again pb qs = Ends r.
  Proof.
    induction qs as [|(p, q') qs (r & IH)]; cbn [load_pages]; [eauto|]. rewrite IH. specialize (Hs q'). destruct (server q'); [| tauto |]; cbn; eauto.
  Qed.

  Lemma load_ends max_page pb fuel qs : queries size limit fuel q pb max_page = Ends qs -> exists fuel r, load size limit server max_page fuel q pb = Ends r.
  Proof.
    intros H. exists (S fuel). cbn [load]. rewrite (queries_more _ _ _ _ H). apply load_pages_ends.
  Qed.

  Lemma small_pages bs page : list_sum (map count bs) < page -> bindings_chunks bs page = Ends [bs].
  Proof.
    intros L. unfold bindings_chunks. assert (X : split_index 1 page (sorted bs) = None); [|now rewrite X].
    assert (Ins : forall b l, list_sum (map count (insert b l)) = count b + list_sum (map count l)).
    { intros b l. induction l as [|c l IH]; cbn; [lia|]. destruct (count b <=? count c); cbn [map]; [reflexivity|]. cbn [list_sum fold_right] in *. unfold list_sum in *. cbn. lia. }
    assert (Sum : list_sum (map count (sorted bs)) = list_sum (map count bs)).
    { clear L. induction bs as [|b bs IH]; cbn [sorted fold_right]; auto. fold (sorted bs). rewrite Ins, IH. reflexivity. }
    rewrite <- Sum in L. assert (G : forall l acc, acc + list_sum (map count l) <= page -> split_index acc page l = None).
    { induction l as [|b l IH]; intros acc H; cbn [split_index]; auto. cbn in H. fold (list_sum (map count l)) in H.
      assert (Y : page <? acc + count b = false) by (apply Nat.ltb_ge; lia). rewrite Y, IH; [reflexivity|lia]. }
    apply G. lia.
  Qed.

  Lemma small_queries pb page : (forall c, In c (combinations pb) -> list_sum (map count c) < page /\ size (with_bindings q c) < limit) ->
    exists qs, queries size limit 1 q pb page = Ends qs.
  Proof.
    intros F. cbn [queries]. generalize (combinations pb) F. clear F. induction l as [|c l IH]; intros F; cbn [of_combinations]; [eauto|].
    destruct (F c (or_introl eq_refl)) as (F1 & F2). rewrite small_pages by lia. cbn [after].
    destruct (of_pages_fit [c] Endless) as (qs & ->); [intros p [<- |[]]; auto|]. destruct IH as (qs' & ->); [intros x Hx; apply F; now right|]. cbn. eauto.
  Qed.
End reader.
