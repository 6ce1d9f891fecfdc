(** Proofs: different patterns have different names. *)
From Coq Require Import DecimalString DecimalNat DecimalFacts Decimal String Ascii List Arith Bool.
From Verif Require Import RequestModel.
Import ListNotations.
Local Open Scope list_scope.

Notation chars := list_ascii_of_string.

Lemma chars_app : forall s t, chars (s ++ t)%string = chars s ++ chars t.
Proof. induction s as [|c s IH]; intros t; cbn; [reflexivity | f_equal; apply IH]. Qed.

Lemma chars_inj : forall s t, chars s = chars t -> s = t.
Proof. intros s t H. rewrite <- (string_of_list_ascii_of_string s), <- (string_of_list_ascii_of_string t). f_equal. exact H. Qed.

(** The part after the last separator. *)
Lemma split_last : forall (c : ascii) l1 l2 t1 t2, ~ In c t1 -> ~ In c t2 -> l1 ++ c :: t1 = l2 ++ c :: t2 -> l1 = l2 /\ t1 = t2.
Proof.
  intros c l1. induction l1 as [|x l1 IH]; intros [|y l2] t1 t2 H1 H2 H; cbn in H.
  - injection H as ->. auto.
  - injection H as -> ->. exfalso. apply H1. apply in_or_app. right. left. reflexivity.
  - injection H as -> <-. exfalso. apply H2. apply in_or_app. right. left. reflexivity.
  - injection H as -> H. destruct (IH l2 t1 t2 H1 H2 H) as [-> ->]. auto.
Qed.

Lemma digits : forall n c, In c (chars (decimal n)) -> ~ In c ["_"; ","; "b"; "f"]%char.
Proof.
  intros n c. unfold decimal. generalize (Nat.to_uint n). intros u. induction u; cbn; intros H; [destruct H| | | | | | | | | |];
    (destruct H as [<- | H]; [intros H; repeat (destruct H as [H | H]; [discriminate|]); exact H | apply IHu; exact H]).
Qed.

Lemma decimal_nonempty : forall n, chars (decimal n) <> [].
Proof.
  intros n. unfold decimal. assert (H : Nat.to_uint n <> Nil) by (pose proof (Unsigned.to_of (Nat.to_uint n)) as E; rewrite Unsigned.of_to in E; rewrite E; apply unorm_nonnil).
  destruct (Nat.to_uint n); cbn; [contradiction| | | | | | | | | |]; discriminate.
Qed.

Lemma decimal_inj : forall n m, decimal n = decimal m -> n = m.
Proof.
  intros n m H. unfold decimal in H. apply (f_equal NilEmpty.uint_of_string) in H. rewrite !NilEmpty.usu in H. injection H as H.
  apply Unsigned.to_uint_inj. exact H.
Qed.

Definition commas (l : list nat) : list ascii := chars (String.concat "," (map decimal l)).

Lemma commas_cons : forall n m l, commas (n :: m :: l) = chars (decimal n) ++ ","%char :: commas (m :: l).
Proof. intros n m l. unfold commas. cbn [map String.concat]. rewrite !chars_app. reflexivity. Qed.

Lemma commas_one : forall n, commas [n] = chars (decimal n).
Proof. reflexivity. Qed.

Lemma split_first : forall (c : ascii) a b s t, ~ In c a -> ~ In c b -> a ++ c :: s = b ++ c :: t -> a = b /\ s = t.
Proof.
  intros c a. induction a as [|x a IH]; intros [|y b] s t Ha Hb H; cbn in H.
  - injection H as ->. auto.
  - injection H as -> _. exfalso. apply Hb. left. reflexivity.
  - injection H as <- _. exfalso. apply Ha. left. reflexivity.
  - injection H as <- H. assert (N : ~ In c a) by (intros I; apply Ha; right; exact I). assert (N' : ~ In c b) by (intros I; apply Hb; right; exact I).
    destruct (IH b s t N N' H) as [-> ->]. auto.
Qed.

Lemma no_comma : forall n, ~ In ","%char (chars (decimal n)).
Proof. intros n H. apply (digits n _ H). cbn. auto. Qed.

Lemma commas_inj : forall l m, l <> [] -> m <> [] -> commas l = commas m -> l = m.
Proof.
  induction l as [|n l IH]; intros m Hl Hm H; [contradiction|]. destruct m as [|k m]; [contradiction|].
  destruct l as [|n' l], m as [|k' m].
  - rewrite !commas_one in H. f_equal. apply decimal_inj. apply chars_inj. exact H.
  - rewrite commas_one, commas_cons in H. exfalso. apply (no_comma n). rewrite H. apply in_or_app. right. left. reflexivity.
  - rewrite commas_one, commas_cons in H. exfalso. apply (no_comma k). rewrite <- H. apply in_or_app. right. left. reflexivity.
  - rewrite !commas_cons in H. apply split_first in H; [|apply no_comma | apply no_comma]. destruct H as [H1 H2].
    apply chars_inj in H1. apply decimal_inj in H1. subst. f_equal. apply IH; [discriminate | discriminate | exact H2].
Qed.

Lemma commas_chars : forall l c, In c (commas l) -> ~ In c ["_"; "b"; "f"]%char.
Proof.
  induction l as [|n l IH]; intros c H; [destruct H|].
  assert (D : In c (chars (decimal n)) -> ~ In c ["_"; "b"; "f"]%char).
  { intros I J. apply (digits n c I). cbn in J |- *. tauto. }
  destruct l as [|m l]; [rewrite commas_one in H; apply D; exact H|]. rewrite commas_cons in H. apply in_app_or in H.
  destruct H as [H | [<- | H]]; [apply D; exact H | | apply IH; exact H].
  intros J. cbn in J. repeat (destruct J as [J | J]; [discriminate|]). exact J.
Qed.

Lemma commas_nonempty : forall l, l <> [] -> commas l <> [].
Proof.
  intros [|n [|m l]] H; [contradiction | rewrite commas_one; apply decimal_nonempty|]. rewrite commas_cons.
  intros E. apply app_eq_nil in E. destruct E as [_ E]. discriminate.
Qed.

Lemma letters_chars : forall l c, In c (chars (letters l)) -> In c ["b"; "f"]%char.
Proof.
  induction l as [|b l IH]; intros c H; [destruct H|]. cbn [letters list_ascii_of_string] in H.
  destruct H as [<- | H]; [destruct b; cbn; auto | apply IH; exact H].
Qed.

Lemma letters_inj : forall l m, letters l = letters m -> l = m.
Proof.
  induction l as [|b l IH]; intros [|b' m] H; cbn in H; try discriminate; [reflexivity|].
  injection H as H1 H2. f_equal; [destruct b, b'; congruence | apply IH; exact H2].
Qed.

Lemma letters_no_underscore : forall l, ~ In "_"%char (chars (letters l)).
Proof. intros l H. apply letters_chars in H. cbn in H. destruct H as [H | [H | []]]; discriminate. Qed.

Lemma name_chars : forall p, chars (name p) = (chars "__IMPORT_" ++ chars (p_pred p)) ++ "_"%char :: chars (letters (p_bound p)) ++
  match p_subset p with None => [] | Some l => "_"%char :: commas l end.
Proof.
  intros p. unfold name. rewrite !chars_app. destruct (p_subset p); rewrite <- app_assoc; [|reflexivity].
  rewrite chars_app. reflexivity.
Qed.

Lemma name_inj : forall p q, p_subset p <> Some [] -> p_subset q <> Some [] -> name p = name q -> p = q.
Proof.
  intros [p bp sp] [q bq sq] Hp Hq H. apply (f_equal chars) in H. rewrite !name_chars in H. cbn [p_pred p_bound p_subset] in *.
  assert (NC : forall l, ~ In "_"%char (commas l)) by (intros l I; apply (commas_chars _ _ I); cbn; auto).
  assert (Mixed : forall a b l x y, l <> [] -> (chars "__IMPORT_" ++ chars x) ++ "_"%char :: chars (letters a) ++ [] =
                    (chars "__IMPORT_" ++ chars y) ++ "_"%char :: chars (letters b) ++ "_"%char :: commas l -> False).
  { intros a b l x y Hl E. rewrite app_nil_r in E. change ("_"%char :: chars (letters b) ++ "_"%char :: commas l) with (("_"%char :: chars (letters b)) ++ "_"%char :: commas l) in E.
    rewrite (app_assoc (chars "__IMPORT_" ++ chars y)) in E. apply split_last in E; [|apply letters_no_underscore | apply NC].
    destruct E as [_ E]. pose proof (commas_nonempty l Hl) as N. destruct (commas l) as [|c cs] eqn:Ec; [contradiction|].
    assert (I : In c (chars (letters a))) by (rewrite E; left; reflexivity). apply letters_chars in I.
    apply (commas_chars l c); [rewrite Ec; left; reflexivity | right; exact I]. }
  destruct sp as [l|], sq as [m|].
  - assert (Hl : l <> []) by (intros ->; contradiction). assert (Hm : m <> []) by (intros ->; contradiction).
    change ("_"%char :: chars (letters bp) ++ "_"%char :: commas l) with (("_"%char :: chars (letters bp)) ++ "_"%char :: commas l) in H.
    change ("_"%char :: chars (letters bq) ++ "_"%char :: commas m) with (("_"%char :: chars (letters bq)) ++ "_"%char :: commas m) in H.
    rewrite !(app_assoc (chars "__IMPORT_" ++ _)) in H. apply split_last in H; [|apply NC | apply NC]. destruct H as [H1 H2].
    apply commas_inj in H2; [|assumption | assumption]. apply split_last in H1; [|apply letters_no_underscore | apply letters_no_underscore].
    destruct H1 as [H1 H3]. apply app_inv_head in H1. apply chars_inj in H1, H3. apply letters_inj in H3. subst. reflexivity.
  - exfalso. eapply (Mixed bq bp l q p); [intros ->; contradiction | symmetry; exact H].
  - exfalso. eapply (Mixed bp bq m p q); [intros ->; contradiction | exact H].
  - rewrite !app_nil_r in H. apply split_last in H; [|apply letters_no_underscore | apply letters_no_underscore].
    destruct H as [H1 H3]. apply app_inv_head in H1. apply chars_inj in H1, H3. apply letters_inj in H3. subst. reflexivity.
Qed.
