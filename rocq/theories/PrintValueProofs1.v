(** Proofs for C57: escaping, the longest prefix, and what typed literals can be. *)
From Coq Require Import ZArith Bool String Lia List.
From Verif Require Import LexModel PrintValueModel PrintValueSpec.
Import ListNotations.
Open Scope Z_scope.
Open Scope list_scope.

(** ** Escaping *)
Lemma replace_cons c b x s : replace c b (x :: s) = (if x =? c then b else [x]) ++ replace c b s.
Proof. reflexivity. Qed.
Lemma replace_app c b s t : replace c b (s ++ t) = replace c b s ++ replace c b t.
Proof. apply flat_map_app. Qed.
Lemma escape_ok s : escaped s (escape s).
Proof.
  induction s as [|c s IH]; [constructor|]. unfold escape in *. rewrite replace_cons.
  destruct (Z.eqb_spec c 92) as [->|N1]; [rewrite !replace_app; cbn [replace flat_map Z.eqb Pos.eqb app]; constructor; exact IH|].
  cbn [app]. rewrite (replace_cons 34).
  destruct (Z.eqb_spec c 34) as [->|N2]; [rewrite !replace_app; cbn [replace flat_map Z.eqb Pos.eqb app]; constructor; exact IH|].
  cbn [app]. rewrite (replace_cons 13).
  destruct (Z.eqb_spec c 13) as [->|N3]; [rewrite !replace_app; cbn [replace flat_map Z.eqb Pos.eqb app]; constructor; exact IH|].
  cbn [app]. rewrite (replace_cons 10).
  destruct (Z.eqb_spec c 10) as [->|N4]; cbn [app]; constructor; [exact IH|repeat split; assumption|exact IH].
Qed.
Lemma escaped_length s t : escaped s t -> (List.length s <= List.length t)%nat.
Proof. induction 1; cbn [List.length]; lia. Qed.
Lemma escaped_plain s t : escaped s t -> (t = s <-> plain s).
Proof.
  induction 1 as [|c s t P H IH|s t H _|s t H _|s t H _|s t H _]; split; intros A; try (constructor; fail); try reflexivity.
  - injection A as ->. constructor; auto. now apply IH.
  - inversion A; subst. f_equal. now apply IH.
  - exfalso. apply escaped_length in H. apply (f_equal (@List.length Z)) in A. cbn [List.length] in A. lia.
  - exfalso. inversion A as [|? ? (P1 & P2 & P3 & P4) _]. congruence.
  - exfalso. apply escaped_length in H. apply (f_equal (@List.length Z)) in A. cbn [List.length] in A. lia.
  - exfalso. inversion A as [|? ? (P1 & P2 & P3 & P4) _]. congruence.
  - exfalso. apply escaped_length in H. apply (f_equal (@List.length Z)) in A. cbn [List.length] in A. lia.
  - exfalso. inversion A as [|? ? (P1 & P2 & P3 & P4) _]. congruence.
  - exfalso. apply escaped_length in H. apply (f_equal (@List.length Z)) in A. cbn [List.length] in A. lia.
  - exfalso. inversion A as [|? ? (P1 & P2 & P3 & P4) _]. congruence.
Qed.
Lemma escaped_no_quote s t : escaped s t -> ~ In 34 s -> ~ In 34 t.
Proof.
  induction 1 as [|c s t P H IH|s t H IH|s t H IH|s t H IH|s t H IH]; intros N I.
  - destruct I.
  - destruct I as [E|I]; [apply N; now left|]. apply IH; [intros J; apply N; now right|exact I].
  - destruct I as [E|[E|I]]; [discriminate|discriminate|]. apply IH; [intros J; apply N; now right|exact I].
  - apply N. now left.
  - destruct I as [E|[E|I]]; [discriminate|discriminate|]. apply IH; [intros J; apply N; now right|exact I].
  - destruct I as [E|[E|I]]; [discriminate|discriminate|]. apply IH; [intros J; apply N; now right|exact I].
Qed.
Lemma escaped_quote s t : escaped s t -> In 34 s -> exists p q, t = p ++ 34 :: q /\ ~ In 34 p /\ p <> [].
Proof.
  induction 1 as [|c s t P H IH|s t H IH|s t H IH|s t H IH|s t H IH]; intros I.
  - destruct I.
  - destruct I as [E|I]; [destruct P as (P & _); congruence|]. destruct (IH I) as (p & q & -> & Np & _). exists (c :: p), q. repeat split; [|discriminate].
    intros [E|J]; [destruct P as (P & _); congruence|auto].
  - destruct I as [E|I]; [discriminate|]. destruct (IH I) as (p & q & -> & Np & _). exists (92 :: 92 :: p), q. repeat split; [|discriminate].
    intros [E|[E|J]]; [discriminate|discriminate|auto].
  - exists [92], t. repeat split; [|discriminate]. intros [E|[]]; discriminate.
  - destruct I as [E|I]; [discriminate|]. destruct (IH I) as (p & q & -> & Np & _). exists (92 :: 114 :: p), q. repeat split; [|discriminate].
    intros [E|[E|J]]; [discriminate|discriminate|auto].
  - destruct I as [E|I]; [discriminate|]. destruct (IH I) as (p & q & -> & Np & _). exists (92 :: 110 :: p), q. repeat split; [|discriminate].
    intros [E|[E|J]]; [discriminate|discriminate|auto].
Qed.
Lemma escape_plain s : plain s -> escape s = s.
Proof. intros H. now apply (escaped_plain s _ (escape_ok s)). Qed.
Lemma plain_no_quote s : plain s -> ~ In 34 s.
Proof. intros H I. unfold plain in H. rewrite Forall_forall in H. destruct (H _ I) as (A & _). congruence. Qed.

(** ** Characters *)
Lemma is_alpha_ok c : is_alpha c = true <-> letter c.
Proof. unfold is_alpha, letter. rewrite orb_true_iff, !andb_true_iff, !Z.leb_le. tauto. Qed.
Lemma is_digit_ok c : is_digit_char c = true <-> digit_char c.
Proof. unfold is_digit_char, digit_char. rewrite andb_true_iff, !Z.leb_le. tauto. Qed.
Lemma is_name_rest_ok c : is_name_rest c = true <-> letter c \/ digit_char c \/ c = 95 \/ c = 37.
Proof. unfold is_name_rest. rewrite !orb_true_iff, is_alpha_ok, is_digit_ok, !Z.eqb_eq. tauto. Qed.
Lemma is_iri_char_ok c : is_iri_char c = true <-> c <> 62 /\ c <> 32 /\ c <> 10.
Proof. unfold is_iri_char. rewrite negb_true_iff, !orb_false_iff, !Z.eqb_neq. tauto. Qed.
Lemma is_name_rest_chars r : is_name_ false r = true <-> Forall (fun x => letter x \/ digit_char x \/ x = 95 \/ x = 45) r.
Proof.
  induction r as [|c r IH]; cbn [is_name_]; [split; auto|].
  destruct (is_digit_char c || (c =? 95) || (c =? 45)) eqn:E.
  - rewrite !orb_true_iff, is_digit_ok, !Z.eqb_eq in E. rewrite IH. split; [intros H; constructor; tauto|intros H; now inversion H].
  - rewrite !orb_false_iff, !Z.eqb_neq in E. destruct E as ((E1 & E2) & E3). assert (D : ~ digit_char c) by (rewrite <- is_digit_ok; congruence).
    destruct (is_alpha c) eqn:A.
    + apply is_alpha_ok in A. rewrite IH. split; [intros H; constructor; tauto|intros H; now inversion H].
    + assert (L : ~ letter c) by (rewrite <- is_alpha_ok; congruence). split; [discriminate|intros H; inversion H; tauto].
Qed.
Lemma is_name_ok t : is_name t = true <-> printed_name t.
Proof.
  unfold is_name, printed_name. destruct t as [|c r]; cbn [is_name_]; [split; auto|].
  destruct (is_digit_char c || (c =? 95) || (c =? 45)) eqn:E.
  - rewrite !orb_true_iff, is_digit_ok, !Z.eqb_eq in E. split; [discriminate|]. intros [H|(c' & r' & H & L & _)]; [discriminate|]. injection H as <- <-.
    exfalso. unfold letter, digit_char in *. lia.
  - destruct (is_alpha c) eqn:A.
    + apply is_alpha_ok in A. rewrite is_name_rest_chars. split; [intros H; right; exists c, r; auto|]. intros [H|(c' & r' & H & L & F)]; [discriminate|]. now injection H as <- <-.
    + assert (L : ~ letter c) by (rewrite <- is_alpha_ok; congruence). split; [discriminate|]. intros [H|(c' & r' & H & L' & _)]; [discriminate|]. injection H as <- <-. tauto.
Qed.

(** ** The longest prefix *)
Definition stops (f : Z -> bool) (r : str) : Prop := match r with [] => True | c :: _ => f c = false end.
Lemma span_app f a r : Forall (fun c => f c = true) a -> stops f r -> span f (a ++ r) = (a, r).
Proof.
  intros H S. induction a as [|c a IH]; cbn [app span].
  - destruct r as [|c r]; [reflexivity|]. cbn [span]. cbn in S. now rewrite S.
  - inversion H; subst. rewrite H2, IH by assumption. reflexivity.
Qed.
Lemma span_spec f i : let (a, b) := span f i in i = a ++ b /\ Forall (fun c => f c = true) a /\ stops f b.
Proof.
  induction i as [|c i IH]; cbn [span]; [repeat split; constructor|]. destruct (f c) eqn:E.
  - destruct (span f i) as (a, b). destruct IH as (-> & A & B). repeat split; auto.
  - repeat split; [constructor|exact E].
Qed.
Lemma strip_prefix_app p s r : strip_prefix p (p ++ s) = Some r <-> r = s.
Proof. induction p as [|x p IH]; cbn [strip_prefix app]; [split; congruence|]. now rewrite Z.eqb_refl. Qed.
Lemma strip_prefix_some p s r : strip_prefix p s = Some r -> s = p ++ r.
Proof. revert s. induction p as [|x p IH]; intros s H; cbn in H; [injection H as ->; reflexivity|]. destruct s as [|y s]; [discriminate|]. destruct (Z.eqb_spec x y) as [->|]; [|discriminate]. cbn. f_equal. auto. Qed.

(** ** Typed literals *)
Lemma str_eqb_ok a b : str_eqb a b = true <-> a = b.
Proof.
  revert b. induction a as [|x a IH]; destruct b as [|y b]; cbn; try (split; congruence).
  rewrite andb_true_iff, Z.eqb_eq, IH. split; [intros (-> & ->); reflexivity|intros [= -> ->]; auto].
Qed.
(** The characters of a number *)
Definition number_char (c : Z) : Prop := 48 <= c <= 57 \/ c = 45 \/ c = 46.
Lemma scan_char_chars st c st' : scan_char st c = Some st' -> Forall number_char (trimmed st) -> Forall number_char (trimmed st').
Proof.
  unfold scan_char. intros H F. assert (A : forall x, Forall number_char (trimmed st) -> number_char x -> Forall number_char (trimmed st ++ [x])).
  { intros x G N. apply Forall_app. split; [exact G|]. constructor; [exact N|constructor]. }
  assert (M : number_char 45) by (unfold number_char; lia). assert (P : number_char 46) by (unfold number_char; lia). assert (Z0 : number_char 48) by (unfold number_char; lia).
  destruct ((c =? 45) && _ && _); [injection H as <-; cbn [trimmed]; auto|].
  destruct ((c =? 43) && _ && _); [injection H as <-; cbn [trimmed]; auto|].
  destruct ((49 <=? c) && (c <=? 57)) eqn:D.
  { injection H as <-. cbn [trimmed]. apply A; [exact F|]. apply andb_true_iff in D. rewrite !Z.leb_le in D. unfold number_char. lia. }
  destruct (c =? 48); [injection H as <-; cbn [trimmed]; destruct (in_leading_zeros st); auto|].
  destruct (c =? 46); [|discriminate]. destruct (in_fraction st); [discriminate|]. injection H as <-. cbn [trimmed].
  apply Forall_app. split; [|constructor; [exact P|constructor]]. destruct (in_leading_zeros st); auto.
Qed.
Lemma scan_all_chars s : forall st st', scan_all st s = Some st' -> Forall number_char (trimmed st) -> Forall number_char (trimmed st').
Proof.
  induction s as [|c s IH]; intros st st' H F; cbn in H; [now injection H as <-|]. destruct (scan_char st c) as [st1|] eqn:E; [|discriminate].
  eapply IH; [exact H|]. eapply scan_char_chars; eauto.
Qed.
Lemma firstn_Forall {A} (P : A -> Prop) n l : Forall P l -> Forall P (firstn n l).
Proof. intros H. revert n. induction H; intros [|n]; cbn; constructor; auto. Qed.

Definition from_literal {F} (c dt : str) (v : dval F) : Prop :=
  match v with
  | VString l => l = c
  | VOther l d => l = c /\ d = dt \/ Forall number_char l /\ (d = xsd "integer" \/ d = xsd "decimal")
  | VIri _ | VLang _ _ => False
  | _ => True
  end.
Lemma large_from F s t c dt (v : dval F) : parse_large_decimal_literal s t = POk v -> from_literal c dt v.
Proof.
  unfold parse_large_decimal_literal. destruct (scan_all scan0 s) as [st|] eqn:E; [|discriminate].
  assert (N : Forall number_char (trimmed st)) by (eapply scan_all_chars; [exact E|constructor]). clear E.
  assert (N' : Forall number_char (firstn (len_at_trailing_zeros st) (trimmed st))) by now apply firstn_Forall.
  assert (M : Forall number_char (if in_fraction st then firstn (len_at_trailing_zeros st) (trimmed st) else trimmed st)) by (destruct (in_fraction st); assumption).
  cbv zeta. set (tv := if in_fraction st then firstn (len_at_trailing_zeros st) (trimmed st) else trimmed st) in *. clearbody tv. clear N N'.
  intros H. repeat match type of H with
    | (if ?b then _ else _) = _ => destruct b
    | (match ?b with _ => _ end) = _ => destruct b
    end; try discriminate; injection H as <-; cbn [from_literal]; auto.
Qed.
Lemma typed_from F c dt (v : dval F) : new_from_typed_literal c dt = POk v -> from_literal c dt v.
Proof.
  unfold new_from_typed_literal. destruct (strip_prefix xsd_prefix dt) as [n|]; [|intros [= <-]; cbn; auto].
  assert (I : forall lo hi, parse_integer (F := F) c lo hi = POk v -> from_literal c dt v).
  { intros lo hi. unfold parse_integer. destruct (parse_i64 c); [|discriminate]. destruct (negb _); [discriminate|]. intros [= <-]. exact I. }
  assert (D : forall t, new_from_decimal_type_literal (F := F) c t = POk v -> from_literal c dt v).
  { intros t. unfold new_from_decimal_type_literal. destruct (parse_i64 c) as [z|e].
    - unfold from_decimal_typed_long. intros H. destruct t; repeat match type of H with (if ?b then _ else _) = _ => destruct b end; try discriminate; injection H as <-; exact Logic.I.
    - intros H. destruct e; try discriminate; [destruct t; try discriminate| |]; eapply large_from; exact H. }
  intros H. repeat match type of H with (if str_eqb n _ then _ else _) = _ => destruct (str_eqb n _); [eauto|] end.
  all: try (injection H as <-; cbn; auto; fail).
  all: try (unfold parse_integer_unbounded in H; destruct (parse_i64 c); [injection H as <-; exact Logic.I|discriminate]; fail).
  all: try (destruct (parse_u64 c); [destruct (in_bounds _ _ _); injection H as <-; exact Logic.I|discriminate]; fail).
  all: try (destruct (f64_parse F c); [injection H as <-; exact Logic.I|discriminate]; fail).
  all: try (destruct (_ || _); [injection H as <-; exact Logic.I|destruct (_ || _); [injection H as <-; exact Logic.I|discriminate]]; fail).
Qed.
