(** Records that are written are read back. *)
From Coq Require Import List ZArith Lia Bool.
From Verif Require Import LexModel LexSpec DsvModel DsvSpec.
Import ListNotations.
Open Scope Z_scope.
Open Scope list_scope.

Section Csv.
Context (d : Z) (Hd : good_delimiter d).

Lemma d_quote : (d =? quote) = false. Proof. destruct Hd as (A & _). now apply Z.eqb_neq. Qed.
Lemma quote_d : (quote =? d) = false. Proof. rewrite Z.eqb_sym. apply d_quote. Qed.
Lemma d_term : is_term d = false.
Proof. destruct Hd as (_ & A & B). unfold is_term, cr, lf. apply orb_false_iff. split; now apply Z.eqb_neq. Qed.
Lemma lf_d : (lf =? d) = false. Proof. destruct Hd as (_ & A & B). apply Z.eqb_neq. unfold lf. congruence. Qed.

Definition goes_on (f : str) (row : list str) (c : Z) (rest : str) : list (list str) :=
  if c =? d then csv_run true d StartField [] (f :: row) rest
  else rev (f :: row) :: csv_run true d StartRecord [] [] rest.

Definition plain (c : Z) : Prop := must_quote d c = false.
Lemma plain_facts c : plain c -> (c =? d) = false /\ (c =? quote) = false /\ is_term c = false.
Proof.
  unfold plain, must_quote, is_term. intros H. apply orb_false_iff in H as [H L]. apply orb_false_iff in H as [H R].
  apply orb_false_iff in H as [D Q]. rewrite R, L. auto.
Qed.

Lemma end_char c : c = d \/ c = lf -> (c =? d) = true \/ (c =? d) = false /\ c = lf.
Proof. intros [-> | ->]; [left; apply Z.eqb_refl|right; split; [apply lf_d|reflexivity]]. Qed.

Lemma run_in_field : forall f fld row c rest, Forall plain f -> (c = d \/ c = lf) ->
  csv_run true d InField fld row (f ++ c :: rest) = goes_on (rev fld ++ f) row c rest.
Proof.
  induction f as [|x f IH]; intros fld row c rest H C.
  - cbn [app csv_run]. rewrite app_nil_r. unfold goes_on. destruct (end_char c C) as [E|[E ->]]; rewrite E; auto.
  - inversion H; subst. destruct (plain_facts x H2) as (A & B & T). cbn [app csv_run]. rewrite A, T, IH by auto.
    cbn [rev]. now rewrite <- app_assoc.
Qed.

Lemma run_plain_field f row c rest : Forall plain f -> (c = d \/ c = lf) ->
  csv_run true d StartField [] row (f ++ c :: rest) = goes_on f row c rest.
Proof.
  intros H C. destruct f as [|x f].
  - cbn [app csv_run]. unfold goes_on. destruct C as [-> | ->].
    + rewrite d_quote, Z.eqb_refl. reflexivity.
    + rewrite lf_d. reflexivity.
  - inversion H; subst. destruct (plain_facts x H2) as (A & B & T). cbn [app csv_run]. rewrite B, A, T. cbn [andb].
    rewrite run_in_field by auto. reflexivity.
Qed.

Definition double (f : str) : str := flat_map (fun c => if c =? quote then [quote; quote] else [c]) f.
Lemma run_quoted : forall f fld row c rest, (c = d \/ c = lf) ->
  csv_run true d InQuoted fld row (double f ++ quote :: c :: rest) = goes_on (rev fld ++ f) row c rest.
Proof.
  induction f as [|x f IH]; intros fld row c rest C.
  - cbn [double flat_map app csv_run]. rewrite Z.eqb_refl. cbn [csv_run]. rewrite app_nil_r. unfold goes_on.
    destruct (end_char c C) as [E|[E ->]]; rewrite E.
    + apply Z.eqb_eq in E. subst. rewrite d_quote. reflexivity.
    + reflexivity.
  - cbn [double flat_map]. fold (double f). destruct (x =? quote) eqn:E.
    + apply Z.eqb_eq in E. subst. cbn [app csv_run]. rewrite ?Z.eqb_refl. cbn [csv_run]. rewrite ?Z.eqb_refl. rewrite IH by auto.
      cbn [rev]. now rewrite <- app_assoc.
    + cbn [app csv_run]. rewrite E, IH by auto. cbn [rev]. now rewrite <- app_assoc.
Qed.

Lemma run_field f row c rest : (c = d \/ c = lf) ->
  csv_run true d StartField [] row (write_field d f ++ c :: rest) = goes_on f row c rest.
Proof.
  intros C. unfold write_field. destruct (existsb (must_quote d) f) eqn:E.
  - cbn [app csv_run]. rewrite Z.eqb_refl. cbn [andb]. rewrite <- app_assoc. cbn [app]. fold (double f).
    now rewrite run_quoted.
  - apply run_plain_field; auto. apply Forall_forall. intros x I. unfold plain. destruct (must_quote d x) eqn:Q; auto.
    assert (existsb (must_quote d) f = true) by (apply existsb_exists; eauto). congruence.
Qed.

Lemma run_fields : forall fs row rest, fs <> [] ->
  csv_run true d StartField [] row (write_fields d fs ++ lf :: rest) =
    (rev row ++ fs) :: csv_run true d StartRecord [] [] rest.
Proof.
  induction fs as [|f fs IH]; intros row rest N; [congruence|]. destruct fs as [|g fs].
  - cbn [write_fields]. rewrite run_field by auto. unfold goes_on. rewrite lf_d. reflexivity.
  - change (write_fields d (f :: g :: fs)) with (write_field d f ++ d :: write_fields d (g :: fs)).
    rewrite <- app_assoc. cbn [app]. rewrite run_field by auto. unfold goes_on. rewrite Z.eqb_refl.
    rewrite IH by discriminate. cbn [rev]. now rewrite <- app_assoc.
Qed.

Lemma hd_write_field f c s : write_field d f = c :: s -> is_term c = false.
Proof.
  unfold write_field. destruct (existsb (must_quote d) f) eqn:E; [intros [= <- _]; reflexivity|].
  intros ->. cbn [existsb] in E. apply orb_false_iff in E as [E _]. now apply plain_facts in E.
Qed.
Lemma hd_write_fields fs c s : write_fields d fs = c :: s -> is_term c = false.
Proof.
  destruct fs as [|f [|g fs]]; [discriminate|apply hd_write_field|].
  change (write_fields d (f :: g :: fs)) with (write_field d f ++ d :: write_fields d (g :: fs)).
  destruct (write_field d f) as [|x w] eqn:E; cbn [app]; intros [= <- _]; [apply d_term|]. eapply hd_write_field; eauto.
Qed.
Lemma start_record_field c s : is_term c = false ->
  csv_run true d StartRecord [] [] (c :: s) = csv_run true d StartField [] [] (c :: s).
Proof. intros H. cbn [csv_run]. now rewrite H. Qed.

Lemma empty_fields fs : fs <> [] -> write_fields d fs = [] -> fs = [[]].
Proof.
  destruct fs as [|f [|g fs]]; [congruence| |]; intros _ H.
  - cbn [write_fields] in H. unfold write_field in H. destruct (existsb _ f); [discriminate|]. now rewrite H.
  - change (write_fields d (f :: g :: fs)) with (write_field d f ++ d :: write_fields d (g :: fs)) in H.
    destruct (write_field d f); discriminate.
Qed.

Lemma run_record fs rest : fs <> [] ->
  csv_run true d StartRecord [] [] (write_record d fs ++ rest) = fs :: csv_run true d StartRecord [] [] rest.
Proof.
  intros N. unfold write_record. destruct (write_fields d fs) as [|c s] eqn:E.
  - rewrite (empty_fields fs N E). cbn [app]. rewrite start_record_field by reflexivity.
    cbn [csv_run]. rewrite ?Z.eqb_refl. cbn [andb csv_run]. rewrite ?Z.eqb_refl. cbn [csv_run].
    change (lf =? quote) with false. cbn iota. rewrite lf_d. reflexivity.
  - pose proof (hd_write_fields _ _ _ E) as T. rewrite <- app_assoc. cbn [app]. rewrite start_record_field by auto.
    change (c :: s ++ lf :: rest) with ((c :: s) ++ lf :: rest). rewrite <- E. rewrite run_fields by auto. reflexivity.
Qed.

Lemma run_records : forall rs, Forall (fun r => r <> []) rs -> csv_run true d StartRecord [] [] (csv_write d rs) = rs.
Proof.
  induction rs as [|r rs IH]; intros H; [reflexivity|]. inversion H; subst. cbn [csv_write flat_map].
  fold (csv_write d rs). rewrite run_record by auto. now rewrite IH.
Qed.

Lemma strip_bom_id s : no_bom s -> strip_bom s = s.
Proof.
  destruct s as [|c s]; auto. unfold no_bom, strip_bom, bom. cbn. intros H. destruct (Z.eqb_spec c 65279) as [->|]; congruence.
Qed.

Theorem csv_roundtrip h rs : Forall (fun r => r <> []) rs -> no_bom (csv_write d rs) ->
  csv_read true h d (csv_write d rs) = if h then tl rs else rs.
Proof. intros H B. unfold csv_read. rewrite strip_bom_id by auto. now rewrite run_records. Qed.
End Csv.
