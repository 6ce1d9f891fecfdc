(** Proofs for C57: parsing quoted texts, names and IRIs. *)
From Coq Require Import ZArith Bool String Lia List.
From Verif Require Import LexModel PrintValueModel PrintValueSpec PrintValueProofs1.
Import ListNotations.
Open Scope Z_scope.
Open Scope list_scope.

Definition no_quote_first (k : str) : Prop := match k with 34 :: _ => False | _ => True end.
Lemma chr_cons c r : chr c (c :: r) = Some (tt, r).
Proof. unfold chr, tag. cbn [strip_prefix]. now rewrite Z.eqb_refl. Qed.
Lemma chr_inv c i r : chr c i = Some (tt, r) -> i = c :: r.
Proof. unfold chr, tag. destruct (strip_prefix [c] i) eqn:E; [|discriminate]. apply strip_prefix_some in E. intros [= <-]. exact E. Qed.
Lemma string_chars_quoted e k : ~ In 34 e -> string_chars (e ++ 34 :: k) = match e with [] => None | _ => Some (e, 34 :: k) end.
Proof.
  intros N. unfold string_chars, take_while1. rewrite (span_app _ e (34 :: k)).
  - destruct e; reflexivity.
  - apply Forall_forall. intros c I. apply negb_true_iff, Z.eqb_neq. intros ->. auto.
  - reflexivity.
Qed.
Lemma content_quoted e k : ~ In 34 e -> (e = [] -> no_quote_first k) -> parse_string_content (34 :: e ++ 34 :: k) = Some (e, k).
Proof.
  intros N Q. unfold parse_string_content, alt at 1.
  assert (T : tag [34; 34; 34] (34 :: e ++ 34 :: k) = None).
  { destruct e as [|c e]; [destruct k as [|d k]; [reflexivity|]|].
    - change (option_map (pair tt) (if 34 =? d then strip_prefix [] k else None) = None). destruct (Z.eqb_spec 34 d) as [<-|D]; [destruct (Q eq_refl)|reflexivity].
    - change (option_map (pair tt) (if 34 =? c then strip_prefix [34] (e ++ 34 :: k) else None) = None). destruct (Z.eqb_spec 34 c) as [<-|]; [destruct N; now left|reflexivity]. }
  rewrite T. cbn [bind]. rewrite chr_cons. cbn [bind]. unfold alt. rewrite string_chars_quoted by assumption.
  destruct e as [|c e]; cbn [empty bind app]; rewrite chr_cons; reflexivity.
Qed.

(** What a text that begins with a quoted part is read as *)
Definition after_quoted (e k : str) : option (basic * str) :=
  match (match e with [] => None | _ => bind (tag datatype_indicator k) (fun _ r => structure_tag r) end) with
  | Some (t, r) => Some (BRdf e t, r)
  | None => bind (opt language_tag k) (fun l r => Some (BString e l, r))
  end.
Lemma parse_quoted e k : ~ In 34 e -> (e = [] -> no_quote_first k) -> parse_basic (34 :: e ++ 34 :: k) = after_quoted e k.
Proof.
  intros N Q. unfold parse_basic. unfold alt at 1. replace (parse_blank (34 :: e ++ 34 :: k)) with (@None (basic * str)) by reflexivity.
  unfold alt at 1. replace (parse_boolean (34 :: e ++ 34 :: k)) with (@None (basic * str)) by reflexivity.
  unfold alt at 1. replace (pmap BConst structure_tag (34 :: e ++ 34 :: k)) with (@None (basic * str)) by reflexivity.
  unfold alt, after_quoted, parse_rdf, parse_string. rewrite chr_cons. cbn [bind]. rewrite string_chars_quoted, content_quoted by assumption.
  destruct e as [|c e]; cbn [bind]; [reflexivity|]. rewrite chr_cons. cbn [bind].
  destruct (tag datatype_indicator k) as [(u, r)|]; cbn [bind]; [|reflexivity]. destruct (structure_tag r) as [(t, r')|]; reflexivity.
Qed.

(** ** Names *)
Definition name_end (r : str) : Prop := stops is_name_rest r.
Lemma delimited_end r : delimited r -> name_end r.
Proof. destruct r as [|c r]; [auto|]. intros H. cbn in H. cbn. repeat (destruct H as [<-|H]; [reflexivity|]). destruct H. Qed.
Lemma name_read t r : tag_name t -> name_end r -> name (t ++ r) = Some (t, r).
Proof.
  intros (c & s & -> & L & F) S. cbn [app name]. apply is_alpha_ok in L. rewrite L. rewrite span_app; [reflexivity| |exact S].
  eapply Forall_impl; [|exact F]. intros x. now rewrite is_name_rest_ok.
Qed.
Lemma name_inv i n r : name i = Some (n, r) -> i = n ++ r /\ tag_name n.
Proof.
  destruct i as [|c i]; [discriminate|]. cbn [name]. destruct (is_alpha c) eqn:L; [|discriminate].
  pose proof (span_spec is_name_rest i) as S. destruct (span is_name_rest i) as (a, b). intros [= <- <-]. destruct S as (-> & F & _).
  split; [reflexivity|]. exists c, a. split; [reflexivity|]. split; [now apply is_alpha_ok|]. eapply Forall_impl; [|exact F]. intros x. now rewrite is_name_rest_ok.
Qed.

(** ** IRIs *)
Lemma tag_iri r : structure_tag (60 :: r) = parse_iri (60 :: r).
Proof. reflexivity. Qed.
Lemma iri_read dt r : iri_text dt -> structure_tag (60 :: dt ++ 62 :: r) = Some (TIri dt, r).
Proof.
  intros (N & F). rewrite tag_iri. unfold parse_iri. rewrite chr_cons. cbn [bind]. unfold take_while1. rewrite span_app.
  - destruct dt; [congruence|]. cbn [bind]. rewrite chr_cons. reflexivity.
  - eapply Forall_impl; [|exact F]. intros x. now rewrite is_iri_char_ok.
  - reflexivity.
Qed.
Lemma iri_inv i t r : structure_tag (60 :: i) = Some (t, r) -> exists s, t = TIri s /\ i = s ++ 62 :: r /\ iri_text s.
Proof.
  rewrite tag_iri. unfold parse_iri. rewrite chr_cons. cbn [bind]. unfold take_while1. pose proof (span_spec is_iri_char i) as S.
  destruct (span is_iri_char i) as (a, b). destruct S as (-> & F & _). destruct a as [|c a]; [discriminate|]. cbn [bind].
  destruct (chr 62 b) as [(u, r')|] eqn:E; [|discriminate]. destruct u. apply chr_inv in E. subst b. cbn [bind]. intros [= <- <-].
  exists (c :: a). split; [reflexivity|]. split; [reflexivity|]. split; [discriminate|]. eapply Forall_impl; [|exact F]. intros x. now rewrite is_iri_char_ok.
Qed.
Lemma iri_same dt t r : structure_tag (60 :: dt ++ 62 :: r) = Some (t, r) -> t = TIri dt /\ iri_text dt.
Proof. intros H. apply iri_inv in H. destruct H as (s & -> & E & T). apply app_inv_tail in E. subst s. auto. Qed.

(** ** Constants *)
Lemma parse_iri_const t r : parse_basic (60 :: t ++ 62 :: r) = match structure_tag (60 :: t ++ 62 :: r) with Some (x, r') => Some (BConst x, r') | None => None end.
Proof.
  unfold parse_basic. unfold alt at 1. replace (parse_blank (60 :: t ++ 62 :: r)) with (@None (basic * str)) by reflexivity.
  unfold alt at 1. replace (parse_boolean (60 :: t ++ 62 :: r)) with (@None (basic * str)) by reflexivity.
  unfold alt at 1, pmap. destruct (structure_tag (60 :: t ++ 62 :: r)) as [(x, r')|]; [reflexivity|]. reflexivity.
Qed.
Lemma boolean_inv i b r : parse_boolean i = Some (b, r) -> exists v : bool, b = BBool v /\ i = (if v then lit "true" else lit "false") ++ r.
Proof.
  unfold parse_boolean, alt, pmap, tag. destruct (strip_prefix (lit "true") i) as [s|] eqn:E; cbn [option_map bind].
  - intros [= <- <-]. exists true. split; [reflexivity|]. now apply strip_prefix_some.
  - destruct (strip_prefix (lit "false") i) as [s|] eqn:E'; cbn [option_map bind]; [|discriminate]. intros [= <- <-]. exists false. split; [reflexivity|]. now apply strip_prefix_some.
Qed.
Lemma boolean_none i : parse_boolean i = None <-> ~ begins (lit "true") i /\ ~ begins (lit "false") i.
Proof.
  unfold parse_boolean, alt, pmap, tag, begins. split.
  - destruct (strip_prefix (lit "true") i) eqn:E; cbn [option_map bind]; [discriminate|]. destruct (strip_prefix (lit "false") i) eqn:E'; cbn [option_map bind]; [discriminate|].
    intros _. split; intros (r & ->); [rewrite (proj2 (strip_prefix_app _ _ _) eq_refl) in E|rewrite (proj2 (strip_prefix_app _ _ _) eq_refl) in E']; discriminate.
  - intros (A & B). destruct (strip_prefix (lit "true") i) eqn:E; cbn [option_map bind]; [apply strip_prefix_some in E; destruct A; eauto|].
    destruct (strip_prefix (lit "false") i) eqn:E'; cbn [option_map bind]; [apply strip_prefix_some in E'; destruct B; eauto|reflexivity].
Qed.
(** Texts that begin with a letter: truth values first, then prefixed names, then names *)
Lemma parse_letter c i : letter c -> parse_basic (c :: i) =
  match parse_boolean (c :: i) with
  | Some x => Some x
  | None => match name (c :: i) with
            | Some (n, r) => match bind (chr 58 r) (fun _ r => bind (name r) (fun m r => Some (TPrefixed n m, r))) with
                             | Some (t, r') => Some (BConst t, r')
                             | None => Some (BConst (TPlain n), r)
                             end
            | None => None
            end
  end.
Proof.
  intros L. unfold parse_basic. unfold alt at 1. assert (B : parse_blank (c :: i) = None).
  { unfold parse_blank, tag. cbn [strip_prefix]. destruct (Z.eqb_spec 95 c) as [<-|]; [unfold letter in L; lia|reflexivity]. }
  rewrite B. unfold alt at 1. destruct (parse_boolean (c :: i)) as [x|]; [reflexivity|]. unfold alt at 1, pmap, structure_tag.
  unfold alt at 1 2. assert (Na : exists n r, name (c :: i) = Some (n, r)).
  { cbn [name]. apply is_alpha_ok in L. rewrite L. destruct (span is_name_rest i) as (a, b). eauto. }
  destruct Na as (n & r & Na). rewrite Na. cbn [bind].
  destruct (bind (chr 58 r) _) as [(t, r')|]; [reflexivity|]. unfold alt at 1, pmap. rewrite Na. reflexivity.
Qed.
