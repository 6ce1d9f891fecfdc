(** Proofs for C57: which printed constants are read back. *)
From Coq Require Import ZArith Bool String Lia List.
From Verif Require Import LexModel PrintValueModel PrintValueSpec PrintValueProofs1 PrintValueProofs2.
Import ListNotations.
Open Scope Z_scope.
Open Scope list_scope.

Section P.
Context {F : float_ops} (d : declared).
Definition base_text : str := match base d with Some b => b | None => [] end.
Implicit Types v w : dval F.

Lemma delimited_tag r : delimited r -> tag datatype_indicator r = None.
Proof. destruct r as [|c r]; [reflexivity|]. intros H. cbn in H. repeat (destruct H as [<-|H]; [reflexivity|]). destruct H. Qed.
Lemma delimited_lang r : delimited r -> language_tag r = None.
Proof. destruct r as [|c r]; [reflexivity|]. intros H. cbn in H. repeat (destruct H as [<-|H]; [reflexivity|]). destruct H. Qed.
Lemma delimited_quote r : delimited r -> no_quote_first r.
Proof. destruct r as [|c r]; [exact (fun H => H)|]. intros H. cbn in H. repeat (destruct H as [<-|H]; [exact I|]). destruct H. Qed.
Lemma delimited_basic r : delimited r -> parse_basic r = None.
Proof. destruct r as [|c r]; [reflexivity|]. intros H. cbn in H. repeat (destruct H as [<-|H]; [reflexivity|]). destruct H. Qed.
Lemma delimited_not_letter c r : delimited (c :: r) -> ~ letter c /\ c <> 58.
Proof. intros H. cbn in H. unfold letter. lia. Qed.

(** ** What is read from a quoted text *)
Definition content_is (e : str) (v : dval F) : Prop :=
  match v with
  | VString s | VLang s _ => s = e
  | VOther l _ => l = e \/ Forall number_char l
  | VIri _ => False
  | _ => True
  end.
Lemma quoted_content e k v r : ~ In 34 e -> (e = [] -> no_quote_first k) -> read_value d (34 :: e ++ 34 :: k) = Some (v, r) -> content_is e v.
Proof.
  intros N Q. unfold read_value. rewrite parse_quoted by assumption. unfold after_quoted.
  destruct (match e with [] => None | _ => _ end) as [(t, r1)|].
  - cbn [bind translate]. destruct (resolve_tag d t) as [dt|]; [|discriminate]. destruct (new_from_typed_literal e dt) as [v1| |] eqn:E; cbn [ok option_map]; try discriminate.
    intros [= -> _]. apply typed_from in E. destruct v; cbn in *; tauto.
  - unfold opt. destruct (language_tag k) as [(n, r1)|]; cbn [bind translate option_map]; intros [= <- _]; reflexivity.
Qed.
Lemma number_plain s : Forall number_char s -> plain s.
Proof. apply Forall_impl. intros c H. unfold number_char, plain_char in *. lia. Qed.
Definition same_content (s : str) (v : dval F) : Prop :=
  match v with VString u | VLang u _ | VOther u _ => u = s | _ => False end.
Lemma printed_content s k v r : (s = [] -> no_quote_first k) -> read_value d (34 :: escape s ++ 34 :: k) = Some (v, r) -> same_content s v -> plain s.
Proof.
  intros Q H C. pose proof (escape_ok s) as X. destruct (in_dec Z.eq_dec 34 s) as [I|N].
  - destruct (escaped_quote _ _ X I) as (p & q & E & Np & Nn). rewrite E, <- app_assoc in H. cbn [app] in H.
    apply quoted_content in H; [|assumption|congruence]. destruct v; cbn in C, H; try contradiction; subst; try contradiction.
    destruct H as [->|H]; [contradiction|]. now apply number_plain.
  - assert (Ne : ~ In 34 (escape s)) by (eapply escaped_no_quote; eauto).
    apply quoted_content in H; [|assumption|]; [|intros E; apply Q; destruct s as [|c s]; [reflexivity|]; apply escaped_length in X; rewrite E in X; cbn in X; lia].
    destruct v; cbn in C, H; try contradiction; subst; try (now apply (escaped_plain _ _ X)).
    destruct H as [H|H]; [now apply (escaped_plain _ _ X)|now apply number_plain].
Qed.

(** ** Every kind of constant *)
Lemma read_string s r : delimited r -> read_value d (quote_string s ++ r) = Some (VString s : dval F, r) <-> plain s.
Proof.
  intros D. unfold quote_string. cbn [app]. rewrite <- app_assoc. cbn [app]. split.
  - intros H. eapply printed_content; [|exact H|reflexivity]. intros _. now apply delimited_quote.
  - intros P. rewrite (escape_plain s P). unfold read_value. rewrite parse_quoted; [|now apply plain_no_quote|intros _; now apply delimited_quote].
    unfold after_quoted, opt. rewrite delimited_tag, delimited_lang by assumption. destruct s; reflexivity.
Qed.
Lemma lower_same t : map ascii_lower t = t <-> Forall (fun c => ~ 65 <= c <= 90) t.
Proof.
  induction t as [|c t IH]; cbn [map]; [split; auto|]. unfold ascii_lower at 1. destruct ((65 <=? c) && (c <=? 90)) eqn:E.
  - rewrite andb_true_iff, !Z.leb_le in E. split; [intros H; injection H as H _; lia|intros H; inversion H; contradiction].
  - apply andb_false_iff in E. rewrite !Z.leb_gt in E. split; [intros H; injection H as H; constructor; [lia|now apply IH]|intros H; inversion H; f_equal; now apply IH].
Qed.
Lemma read_lang s l r : delimited r -> read_value d ((quote_string s ++ 64 :: l) ++ r) = Some (VLang s l : dval F, r) <->
  plain s /\ tag_name l /\ Forall (fun c => ~ 65 <= c <= 90) l.
Proof.
  intros D. unfold quote_string. cbn [app]. rewrite <- !app_assoc. cbn [app].
  assert (R : plain s -> read_value d (34 :: s ++ 34 :: 64 :: l ++ r) =
    match name (l ++ r) with Some (n, r') => Some (new_lang_string s n : dval F, r') | None => Some (VString s, 64 :: l ++ r) end).
  { intros P. unfold read_value. rewrite parse_quoted; [|now apply plain_no_quote|intros _; exact I].
    unfold after_quoted, opt, language_tag. rewrite chr_cons. replace (tag datatype_indicator (64 :: l ++ r)) with (@None (unit * str)) by reflexivity. cbn [bind].
    destruct (name (l ++ r)) as [(n, r')|]; destruct s; reflexivity. }
  split.
  - intros H. assert (P : plain s) by (eapply printed_content; [|exact H|reflexivity]; intros _; exact I). split; [exact P|].
    rewrite (escape_plain s P), (R P) in H. destruct (name (l ++ r)) as [(n, r')|] eqn:N; [|discriminate].
    unfold new_lang_string in H. injection H as E ->. apply name_inv in N. destruct N as (E2 & T). apply app_inv_tail in E2. subst n. split; [exact T|now apply lower_same].
  - intros (P & T & L). rewrite (escape_plain s P), (R P), (name_read l r T (delimited_end r D)). unfold new_lang_string. now rewrite (proj2 (lower_same l) L).
Qed.
Lemma read_typed e dt r : ~ In 34 e -> e <> [] -> read_value d (34 :: e ++ 34 :: datatype_indicator ++ quote_iri dt ++ r) =
  match structure_tag (60 :: dt ++ 62 :: r) with
  | Some (t, r') => match resolve_tag d t with
                    | Some x => option_map (fun v => (v, r')) (ok (new_from_typed_literal e x))
                    | None => None
                    end
  | None => Some (VString e : dval F, datatype_indicator ++ quote_iri dt ++ r)
  end.
Proof.
  intros N Ne. unfold read_value. rewrite parse_quoted; [|exact N|congruence]. unfold after_quoted, opt.
  destruct e as [|c e]; [congruence|]. unfold quote_iri. change (datatype_indicator ++ (60 :: dt ++ [62]) ++ r) with (94 :: 94 :: 60 :: (dt ++ [62]) ++ r). rewrite <- app_assoc. cbn [app].
  replace (tag datatype_indicator (94 :: 94 :: 60 :: dt ++ 62 :: r)) with (Some (tt, 60 :: dt ++ 62 :: r)) by reflexivity. cbn [bind].
  destruct (structure_tag (60 :: dt ++ 62 :: r)) as [(t, r')|].
  - cbn [bind translate]. destruct (resolve_tag d t); reflexivity.
  - replace (language_tag (94 :: 94 :: 60 :: dt ++ 62 :: r)) with (@None (str * str)) by reflexivity. reflexivity.
Qed.
Lemma read_bool (b : bool) r : read_value d ((34 :: (if b then lit "true" else lit "false") ++ [34] ++ datatype_indicator ++ quote_iri (type_iri DBoolean)) ++ r) = Some (VBool b : dval F, r).
Proof.
  rewrite <- app_comm_cons, <- !app_assoc. cbn [app].
  assert (I : iri_text (type_iri DBoolean)).
  { split; [discriminate|]. apply Forall_forall. intros c H. assert (A : forallb is_iri_char (type_iri DBoolean) = true) by reflexivity. rewrite forallb_forall in A. now apply is_iri_char_ok, A. }
  rewrite read_typed; [|destruct b; vm_compute; intuition discriminate|destruct b; discriminate]. rewrite (iri_read _ _ I). destruct b; reflexivity.
Qed.
Lemma read_other lex dt r : delimited r -> read_value d ((quote_string lex ++ datatype_indicator ++ quote_iri dt) ++ r) = Some (VOther lex dt : dval F, r) <->
  plain lex /\ lex <> [] /\ iri_text dt /\ new_from_typed_literal lex dt = POk (VOther lex dt : dval F).
Proof.
  intros D. unfold quote_string. rewrite <- !app_assoc, <- app_comm_cons, <- !app_assoc. cbn [app]. split.
  - intros H. assert (P : plain lex) by (eapply printed_content; [|exact H|reflexivity]; intros _; exact I). split; [exact P|].
    rewrite (escape_plain lex P) in H. destruct lex as [|c l].
    + exfalso. unfold read_value in H. rewrite (parse_quoted [] (datatype_indicator ++ quote_iri dt ++ r)) in H; [discriminate|intros []|intros _; exact I].
    + split; [discriminate|]. change (c :: l) with ([c] ++ l) in H. change ([c] ++ l) with (c :: l) in H.
      change ((c :: l) ++ 34 :: 94 :: 94 :: quote_iri dt ++ r) with ((c :: l) ++ 34 :: datatype_indicator ++ quote_iri dt ++ r) in H.
      rewrite read_typed in H; [|now apply plain_no_quote|discriminate].
      destruct (structure_tag (60 :: dt ++ 62 :: r)) as [(t, r')|] eqn:S; [|discriminate]. destruct (resolve_tag d t) as [x|] eqn:Et; [|discriminate].
      destruct (new_from_typed_literal (c :: l) x) as [w| |] eqn:T; try discriminate. cbn [ok option_map] in H. injection H as -> ->.
      apply iri_same in S. destruct S as (-> & I). cbn [resolve_tag] in Et. injection Et as <-. auto.
  - intros (P & N & I & T). rewrite (escape_plain lex P). change (34 :: 94 :: 94 :: quote_iri dt ++ r) with (34 :: datatype_indicator ++ quote_iri dt ++ r).
    rewrite read_typed; [|now apply plain_no_quote|exact N]. rewrite (iri_read _ _ I). cbn [resolve_tag]. rewrite T. reflexivity.
Qed.

(** *** IRIs *)
Lemma read_quoted_iri t r : read_value d (quote_iri t ++ r) = Some (VIri t : dval F, r) <-> iri_text t.
Proof.
  unfold quote_iri. rewrite <- app_comm_cons, <- app_assoc. cbn [app]. unfold read_value. rewrite parse_iri_const. split.
  - intros H. destruct (structure_tag (60 :: t ++ 62 :: r)) as [(x, r')|] eqn:S; [|discriminate]. cbn [bind translate] in H.
    destruct (resolve_tag d x) as [y|]; [|discriminate]. cbn [option_map] in H. injection H as _ ->. apply iri_same in S. exact (proj2 S).
  - intros I. rewrite (iri_read _ _ I). reflexivity.
Qed.
Lemma begins_app p t r : Forall letter p -> delimited r -> begins p (t ++ r) -> begins p t.
Proof.
  intros L D (x & E). destruct (app_eq_app _ _ _ _ E) as (l & [(-> & E2)|(-> & E2)]); [exists l; reflexivity|].
  destruct l as [|c l]; [exists []; now rewrite !app_nil_r|]. subst r. apply delimited_not_letter in D. apply Forall_app in L. destruct L as (_ & L). inversion L. tauto.
Qed.
Lemma letters t : forallb is_alpha t = true -> Forall letter t.
Proof. intros H. apply Forall_forall. intros c I. rewrite forallb_forall in H. now apply is_alpha_ok, H. Qed.
Lemma letters_true : Forall letter (lit "true"). Proof. now apply letters. Qed.
Lemma letters_false : Forall letter (lit "false"). Proof. now apply letters. Qed.
Lemma simple_tag t : simple_name t -> tag_name t.
Proof. intros (c & s & -> & L & A). exists c, s. repeat split; auto. eapply Forall_impl; [|exact A]. cbn. tauto. Qed.
Lemma read_name t r : delimited r -> printed_name t -> read_value d (t ++ r) = Some (VIri t : dval F, r) <->
  base_text = [] /\ simple_name t /\ ~ begins (lit "true") t /\ ~ begins (lit "false") t.
Proof.
  intros D [->|(c & s & -> & L & A)].
  - cbn [app]. unfold read_value. rewrite delimited_basic by assumption. split; [discriminate|]. intros (_ & (c & s & E & _) & _). discriminate.
  - rewrite <- app_comm_cons. unfold read_value. rewrite (parse_letter c (s ++ r) L). split.
    + intros H. destruct (parse_boolean (c :: s ++ r)) as [(b, r')|] eqn:B.
      { apply boolean_inv in B. destruct B as (x & -> & _). discriminate. }
      apply boolean_none in B. destruct B as (B1 & B2).
      destruct (name (c :: s ++ r)) as [(n, r1)|] eqn:N; [|discriminate]. apply name_inv in N. destruct N as (E & T).
      destruct (chr 58 r1) as [([], r2)|] eqn:C; cbn [bind] in H.
      * apply chr_inv in C. subst r1. destruct (name r2) as [(m, r3)|] eqn:M; cbn [bind translate] in H.
        -- exfalso. destruct (resolve_tag d (TPrefixed n m)) as [y|]; [|discriminate]. cbn [option_map] in H. injection H as _ ->. apply name_inv in M. destruct M as (-> & _).
           assert (E' : (c :: s) ++ r = (n ++ 58 :: m) ++ r) by (rewrite <- app_assoc; exact E). apply app_inv_tail in E'.
           assert (J : In 58 (c :: s)) by (rewrite E'; apply in_or_app; right; now left). destruct J as [J|J]; [unfold letter in L; lia|].
           rewrite Forall_forall in A. apply A in J. unfold letter, digit_char in J. lia.
        -- exfalso. cbn [option_map resolve_tag] in H. injection H as _ H. subst r. cbn in D. lia.
      * cbn [translate resolve_tag option_map] in H. injection H as Eb ->. change (c :: s ++ r) with ((c :: s) ++ r) in E. apply app_inv_tail in E. subst n.
        split; [unfold base_text; destruct (base d) as [b|]; [|reflexivity]; apply (f_equal (@List.length Z)) in Eb; rewrite app_length in Eb; destruct b; [reflexivity|cbn in Eb; lia]|].
        split; [|split; intros (x & X); [apply B1|apply B2]; exists (x ++ r); rewrite app_assoc, <- X; reflexivity].
        exists c, s. split; [reflexivity|]. split; [exact L|]. destruct T as (c' & s' & E & _ & T). injection E as <- <-.
        rewrite Forall_forall in A, T |- *. intros x J. specialize (A x J). specialize (T x J). unfold letter, digit_char in *. lia.
    + intros (Eb & S & B1 & B2). assert (B : parse_boolean (c :: s ++ r) = None).
      { apply boolean_none. split; intros H; [apply B1|apply B2]; apply (begins_app _ (c :: s) r); auto using letters_true, letters_false. }
      rewrite B. change (c :: s ++ r) with ((c :: s) ++ r). rewrite (name_read _ r (simple_tag _ S) (delimited_end r D)).
      assert (C : chr 58 r = None).
      { destruct r as [|x r]; [reflexivity|]. apply delimited_not_letter in D. unfold chr, tag. cbn [strip_prefix]. destruct (Z.eqb_spec 58 x) as [<-|]; [destruct D; congruence|reflexivity]. }
      rewrite C. cbn [bind translate resolve_tag option_map]. unfold base_text in Eb. destruct (base d) as [b|]; [subst b|]; reflexivity.
Qed.

Lemma SomeI {A} (x y : A) : Some x = Some y -> x = y. Proof. congruence. Qed.
Theorem read_printed v t r : not_number v -> print_value v = Some t -> delimited r ->
  (read_value d (t ++ r) = Some (v, r) <-> readable base_text v).
Proof.
  intros N P D. destruct v as [s|s l|i|f|f|z|z|b|lex dt]; cbn in N; try contradiction; cbn [print_value] in P; apply SomeI in P; rewrite <- P; clear P t.
  - rewrite read_string by assumption. split; [intros H; now constructor|intros H; now inversion H].
  - rewrite read_lang by assumption. split; [intros (A & B & C); now constructor|intros H; inversion H; auto].
  - destruct (is_name i) eqn:E.
    + apply is_name_ok in E. rewrite read_name by assumption. split; [intros (A & B & C & G); now apply r_name|intros H; inversion H; subst; [auto|contradiction]].
    + rewrite read_quoted_iri. assert (E' : ~ printed_name i) by (rewrite <- is_name_ok; congruence).
      split; [intros H; now apply r_iri|intros H; inversion H as [| | |? ? S|? ? I|]; subst; [|assumption]].
      exfalso. apply E'. right. destruct S as (c & s & -> & L & A). exists c, s. repeat split; auto. eapply Forall_impl; [|exact A]. cbn. tauto.
  - rewrite read_bool. split; [constructor|reflexivity].
  - destruct (str_eqb dt (xsd "integer")) eqn:E; [apply str_eqb_ok in E; contradiction|]. rewrite read_other by assumption.
    split; [intros (A & B & C & G); now apply r_other|intros H; inversion H; auto].
Qed.
End P.
