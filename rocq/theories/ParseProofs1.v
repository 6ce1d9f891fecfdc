(** Proofs for the parser: characters, white space and leaves. *)
From Coq Require Import List Arith Bool Ascii Lia.
From Verif Require Import ParseModel ParseSpec.
Import ListNotations.
Local Open Scope char_scope.

Ltac chars := repeat match goal with |- forall c : ascii, _ => intros [[] [] [] [] [] [] [] []] end; vm_compute; try reflexivity; try discriminate; try tauto.

Lemma alpha_rest c : is_alpha c = true -> is_name_rest c = true.
Proof. unfold is_name_rest. intros ->. reflexivity. Qed.
Lemma digit_rest c : is_digit c = true -> is_name_rest c = true.
Proof. unfold is_name_rest. intros ->. now rewrite orb_true_r. Qed.
Lemma rest_not_open c : is_name_rest c = true -> c <> "(" /\ c <> ":" /\ c <> "<" /\ c <> "." /\ is_space c = false /\ c <> "/" /\ c <> "+" /\ c <> "-" /\ c <> "*" /\ c <> ")" /\ c <> ",".
Proof. destruct (is_name_rest c) eqn:E; [|discriminate]. intros _. repeat split; try (intros ->; discriminate). destruct (is_space c) eqn:F; auto. revert c E F. chars. Qed.
Lemma alpha_not c : is_alpha c = true -> is_digit c = false /\ c <> "%" /\ c <> "_" /\ c <> "?" /\ c <> "!" /\ c <> "$".
Proof. intros E. repeat split; try (intros ->; discriminate). destruct (is_digit c) eqn:F; auto. revert c E F. chars. Qed.
Lemma digit_not c : is_digit c = true -> is_alpha c = false /\ c <> "%" /\ c <> "_" /\ c <> "?" /\ c <> "!" /\ c <> "$" /\ c <> "+" /\ c <> "-" /\ c <> "(" /\ c <> "<" /\ c <> ":".
Proof. intros E. repeat split; try (intros ->; discriminate). destruct (is_alpha c) eqn:F; auto. revert c E F. chars. Qed.
Lemma lower_rest c : is_name_rest (lower c) = true -> is_name_rest c = true.
Proof. revert c. chars. Qed.
Lemma eqb_no c d : c <> d -> (c =? d) = false.
Proof. intros H. destruct (Ascii.eqb_spec c d); congruence. Qed.
Lemma eqb_no' c d : c <> d -> (d =? c) = false.
Proof. intros H. destruct (Ascii.eqb_spec d c); congruence. Qed.

(** ** Combinators *)
Lemma chr_ok c r : chr c (c :: r) = Ok tt r.
Proof. unfold chr. cbn [tag]. now rewrite Ascii.eqb_refl. Qed.
Lemma chr_err c i : ~ starts (fun d => d = c) i -> chr c i = Err.
Proof. destruct i as [|d i]; [reflexivity|]. unfold chr. cbn [tag starts]. intros H. rewrite eqb_no; auto. Qed.
Lemma chr_inv c i x r : chr c i = Ok x r -> i = c :: r.
Proof. destruct i as [|d i]; [discriminate|]. unfold chr. cbn [tag]. destruct (Ascii.eqb_spec c d); [|discriminate]. intros E. injection E as _ <-. subst. reflexivity. Qed.
Lemma span_app f a b : all_chars f a -> ~ starts (fun c => f c = true) b -> span f (a ++ b) = (a, b).
Proof.
  induction a as [|c a IH]; cbn [app]; intros H Hb.
  - destruct b as [|c b]; [reflexivity|]. cbn [span]. cbn in Hb. destruct (f c); [tauto|reflexivity].
  - cbn [span]. rewrite (H c) by (left; reflexivity). rewrite IH; auto. intros d Hd. apply H. right. exact Hd.
Qed.
Lemma span_inv f : forall i a b, span f i = (a, b) -> i = a ++ b /\ all_chars f a /\ ~ starts (fun c => f c = true) b.
Proof.
  induction i as [|c i IH]; cbn [span]; intros a b E; [injection E as <- <-; repeat split; [intros c []|intros []]|].
  destruct (f c) eqn:Hc.
  - destruct (span f i) as [a' b'] eqn:E'. injection E as <- <-. destruct (IH a' b' eq_refl) as (-> & A & B). repeat split; auto. intros d [<-|Hd]; auto.
  - injection E as <- <-. repeat split; [intros d []|]. cbn. congruence.
Qed.
Lemma take_ok f a b : a <> [] -> all_chars f a -> ~ starts (fun c => f c = true) b -> take_while1 f (a ++ b) = Ok a b.
Proof. intros Hn Ha Hb. unfold take_while1. rewrite (span_app f a b Ha Hb). destruct a; [congruence|reflexivity]. Qed.
Lemma take_err f b : ~ starts (fun c => f c = true) b -> take_while1 f b = Err.
Proof. intros Hb. unfold take_while1. destruct b as [|c b]; [reflexivity|]. cbn [span]. cbn in Hb. destruct (f c); [tauto|reflexivity]. Qed.
Lemma take_inv f i a b : take_while1 f i = Ok a b -> i = a ++ b /\ a <> [] /\ all_chars f a /\ ~ starts (fun c => f c = true) b.
Proof.
  unfold take_while1. destruct (span f i) as [a' b'] eqn:E. apply span_inv in E. destruct E as (-> & A & B). destruct a'; [discriminate|]. intros E. injection E as <- <-. repeat split; auto. discriminate.
Qed.
Lemma bind_ok {A B} (r : res A) (k : A -> text -> res B) y s : bind r k = Ok y s -> exists x r', r = Ok x r' /\ k x r' = Ok y s.
Proof. destruct r as [x r'| | |]; cbn [bind]; try discriminate. eauto. Qed.
Lemma pmap_ok {A B} (f : A -> B) p i y r : pmap f p i = Ok y r -> exists x, p i = Ok x r /\ y = f x.
Proof. unfold pmap. intros H. apply bind_ok in H. destruct H as (x & r' & H1 & H2). injection H2 as <- <-. eauto. Qed.
Lemma alt_ok {A} (p q : parser A) i x r : alt p q i = Ok x r -> p i = Ok x r \/ (p i = Err /\ q i = Ok x r).
Proof. unfold alt. destruct (p i); auto; discriminate. Qed.

(** ** White space *)
Definition no_space (r : text) : Prop :=
  match r with [] => True | c :: s => is_space c = false /\ c <> "%" /\ (c = "/" -> ~ starts (fun d => d = "*") s) end.
Lemma blank_span w : blank w -> forall a b, span is_space w = (a, b) -> blank b.
Proof.
  induction 1 as [|c w Hc Hw IH|c w nl Hc Hnl Hw IH|c w Hc Hw IH]; cbn [span].
  - intros a b E. injection E as <- <-. constructor.
  - rewrite Hc. destruct (span is_space w) as [a' b'] eqn:E'. intros a b E. injection E as <- <-. eapply IH; eauto.
  - cbn. intros a b E. injection E as <- <-. now constructor.
  - cbn. intros a b E. injection E as <- <-. now constructor.
Qed.
Lemma comment_end_ok c w : closed_content c -> comment_end (c ++ "*" :: "/" :: w) = Ok tt w.
Proof.
  induction c as [|x c IH]; [reflexivity|]. intros H. change ((x :: c) ++ "*" :: "/" :: w) with (x :: (c ++ "*" :: "/" :: w)).
  assert (Hc : closed_content c) by (intros (a & b & ->); apply H; exists (x :: a), b; reflexivity). specialize (IH Hc).
  destruct (Ascii.eqb_spec x "*") as [->|n].
  - destruct c as [|y c].
    + reflexivity.
    + destruct (Ascii.eqb_spec y "/") as [->|m]; [exfalso; apply H; exists [], c; reflexivity|].
      cbn [app] in *. rewrite <- IH. clear -m. destruct y as [[] [] [] [] [] [] [] []]; try reflexivity. congruence.
  - rewrite <- IH. clear -n. destruct x as [[] [] [] [] [] [] [] []]; try reflexivity. congruence.
Qed.
Lemma nle_ok c nl r : ~ In "010" c -> ~ In "013" c -> (nl = ["010"] \/ nl = ["013"; "010"]) -> bind (not_line_ending (c ++ nl ++ r)) (fun _ r => line_ending_or_eof r) = Ok tt r.
Proof.
  intros H1 H2 Hn. unfold not_line_ending. rewrite span_app.
  - destruct Hn as [-> | ->]; reflexivity.
  - intros d Hd. assert (d <> "010" /\ d <> "013") as [A B] by (split; intros ->; auto). now rewrite (eqb_no _ _ A), (eqb_no _ _ B).
  - destruct Hn as [-> | ->]; cbn; discriminate.
Qed.
Lemma line_comment_ok c nl r : line_content c -> (nl = ["010"] \/ nl = ["013"; "010"]) -> line_comment ("%" :: c ++ nl ++ r) = Ok tt r.
Proof.
  intros (H1 & H2 & H3) Hn. unfold line_comment.
  assert (K : exists a c', c = a ++ c' /\ comment_token ("%" :: c ++ nl ++ r) = Ok tt (c' ++ nl ++ r)).
  { assert (Hh : forall x s, nl ++ r = x :: s -> x <> "%") by (intros x s E ->; destruct Hn as [-> | ->]; discriminate).
    assert (Hs : ~ starts (fun d => (d =? "%") = true) (nl ++ r)) by (destruct Hn as [-> | ->]; cbn; discriminate).
    assert (G : forall s, (forall t, s <> "%" :: "%" :: t) -> comment_token ("%" :: s) = Ok tt s).
    { clear. intros s H. destruct s as [|x s]; [reflexivity|]. destruct (Ascii.eqb_spec x "%") as [->|n].
      - destruct s as [|y s]; [reflexivity|]. destruct (Ascii.eqb_spec y "%") as [->|m]; [exfalso; eapply H; reflexivity|]. destruct y as [[] [] [] [] [] [] [] []]; try reflexivity. congruence.
      - destruct x as [[] [] [] [] [] [] [] []]; try reflexivity. congruence. }
    destruct c as [|x c]; [exists [], []; split; auto; cbn [app]; apply G; intros t E; eapply Hh in E; congruence|].
    destruct (Ascii.eqb_spec x "%") as [->|n]; [|exists [], (x :: c); split; auto; apply G; intros t E; cbn in E; congruence].
    destruct c as [|y c]; [exists [], ["%"]; split; auto; apply G; intros t E; cbn [app] in E; injection E as E; eapply Hh in E; congruence|].
    destruct (Ascii.eqb_spec y "%") as [->|n]; [|exists [], ("%" :: y :: c); split; auto; apply G; intros t E; cbn in E; congruence].
    destruct c as [|z c]; [exfalso; apply H3; exists []; split; auto|].
    destruct (Ascii.eqb_spec z "%") as [->|n]; [|exfalso; apply H3; exists (z :: c); split; auto].
    destruct (span (fun d => d =? "%") c) as [a b] eqn:E. pose proof (span_inv _ _ _ _ E) as (Ec & Ha & Hb).
    exists ("%" :: "%" :: "%" :: a), b. split; [cbn [app]; now rewrite Ec|]. cbn [app comment_token].
    assert (Es : span (fun d => d =? "%") (c ++ nl ++ r) = (a, b ++ nl ++ r)).
    { rewrite Ec, <- app_assoc. apply span_app; auto. destruct b; cbn [app]; auto. }
    rewrite Es. reflexivity. }
  destruct K as (a & c' & -> & ->). cbn [bind]. apply nle_ok; auto; intros Hi; [apply H1|apply H2]; apply in_app_iff; auto.
Qed.
Definition skip1 : parser unit := alt whitespace (alt line_comment closed_comment).
Lemma whitespace_err r : ~ starts (fun c => is_space c = true) r -> whitespace r = Err.
Proof. intros H. unfold whitespace, pmap. now rewrite take_err. Qed.
Lemma line_comment_err r : ~ starts (fun c => c = "%") r -> line_comment r = Err.
Proof. intros H. unfold line_comment. destruct r as [|c r]; [reflexivity|]. cbn in H. replace (comment_token (c :: r)) with (@Err unit); [reflexivity|]. symmetry. clear -H. destruct c as [[] [] [] [] [] [] [] []]; try reflexivity. congruence. Qed.
Lemma closed_comment_err r : (forall s, r <> "/" :: "*" :: s) -> closed_comment r = Err.
Proof.
  intros H. unfold closed_comment. destruct r as [|c r]; [reflexivity|]. cbn [tag]. destruct (Ascii.eqb_spec "/" c) as [<-|]; [|reflexivity]. destruct r as [|d r]; [reflexivity|]. cbn [tag]. destruct (Ascii.eqb_spec "*" d) as [<-|]; [exfalso; eapply H; reflexivity|reflexivity].
Qed.
Lemma skip1_err r : no_space r -> skip1 r = Err.
Proof.
  intros H. unfold skip1, alt. rewrite whitespace_err by (destruct r; cbn in *; [tauto|intros E; destruct H; congruence]). rewrite line_comment_err by (destruct r; cbn in *; tauto).
  apply closed_comment_err. intros s ->. cbn in H. destruct H as (_ & _ & H). apply (H eq_refl). reflexivity.
Qed.
Lemma skip_many r : no_space r -> forall k w, length w <= k -> blank w -> forall fuel, length (w ++ r) < fuel -> exists l, many0_ fuel skip1 (w ++ r) = Ok l r.
Proof.
  intros Hr. induction k as [|k IH]; intros w Hk Hw fuel Hf.
  - destruct w; [|cbn in Hk; lia]. cbn [app] in *. destruct fuel; [lia|]. cbn [many0_]. rewrite (skip1_err r Hr). eauto.
  - destruct fuel as [|fuel]; [lia|]. cbn [many0_]. destruct Hw as [|c w Hc Hw|c w nl Hc Hn Hw|c w Hc Hw].
    + cbn [app]. rewrite (skip1_err r Hr). eauto.
    + destruct (span is_space (c :: w)) as [a b] eqn:E. pose proof (blank_span _ (b_space c w Hc Hw) _ _ E) as Hb. pose proof (span_inv _ _ _ _ E) as (E1 & Ha & Hs).
      assert (Hna : a <> []) by (intros ->; cbn [span] in E; rewrite Hc in E; destruct (span is_space w); discriminate).
      assert (Es : skip1 ((c :: w) ++ r) = Ok tt (b ++ r)).
      { unfold skip1, alt, whitespace, pmap. rewrite E1, <- app_assoc. rewrite take_ok; auto. destruct b; cbn [app]; auto. destruct r as [|d r]; [intros []|]. cbn in *. destruct Hr. congruence. }
      rewrite Es. assert (La : 0 < length a) by (destruct a; [congruence|cbn; lia]).
      assert (Lw : length (c :: w) = length a + length b) by (rewrite E1; apply app_length). rewrite !app_length in *. rewrite (proj2 (Nat.eqb_neq _ _)) by lia.
      destruct (IH b ltac:(lia) Hb fuel ltac:(rewrite app_length; lia)) as (l & ->). cbn [bind]. eauto.
    + assert (Es : skip1 (("%" :: c ++ nl ++ w) ++ r) = Ok tt (w ++ r)).
      { unfold skip1, alt. rewrite whitespace_err by (cbn; discriminate). replace (("%" :: c ++ nl ++ w) ++ r) with ("%" :: c ++ nl ++ (w ++ r)) by (cbn; now rewrite <- !app_assoc). now rewrite line_comment_ok. }
      rewrite Es. cbn [length] in *. rewrite !app_length in *. cbn [length app] in *. rewrite !app_length in *. rewrite (proj2 (Nat.eqb_neq _ _)) by lia.
      destruct (IH w ltac:(lia) Hw fuel ltac:(rewrite app_length; lia)) as (l & ->). cbn [bind]. eauto.
    + assert (Es : skip1 (("/" :: "*" :: c ++ "*" :: "/" :: w) ++ r) = Ok tt (w ++ r)).
      { unfold skip1, alt. rewrite whitespace_err by (cbn; discriminate). rewrite line_comment_err by (cbn; discriminate).
        replace (("/" :: "*" :: c ++ "*" :: "/" :: w) ++ r) with ("/" :: "*" :: c ++ "*" :: "/" :: (w ++ r)) by (cbn; now rewrite <- app_assoc). unfold closed_comment. cbn [tag]. cbn [Ascii.eqb Bool.eqb bind]. now apply comment_end_ok. }
      rewrite Es. cbn [length app] in *. rewrite !app_length in *. cbn [length] in *. rewrite (proj2 (Nat.eqb_neq _ _)) by lia.
      destruct (IH w ltac:(lia) Hw fuel ltac:(rewrite app_length; lia)) as (l & ->). cbn [bind]. eauto.
Qed.
Lemma wsoc_ok w r : blank w -> no_space r -> wsoc (w ++ r) = Ok tt r.
Proof.
  intros Hw Hr. unfold wsoc, pmap, many0. fold skip1. destruct (skip_many r Hr (length w) w (le_n _) Hw (S (length (w ++ r))) (le_n _)) as (l & ->). reflexivity.
Qed.
Lemma wsoc_nil r : no_space r -> wsoc r = Ok tt r.
Proof. intros Hr. apply (wsoc_ok [] r); [constructor|exact Hr]. Qed.

(** ** Leaves *)
Lemma separated_not c r : separated (c :: r) -> is_name_rest c = false /\ c <> "(" /\ c <> ":".
Proof. cbn. intros (A & B & _). repeat split; auto; intros ->; apply B; tauto. Qed.
Lemma separated_rest r : separated r -> ~ starts (fun c => is_name_rest c = true) r.
Proof. destruct r as [|c r]; cbn; [tauto|]. intros (A & _). congruence. Qed.
Lemma name_ok n r : name_text n -> ~ starts (fun c => is_name_rest c = true) r -> name (n ++ r) = Ok n r.
Proof.
  intros (c & s & -> & Hc & Hs) Hr. cbn [app name]. rewrite Hc. now rewrite (span_app is_name_rest s r Hs Hr).
Qed.
Lemma name_err r : ~ starts (fun c => is_alpha c = true) r -> name r = Err.
Proof. destruct r as [|c r]; [reflexivity|]. cbn. destruct (is_alpha c); [tauto|reflexivity]. Qed.
Lemma name_inv i n r : name i = Ok n r -> i = n ++ r /\ name_text n /\ ~ starts (fun c => is_name_rest c = true) r.
Proof.
  destruct i as [|c i]; [discriminate|]. cbn [name]. destruct (is_alpha c) eqn:Hc; [|discriminate]. destruct (span is_name_rest i) as [a b] eqn:E. apply span_inv in E. destruct E as (-> & A & B).
  intros E. injection E as <- <-. repeat split; auto. exists c, a. auto.
Qed.
Lemma structure_err r : ~ starts (fun c => is_alpha c = true \/ c = ":" \/ c = "<") r -> structure_tag r = Err.
Proof.
  intros H. assert (Hn : name r = Err) by (apply name_err; destruct r; cbn in *; tauto). unfold structure_tag, alt, pmap, parse_iri. rewrite Hn. cbn [bind].
  rewrite !chr_err by (destruct r; cbn in *; tauto). reflexivity.
Qed.
Lemma structure_ok' l t r : tag_text l t -> ~ starts (fun c => is_name_rest c = true) r -> ~ starts (fun c => c = ":") r -> structure_tag (t ++ r) = Ok l r.
Proof.
  intros [n Hn|p n Hp Hn|s Hs Hi] Hr Hc.
  - unfold structure_tag, alt, pmap. rewrite (name_ok n r Hn Hr). cbn [bind]. now rewrite chr_err.
  - unfold structure_tag, alt. rewrite <- app_assoc. cbn [app]. assert (E : (match name (p ++ ":" :: n ++ r) with Err => Ok [] (p ++ ":" :: n ++ r) | x => x end) = Ok p (":" :: n ++ r)).
    { destruct Hp as [-> | Hp]; [reflexivity|]. rewrite (name_ok p); auto. cbn. discriminate. }
    rewrite E. cbn [bind]. rewrite chr_ok. cbn [bind]. rewrite (name_ok n r Hn Hr). reflexivity.
  - unfold structure_tag, alt, pmap. cbn [app]. rewrite <- app_assoc. cbn [app name]. change (is_alpha "<") with false. cbn [bind]. rewrite chr_err by (cbn; discriminate). cbn [bind]. unfold parse_iri.
    rewrite chr_ok. cbn [bind]. rewrite take_ok by (auto; cbn; discriminate). cbn [bind]. rewrite chr_ok. reflexivity.
Qed.
Lemma structure_ok l t r : tag_text l t -> separated r -> structure_tag (t ++ r) = Ok l r.
Proof. intros H Hr. apply structure_ok'; auto; [now apply separated_rest|]. destruct r as [|c r]; cbn; [tauto|]. intros ->. apply separated_not in Hr. tauto. Qed.
Lemma tag_err p i : ~ begins p i -> tag p i = Err.
Proof.
  revert i. induction p as [|c p IH]; intros i H; [exfalso; apply H; exists i; reflexivity|]. destruct i as [|d i]; [reflexivity|]. cbn [tag]. destruct (Ascii.eqb_spec c d) as [->|]; [|reflexivity]. apply IH. intros (r & ->). apply H. exists r. reflexivity.
Qed.
Lemma tag_ok p r : tag p (p ++ r) = Ok tt r.
Proof. induction p as [|c p IH]; [destruct r; reflexivity|]. cbn [app tag]. now rewrite Ascii.eqb_refl. Qed.
Lemma tag_inv p : forall i x r, tag p i = Ok x r -> i = p ++ r.
Proof.
  induction p as [|c p IH]; intros i x r; cbn [tag]; [destruct i; intros E; injection E; auto|]. destruct i as [|d i]; [discriminate|]. destruct (Ascii.eqb_spec c d) as [->|]; [|discriminate]. intros E. cbn. f_equal. eauto.
Qed.
(** a word of letters does not reach over the end of a separated text *)
Lemma begins_separated p : forall t r, all_chars is_alpha p -> separated r -> begins p (t ++ r) -> begins p t.
Proof.
  induction p as [|c p IH]; intros t r Hp Hr (s & E); [exists t; reflexivity|]. destruct t as [|d t].
  - exfalso. cbn in E. subst r. cbn in Hr. destruct Hr as (A & _). rewrite alpha_rest in A; [discriminate|]. apply Hp. left. reflexivity.
  - cbn in E. injection E as <- E. destruct (IH t r) as (u & ->); auto; [intros x Hx; apply Hp; right; auto|exists s; auto|exists u; reflexivity].
Qed.
Lemma boolean_err t r : separated r -> ~ begins true_text t -> ~ begins false_text t -> parse_boolean (t ++ r) = Err.
Proof.
  intros Hr H1 H2. unfold parse_boolean, alt, pmap. rewrite !tag_err; [reflexivity| |]; intros H; [apply H2|apply H1]; eapply begins_separated; eauto; intros c Hc; repeat (destruct Hc as [<-|Hc]; [reflexivity|]); destruct Hc.
Qed.
Lemma boolean_err_head r : ~ starts (fun c => is_alpha c = true) r -> parse_boolean r = Err.
Proof.
  intros H. unfold parse_boolean, alt, pmap. rewrite !tag_err; [reflexivity| |]; intros (s & ->); apply H; reflexivity.
Qed.

Lemma sign_err r : ~ starts (fun c => c = "+" \/ c = "-") r -> sign r = Err.
Proof. intros H. unfold sign, alt, pmap. rewrite !chr_err by (destruct r; cbn in *; tauto). reflexivity. Qed.
Lemma sign_opt s r : ~ starts (fun c => c = "+" \/ c = "-") r -> opt sign (sign_text s ++ r) = Ok s r.
Proof.
  intros H. unfold opt. destruct s as [[]|]; cbn [sign_text app]; [unfold sign, alt, pmap; rewrite chr_err by (cbn; discriminate); cbn [bind]; now rewrite chr_ok|unfold sign, alt, pmap; now rewrite chr_ok|]. now rewrite sign_err.
Qed.
Lemma digits_head d : digits_text d -> forall r, ~ starts (fun c => c = "+" \/ c = "-") (d ++ r).
Proof. intros (Hn & Hd) r. destruct d as [|c d]; [congruence|]. cbn. specialize (Hd c (or_introl eq_refl)). intros [->| ->]; discriminate. Qed.
Lemma digits_ok d r : digits_text d -> ~ starts (fun c => is_digit c = true) r -> digits (d ++ r) = Ok d r.
Proof. intros (Hn & Hd) Hr. now apply take_ok. Qed.
Lemma number_ok n t r : number_text n t -> separated r -> parse_number (t ++ r) = Ok n r.
Proof.
  intros [s d f ft e et m mt Hd Hf He Hm] Hr. rewrite <- !app_assoc. unfold parse_number.
  rewrite sign_opt by (apply digits_head; auto). cbn [bind].
  assert (Rd : forall c x, r = c :: x -> is_name_rest c = false) by (intros c x ->; cbn in Hr; tauto).
  assert (Rn : forall (P : ascii -> Prop), (forall c, P c -> is_name_rest c = true) -> ~ starts P r).
  { intros P HP. destruct r as [|c x]; [auto|]. cbn. intros Hc. apply HP in Hc. rewrite (Rd c x eq_refl) in Hc. discriminate. }
  (* the marker *)
  assert (Em : opt type_marker (mt ++ r) = Ok m r).
  { unfold opt, type_marker, alt, pmap. destruct m as [[]|]; subst mt; cbn [app]; [rewrite chr_err by (cbn; discriminate); cbn [bind]; now rewrite chr_ok|now rewrite chr_ok|]. rewrite !chr_err by (apply Rn; intros c ->; reflexivity). reflexivity. }
  assert (Hmr : forall (P : ascii -> Prop), (forall c, P c -> is_name_rest c = true) -> ~ P "d" -> ~ P "f" -> ~ starts P (mt ++ r)).
  { intros P HP P1 P2. destruct m as [[]|]; subst mt; cbn [app starts]; auto. }
  (* the exponent *)
  assert (Ee : opt exponent (et ++ mt ++ r) = Ok e (mt ++ r)).
  { unfold opt, exponent, alt. destruct e as [[s' x]|].
    - destruct He as (Hx & c & Hc & ->). cbn [app]. rewrite <- app_assoc. assert (E : (match chr "e" (c :: sign_text s' ++ x ++ mt ++ r) with Err => chr "E" (c :: sign_text s' ++ x ++ mt ++ r) | y => y end) = Ok tt (sign_text s' ++ x ++ mt ++ r)).
      { destruct Hc as [-> | ->]; [now rewrite chr_ok|]. rewrite chr_err by (cbn; discriminate). now rewrite chr_ok. }
      rewrite E. cbn [bind]. rewrite sign_opt by (apply digits_head; auto). cbn [bind]. rewrite digits_ok; [reflexivity|auto|]. apply Hmr; [apply digit_rest|discriminate|discriminate].
    - subst et. cbn [app]. rewrite !chr_err by (apply Hmr; [intros c ->; reflexivity|discriminate|discriminate]). reflexivity. }
  assert (Her : forall (P : ascii -> Prop), (forall c, P c -> is_name_rest c = true) -> ~ P "d" -> ~ P "f" -> ~ P "e" -> ~ P "E" -> ~ starts P (et ++ mt ++ r)).
  { intros P HP P1 P2 P3 P4. destruct e as [[s' x]|]; [destruct He as (_ & c & [-> | ->] & ->); cbn [app starts]; auto|subst et; cbn [app]; now apply Hmr]. }
  (* the fraction *)
  assert (Ef : opt fractional (ft ++ et ++ mt ++ r) = Ok f (et ++ mt ++ r)).
  { unfold opt, fractional. destruct f as [x|].
    - destruct Hf as (Hx & ->). cbn [app]. rewrite chr_ok. cbn [bind]. rewrite digits_ok; [reflexivity|auto|]. apply Her; [apply digit_rest| | | |]; discriminate.
    - subst ft. cbn [app]. destruct (et ++ mt ++ r) as [|c y] eqn:Ey; [reflexivity|]. destruct (Ascii.eqb_spec c ".") as [->|nn]; [|rewrite chr_err by (cbn; auto); reflexivity].
      rewrite chr_ok. cbn [bind]. unfold digits. rewrite take_err; [reflexivity|].
      assert (Er : r = "." :: y).
      { destruct e as [[s' x]|]; [destruct He as (_ & c & [-> | ->] & ->); discriminate|]. subst et. destruct m as [[]|]; subst mt; cbn in Ey; congruence. }
      rewrite Er in Hr. cbn in Hr. tauto. }
  rewrite digits_ok; auto.
  - cbn [bind]. rewrite Ef. cbn [bind]. rewrite Ee. cbn [bind]. rewrite Em. reflexivity.
  - destruct f as [x|]; [destruct Hf as (_ & ->); cbn; discriminate|]. subst ft. cbn [app]. apply Her; [apply digit_rest| | | |]; discriminate.
Qed.
Lemma number_head n t : number_text n t -> forall r, starts (fun c => is_digit c = true \/ c = "+" \/ c = "-") (t ++ r).
Proof.
  intros [s d f ft e et m mt Hd Hf He Hm] r. destruct Hd as (Hn & Hd). destruct d as [|c d]; [congruence|]. destruct s as [[]|]; cbn; auto. left. apply Hd. left. reflexivity.
Qed.
Lemma number_err r : ~ starts (fun c => is_digit c = true \/ c = "+" \/ c = "-") r -> parse_number r = Err.
Proof.
  intros H. unfold parse_number. change (opt sign r) with (opt sign (sign_text None ++ r)). rewrite sign_opt by (destruct r; cbn in *; tauto). cbn [bind]. unfold digits. rewrite take_err by (destruct r; cbn in *; tauto). reflexivity.
Qed.

(** Leaves are parsed. *)
Lemma basic_ok l t r : leaf_text true l t -> separated r -> parse_basic (t ++ r) = Ok (ELeaf l) r.
Proof.
  intros Hl Hr. unfold parse_basic, pmap. assert (E : alt parse_boolean (alt structure_tag (alt (pmap LNum parse_number) parse_variable)) (t ++ r) = Ok l r); [|unfold pmap in E; now rewrite E].
  unfold alt at 1. destruct Hl as [k n Hn| | | |l t Ht Hb|n t Hn].
  - assert (Hi : ~ starts (fun c => is_alpha c = true \/ c = ":" \/ c = "<") ((indicator k :: n) ++ r)) by (destruct k; cbn; intuition discriminate).
    rewrite boolean_err_head by (destruct k; cbn; discriminate). unfold alt at 1. rewrite structure_err by exact Hi. unfold alt, pmap. rewrite number_err by (destruct k; cbn; intuition discriminate). cbn [bind app parse_variable].
    assert (En : cut name (n ++ r) = Ok n r) by (unfold cut; rewrite name_ok; auto; now apply separated_rest).
    destruct k; cbn [indicator]; cbn [Ascii.eqb Bool.eqb]; rewrite En; reflexivity.
  - rewrite boolean_err_head by (cbn; discriminate). unfold alt at 1. rewrite structure_err by (cbn; intuition discriminate). unfold alt, pmap. rewrite number_err by (cbn; intuition discriminate). reflexivity.
  - unfold parse_boolean, alt, pmap. change ["t"; "r"; "u"; "e"] with true_text. now rewrite tag_ok.
  - unfold parse_boolean, alt, pmap. rewrite tag_err by (intros (s & E); discriminate). cbn [bind]. change ["f"; "a"; "l"; "s"; "e"] with false_text. now rewrite tag_ok.
  - rewrite boolean_err; auto; try (apply Hb; reflexivity). unfold alt at 1. now rewrite (structure_ok l t r Ht Hr).
  - pose proof (number_head n t Hn r) as Hh. assert (Hh' : ~ starts (fun c => is_alpha c = true) (t ++ r)).
    { destruct (t ++ r) as [|c y]; [auto|]. cbn in *. destruct Hh as [H|[-> | ->]]; [|discriminate|discriminate]. apply digit_not in H. destruct H. congruence. }
    rewrite boolean_err_head by exact Hh'. unfold alt at 1. rewrite structure_err.
    + unfold alt, pmap. now rewrite (number_ok n t r Hn Hr).
    + destruct (t ++ r) as [|c y]; [auto|]. cbn in *. intros [H|[-> | ->]]; [tauto| |]; destruct Hh as [H|[H|H]]; discriminate.
Qed.
Lemma basic_err_open r : parse_basic ("(" :: r) = Err.
Proof.
  unfold parse_basic, pmap. unfold alt at 1. rewrite boolean_err_head by (cbn; discriminate). unfold alt at 1. rewrite structure_err by (cbn; intuition discriminate). unfold alt, pmap. rewrite number_err by (cbn; intuition discriminate). reflexivity.
Qed.
