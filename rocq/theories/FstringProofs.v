(** Proofs for format strings. *)
From Coq Require Import List Arith Bool Ascii Lia ZArith.
From Verif Require Import LexModel TextModel CastModel ParseModel ParseSpec ParseProofs1 ParseProofs2 ParseProofs3 ParseProofs4 ParseProofs5 ParseProofs6 FstringModel FstringSpec.
Import ListNotations.
Local Open Scope list_scope.
Local Open Scope nat_scope.
Local Open Scope char_scope.
Notation ptext := ParseModel.text.

Section Parser.
Variable ops : list ptext.
Hypothesis Hops : function_names ops.

(** ** Beginnings *)
Definition plain (c : ascii) : Prop := c <> "{".
Lemma alpha_plain c : is_alpha c = true -> plain c.
Proof. intros H ->. discriminate. Qed.
Lemma tag_plain l t : tag_text l t -> starts plain t.
Proof.
  intros [n (c & r & -> & H & _)|p n [->|(c & r & -> & H & _)] _|s _ _]; cbn; try (now apply alpha_plain); discriminate.
Qed.
Lemma leaf_plain l t : leaf_text true l t -> starts plain t.
Proof.
  intros [k n _| | | |l' t' H _|n t' H]; try (cbn; discriminate); [destruct k; cbn; discriminate|eapply tag_plain; eauto|].
  destruct H as [s d f ft e et m mt (Hd & Ha) _ _ _]. destruct s as [[]|]; cbn [sign_text app]; try (cbn; discriminate).
  destruct d as [|c d]; [congruence|]. cbn. specialize (Ha c ltac:(now left)). intros ->. discriminate.
Qed.
Lemma writes_plain lv e t : writes ops true lv e t -> starts plain t.
Proof.
  induction 1; auto; try (cbn; discriminate); try (now apply starts_app).
  - eapply leaf_plain; eauto.
  - apply starts_app. destruct Hops as (Ho & _). destruct (Ho k H) as (Hn & Hc). destruct t as [|c t]; [cbn in H0; congruence|]. cbn. intros ->. subst k. specialize (Hc _ (in_eq _ _)). discriminate.
  - apply starts_app. eapply tag_plain; eauto.
Qed.
Lemma brace_follows r : follows ("}" :: r).
Proof. split; [cbn; repeat split; intuition discriminate|]. exists [], ("}" :: r). split; [reflexivity|]. split; [apply b_nil|]. cbn. intuition discriminate. Qed.

(** ** Tokens: both forms take the characters up to the first end *)
Lemma at_end_iff i : at_end i = true <-> starts (fun c => c = "{" \/ c = "}") i \/ begins multi_close i.
Proof.
  destruct i as [|c r]; cbn [at_end starts]; [split; [discriminate|]; intros [[]|(r & H)]; discriminate|].
  rewrite !orb_true_iff, !Ascii.eqb_eq. destruct (tag multi_close (c :: r)) as [u s| | |] eqn:E.
  - apply tag_inv in E. split; [|auto]. intros _. right. exists s. exact E.
  - split; [intros [H|H]; [left; exact H|discriminate]|]. intros [H|(s & H)]; [left; exact H|]. rewrite H, tag_ok in E. discriminate.
  - split; [intros [H|H]; [left; exact H|discriminate]|]. intros [H|(s & H)]; [left; exact H|]. rewrite H, tag_ok in E. discriminate.
  - split; [intros [H|H]; [left; exact H|discriminate]|]. intros [H|(s & H)]; [left; exact H|]. rewrite H, tag_ok in E. discriminate.
Qed.

(** What is needed of a token, for the end [close] of the format string *)
Definition stop (close i : ptext) : Prop := starts (fun c => c = "{" \/ c = "}") i \/ begins close i.
Fixpoint free (close a b : ptext) : Prop := match a with [] => True | c :: a' => ~ stop close (c :: a' ++ b) /\ free close a' b end.
Definition token_ok (close : ptext) (token : parser ptext) : Prop :=
  (forall a b, a <> [] -> free close a b -> stop close b -> token (a ++ b) = Ok a b) /\
  (forall i, stop close i -> token i = Err) /\
  (forall i a b, token i = Ok a b -> i = a ++ b /\ a <> [] /\ free close a b) /\
  (forall i, goodr (length i) (token i)).

Lemma single_stop c r : stop single_close (c :: r) <-> c = """" \/ c = "{" \/ c = "}".
Proof.
  split; [intros [H|(s & H)]; [auto|]; injection H as -> _; auto|]. intros [->|H]; [|left; exact H]. right. exists r. reflexivity.
Qed.
Definition single_chr (c : ascii) : bool := negb ((c =? """") || (c =? "{") || (c =? "}")).
Lemma single_chr_iff c r : single_chr c = true <-> ~ stop single_close (c :: r).
Proof.
  rewrite single_stop. unfold single_chr. rewrite negb_true_iff, !orb_false_iff, !Ascii.eqb_neq. tauto.
Qed.
Lemma single_free a b : free single_close a b <-> all_chars single_chr a.
Proof.
  induction a as [|c a IH]; cbn [free]; [split; [intros _ c []|auto]|]. rewrite IH, <- single_chr_iff. split; [intros (H & K) d [<-|Hd]; auto|intros H; split; [apply H; now left|intros d Hd; apply H; now right]].
Qed.
Lemma single_token : token_ok single_close fstring_token.
Proof.
  change fstring_token with (take_while1 single_chr). split; [|split; [|split]].
  - intros a b Ha Hf Hs. apply take_ok; auto; [now apply single_free in Hf|]. destruct b as [|c b]; [intros []|]. cbn. intros H. apply (single_chr_iff c b) in H. auto.
  - intros i Hs. apply take_err. destruct i as [|c i]; [intros []|]. cbn. intros H. apply (single_chr_iff c i) in H. auto.
  - intros i a b H. apply take_inv in H. destruct H as (-> & Hn & Ha & _). repeat split; auto. now apply single_free.
  - intros i. apply (fine_good (length i)); auto. apply fine_span.
Qed.
Lemma split_end_ok a b : free multi_close a b -> stop multi_close b -> split_end (a ++ b) = Some (a, b).
Proof.
  induction a as [|c a IH]; cbn [app].
  - intros _ H. apply at_end_iff in H. destruct b; [discriminate|]. cbn [split_end]. now rewrite H.
  - intros (H & Hf) Hs. cbn [split_end]. destruct (at_end (c :: a ++ b)) eqn:E; [apply at_end_iff in E; contradiction|]. rewrite IH; auto.
Qed.
Lemma split_end_inv : forall i a b, split_end i = Some (a, b) -> i = a ++ b /\ free multi_close a b.
Proof.
  induction i as [|c i IH]; intros a b H.
  - cbn in H. discriminate.
  - cbn [split_end] in H. destruct (at_end (c :: i)) eqn:E.
    + injection H as <- <-. split; [reflexivity|exact I].
    + destruct (split_end i) as [(a', b')|] eqn:E'; [|discriminate]. cbn in H. injection H as <- <-. destruct (IH _ _ eq_refl) as (-> & Hf). split; [reflexivity|]. cbn [free]. split; auto. intros Hs. apply at_end_iff in Hs. cbn [app] in *. congruence.
Qed.
Lemma multi_token : token_ok multi_close multiline_token.
Proof.
  split; [|split; [|split]].
  - intros a b Ha Hf Hs. unfold multiline_token. rewrite split_end_ok by auto. destruct a; [congruence|reflexivity].
  - intros i Hs. unfold multiline_token. pose proof (split_end_ok [] i I Hs) as K. cbn [app] in K. now rewrite K.
  - intros i a b H. unfold multiline_token in H. destruct (split_end i) as [(a', b')|] eqn:E; [|discriminate]. apply split_end_inv in E. destruct a'; [discriminate|]. injection H as <- <-. destruct E as (-> & Hf). split; [reflexivity|]. split; [discriminate|exact Hf].
  - intros i. unfold multiline_token. destruct (split_end i) as [(a', b')|] eqn:E; [|exact I]. apply split_end_inv in E. destruct E as (-> & _). destruct a'; [exact I|]. cbn [goodr]. rewrite app_length. lia.
Qed.

(** ** Content *)
Section Form.
Variable close : ptext.
Variable token : parser ptext.
Hypothesis Htok : token_ok close token.
Hypothesis Hclose : exists k, close = """" :: k /\ all_chars (fun c => c =? """") k.
Let elem := parse_element ops token.

Lemma close_stop r : stop close (close ++ r).
Proof. right. exists r. reflexivity. Qed.
Lemma stop_brace c r : c = "{" \/ c = "}" -> stop close (c :: r).
Proof. intros H. left. exact H. Qed.
Lemma elem_open r : elem ("{" :: "{" :: r) = Ok EStart r.
Proof. destruct Htok as (_ & H & _). unfold elem, parse_element, alt at 1, pmap at 1. rewrite H by (apply stop_brace; auto). cbn [bind]. destruct r; reflexivity. Qed.
Lemma elem_close r : elem ("}" :: "}" :: r) = Ok EEnd r.
Proof. destruct Htok as (_ & H & _). unfold elem, parse_element, alt at 1, pmap at 1. rewrite H by (apply stop_brace; auto). cbn [bind]. destruct r; reflexivity. Qed.
Lemma elem_term e s r : writes ops true Expression e s -> exists a, elem ("{" :: s ++ "}" :: r) = Ok (EExpr a) r /\ term_of a = e.
Proof.
  intros Hw. destruct Htok as (_ & H & _). destruct (parse_expression_ok ops Hops e s ("}" :: r) Hw (brace_follows r)) as (a & Ea & Et). exists a. split; auto.
  unfold elem, parse_element, alt at 1, pmap at 1. rewrite H by (apply stop_brace; auto). cbn [bind].
  apply writes_plain in Hw. destruct s as [|c s]; [destruct Hw|]. cbn in Hw. 
  assert (E1 : tag ["{"; "{"] ("{" :: (c :: s) ++ "}" :: r) = Err). { apply tag_err. intros (x & E). cbn [app] in E. injection E as E _. contradiction. }
  assert (E2 : tag ["}"; "}"] ("{" :: (c :: s) ++ "}" :: r) = Err) by reflexivity.
  unfold alt at 1, pmap at 1. rewrite E1. cbn [bind]. unfold alt at 1, pmap at 1. rewrite E2. cbn [bind]. unfold pmap, braces. rewrite chr_ok. cbn [bind]. rewrite Ea. cbn [bind]. rewrite chr_ok. reflexivity.
Qed.
Lemma elem_text a b : a <> [] -> free close a b -> stop close b -> elem (a ++ b) = Ok (EText a) b.
Proof. intros Ha Hf Hs. destruct Htok as (H & _). unfold elem, parse_element, alt at 1, pmap at 1. now rewrite H. Qed.
Lemma elem_end r : elem (close ++ r) = Err.
Proof.
  destruct Htok as (_ & H & _). unfold elem, parse_element, alt at 1, pmap at 1. rewrite H by apply close_stop. destruct Hclose as (k & -> & _). reflexivity.
Qed.

(** the closing occurs in a text and its end only if it occurs with the rest *)
Lemma begins_app p a r : length p <= length a -> begins p (a ++ r) -> begins p a.
Proof.
  revert a. induction p as [|c p IH]; intros a Hl (x & E); [exists a; reflexivity|]. destruct a as [|d a]; [cbn in Hl; lia|]. cbn [app] in E. injection E as <- E. destruct (IH a ltac:(cbn in Hl; lia) (ex_intro _ x E)) as (y & ->). exists y. reflexivity.
Qed.
(** the characters at the start of the content *)
Lemma items_run l t r : writes_items ops true close l t ->
  exists a l' t', l = map IChar a ++ l' /\ t = a ++ t' /\ free close a (t' ++ close ++ r) /\ stop close (t' ++ close ++ r) /\
    writes_items ops true close l' t' /\ length t' <= length t.
Proof.
  induction 1 as [|c l t H1 H2 H3 Hw IH|l t Hw _|l t Hw _|e s l t He Hw _].
  - exists [], [], []. cbn [free app map]. repeat split; auto; [apply close_stop|constructor].
  - destruct IH as (a & l' & t' & -> & -> & Hf & Hs & Hw' & Hlen). exists (c :: a), l', t'. cbn [map app free length]. repeat split; auto.
    intros [[K|K]|K]; try contradiction. apply H3. apply (begins_app close _ r); [cbn [length]; rewrite !app_length; lia|]. replace ((c :: (a ++ t') ++ close) ++ r) with (c :: a ++ t' ++ close ++ r); auto. flat. reflexivity.
  - exists [], (IChar "{" :: l), ("{" :: "{" :: t). cbn [free app map]. repeat split; auto; [apply stop_brace; auto|now constructor].
  - exists [], (IChar "}" :: l), ("}" :: "}" :: t). cbn [free app map]. repeat split; auto; [apply stop_brace; auto|now constructor].
  - exists [], (ITerm e :: l), ("{" :: s ++ "}" :: t). cbn [free app map]. repeat split; auto; [apply stop_brace; auto|now constructor].
Qed.
Lemma many_step {A} (p : parser A) i x r fuel xs r' : p i = Ok x r -> length r < length i -> many0_ fuel p r = Ok xs r' -> many0_ (S fuel) p i = Ok (x :: xs) r'.
Proof. intros E Hl Em. cbn [many0_]. rewrite E, (proj2 (Nat.eqb_neq _ _)) by lia. now rewrite Em. Qed.
Lemma content_text a l : content (EText a :: l) = map IChar a ++ content l.
Proof. reflexivity. Qed.
Lemma many_items n : forall l t r, length t <= n -> writes_items ops true close l t ->
  forall fuel, length (t ++ close ++ r) < fuel -> exists els, many0_ fuel elem (t ++ close ++ r) = Ok els (close ++ r) /\ content els = l.
Proof.
  induction n as [|n IH]; intros l t r Hn Hw fuel Hf; (destruct fuel as [|fuel]; [lia|]).
  - destruct Hw; cbn [length] in Hn; try lia. exists []. split; [|reflexivity]. cbn [app many0_]. now rewrite elem_end.
  - destruct (items_run l t r Hw) as (a & l' & t' & -> & -> & Hfr & Hs & Hw' & _). rewrite app_length in Hn.
    destruct a as [|c a].
    + cbn [app map] in *. destruct Hw' as [|c l t H1 H2 H3 Hw'|l t Hw'|l t Hw'|e s l t He Hw'].
      * exists []. split; [|reflexivity]. cbn [app many0_]. now rewrite elem_end.
      * exfalso. destruct Hs as [[K|K]|K]; try contradiction. apply H3. cbn [app] in K. apply (begins_app close _ r); [cbn [length]; rewrite !app_length; lia|]. cbn [app]. now rewrite <- app_assoc.
      * cbn [app length] in *. destruct (IH l t r ltac:(lia) Hw' fuel ltac:(lia)) as (els & E & C). exists (EStart :: els). split; [|cbn; now f_equal]. eapply many_step; [apply elem_open|cbn [length]; lia|exact E].
      * cbn [app length] in *. destruct (IH l t r ltac:(lia) Hw' fuel ltac:(lia)) as (els & E & C). exists (EEnd :: els). split; [|cbn; now f_equal]. eapply many_step; [apply elem_close|cbn [length]; lia|exact E].
      * assert (L1 : length t <= n) by (cbn [length] in Hn; rewrite app_length in Hn; cbn [length] in Hn; lia).
        assert (L2 : length (t ++ close ++ r) < fuel) by (cbn [app length] in Hf; rewrite <- app_assoc, app_length in Hf; cbn [app length] in Hf; lia).
        destruct (IH l t r L1 Hw' fuel L2) as (els & E & C). clear Hf Hn. flat. destruct (elem_term e s (t ++ close ++ r) He) as (x & Ex & Tx). exists (EExpr x :: els). split; [|cbn; rewrite Tx; now f_equal]. eapply many_step; [exact Ex|cbn [length]; repeat (rewrite app_length; cbn [length]); lia|exact E].
    + assert (L1 : length t' <= n) by (cbn [length] in Hn; lia).
      assert (L2 : length (t' ++ close ++ r) < fuel) by (rewrite <- app_assoc, app_length in Hf; cbn [length] in Hf; lia).
      rewrite <- app_assoc. clear Hn Hf. destruct (IH l' t' r L1 Hw' fuel L2) as (els & E & C). exists (EText (c :: a) :: els). split; [|rewrite content_text; now rewrite C].
      eapply many_step; [apply elem_text; auto; discriminate|repeat (rewrite app_length; cbn [length]); lia|exact E].
Qed.

(** ** What is read is written *)
Lemma elem_inv i x r : elem i = Ok x r ->
  (exists a, x = EText a /\ i = a ++ r /\ a <> [] /\ free close a r) \/ (x = EStart /\ i = "{" :: "{" :: r) \/ (x = EEnd /\ i = "}" :: "}" :: r) \/
  (exists e s, x = EExpr e /\ i = "{" :: s ++ "}" :: r /\ writes ops false Expression (term_of e) s).
Proof.
  destruct Htok as (_ & _ & H & _). intros E. unfold elem, parse_element in E.
  apply alt_ok in E. destruct E as [E|(_ & E)]; [apply pmap_ok in E; destruct E as (a & E & ->); apply H in E; destruct E as (-> & Hn & Hf); left; exists a; auto|].
  apply alt_ok in E. destruct E as [E|(_ & E)]; [apply pmap_ok in E; destruct E as (a & E & ->); apply tag_inv in E; auto|].
  apply alt_ok in E. destruct E as [E|(_ & E)]; [apply pmap_ok in E; destruct E as (a & E & ->); apply tag_inv in E; auto|].
  apply pmap_ok in E. destruct E as (a & E & ->). do 3 right. unfold braces in E. invs E u i1 E1. invs E e i2 E2. invs E u' i3 E3. injection E as <- <-. apply chr_inv in E1, E3. subst. apply (parse_expression_sound ops Hops) in E2. destruct E2 as (s & -> & Hs). exists e, s. auto.
Qed.
Lemma items_chars a l t r : free close a (t ++ close ++ r) -> writes_items ops false close l t -> writes_items ops false close (map IChar a ++ l) (a ++ t).
Proof.
  induction a as [|c a IH]; cbn [free map app]; auto. intros (H & Hf) Hw. constructor; auto; [intros ->; apply H, stop_brace; auto|intros ->; apply H, stop_brace; auto|].
  intros (x & E). apply H. right. exists (x ++ r). transitivity ((c :: (a ++ t) ++ close) ++ r); [now flat|]. rewrite E. now flat.
Qed.
Lemma many_inv : forall fuel i els s r, many0_ fuel elem i = Ok els s -> s = close ++ r ->
  exists t, i = t ++ close ++ r /\ writes_items ops false close (content els) t.
Proof.
  induction fuel as [|fuel IH]; [discriminate|]. intros i els s r H ->. cbn [many0_] in H. destruct (elem i) as [x i'| | |] eqn:E; try discriminate.
  - destruct (Nat.eqb (length i') (length i)); [discriminate|]. invs H xs i2 E2. injection H as <- H2. destruct (IH _ _ _ _ E2 H2) as (t & -> & Hw). apply elem_inv in E. destruct E as [(a & -> & -> & _ & Hf)|[(-> & ->)|[(-> & ->)|(e & s & -> & -> & Hs)]]].
    + exists (a ++ t). split; [now flat|]. rewrite content_text. eapply items_chars; eauto.
    + exists ("{" :: "{" :: t). split; [reflexivity|]. apply (wi_open ops false close (content xs)). exact Hw.
    + exists ("}" :: "}" :: t). split; [reflexivity|]. apply (wi_close ops false close (content xs)). exact Hw.
    + exists ("{" :: s ++ "}" :: t). split; [now flat|]. apply (wi_term ops false close (term_of e) s (content xs)); auto.
  - injection H as <- H2. exists []. split; [exact H2|constructor].
Qed.
Lemma delimited_ok opening l t r : writes_items ops true close l t ->
  exists els, delimited ops opening close token (opening ++ t ++ close ++ r) = Ok els r /\ content els = l.
Proof.
  intros Hw. destruct (many_items (length t) l t r (le_n _) Hw (S (length (t ++ close ++ r))) ltac:(lia)) as (els & E & C). exists els. split; auto. unfold delimited. rewrite tag_ok. cbn [bind]. unfold many0. fold elem. rewrite E. cbn [bind]. now rewrite tag_ok.
Qed.
Lemma delimited_inv opening i els r : delimited ops opening close token i = Ok els r ->
  exists t, i = opening ++ t ++ close ++ r /\ writes_items ops false close (content els) t.
Proof.
  intros H. unfold delimited in H. invs H u i1 E1. invs H l i2 E2. invs H u' i3 E3. injection H as <- <-. apply tag_inv in E1, E3. subst. unfold many0 in E2. destruct (many_inv _ _ _ _ _ E2 eq_refl) as (t & -> & Hw). eauto.
Qed.
Lemma elem_good N : fine N elem.
Proof.
  destruct Htok as (_ & _ & _ & H). apply fine_alt; [apply fine_pmap; intros i _; specialize (H i); unfold goodr in H; destruct (token i); auto|].
  apply fine_alt; [apply fine_pmap, fine_tag|]. apply fine_alt; [apply fine_pmap, fine_tag|]. apply fine_pmap.
  assert (P : forall n j, length j <= n -> goodr n (parse_expression ops j)). { intros n j Hj. apply (good_mono (length j)); auto. destruct (fine_depth ops (length j)) as (K & _). exact (fine_good (length j) _ j K (le_n _)). }
  intros i Hi. assert (G : goodr (length i) (braces ops i)); [|unfold goodr in G; destruct (braces ops i); auto]. unfold braces. repeat chain; auto; apply (fine_good (length i)); auto; apply fine_tag.
Qed.
Lemma delimited_fuel N opening : fine N (delimited ops opening close token).
Proof.
  intros i Hi. assert (G : goodr (length i) (delimited ops opening close token i)); [|unfold goodr in G; destruct (delimited ops opening close token i); auto].
  unfold delimited. apply bind_good; [eapply (fine_call _ _ (tag opening)); [apply fine_tag|apply le_n|apply le_n]|intros _ y Hy]. apply bind_good; [eapply (fine_call _ _ (many0 elem)); [apply fine_many, elem_good|exact Hy|apply le_n]|intros l z Hz]. apply bind_good; [eapply (fine_call _ _ (tag close)); [apply fine_tag|exact Hz|apply le_n]|]. auto.
Qed.
End Form.

Lemma single_quote : exists k, single_close = """" :: k /\ all_chars (fun c => c =? """") k.
Proof. exists []. split; [reflexivity|intros c []]. Qed.
Lemma multi_quote : exists k, multi_close = """" :: k /\ all_chars (fun c => c =? """") k.
Proof. exists [""""; """"]. split; [reflexivity|]. intros c [<-|[<-|[]]]; reflexivity. Qed.
Lemma items_head strict l t : writes_items ops strict single_close l t -> ~ starts (fun c => c = """") t.
Proof.
  intros [|c l' t' _ _ H _|l' t' _|l' t' _|e s l' t' _ _]; cbn; auto; try discriminate. intros ->. apply H. eexists. reflexivity.
Qed.
Lemma parse_fstring_ok l t r : writes_fstring ops true l t -> ~ (t = ["f"; """"; """"] /\ starts (fun c => c = """") r) ->
  exists els, parse_fstring ops (t ++ r) = Ok els r /\ content els = l.
Proof.
  intros [l' t' H|l' t' H] Hr; unfold parse_fstring, alt.
  - assert (E : delimited ops multi_open multi_close multiline_token (("f" :: """" :: t' ++ [""""]) ++ r) = Err).
    { unfold delimited. rewrite tag_err; [reflexivity|]. intros (x & E). pose proof (items_head _ _ _ H) as Hh. destruct t' as [|c t'].
      - cbn [app] in E. destruct r as [|c r]; [discriminate|]. injection E as -> _. apply Hr. split; [reflexivity|]. reflexivity.
      - cbn [app] in E. injection E as -> _. apply Hh. reflexivity. }
    rewrite E. replace (("f" :: """" :: t' ++ [""""]) ++ r) with (single_open ++ t' ++ single_close ++ r) by (cbn [single_open single_close app]; now flat).
    eapply delimited_ok; eauto using single_token, single_quote.
  - replace (("f" :: """" :: """" :: """" :: t' ++ [""""; """"; """"]) ++ r) with (multi_open ++ t' ++ multi_close ++ r) by (cbn [multi_open multi_close app]; now flat).
    destruct (delimited_ok multi_close multiline_token multi_token multi_quote multi_open l' t' r H) as (els & -> & C). eauto.
Qed.
Lemma parse_fstring_sound i els r : parse_fstring ops i = Ok els r -> exists t, i = t ++ r /\ writes_fstring ops false (content els) t.
Proof.
  intros H. apply alt_ok in H. destruct H as [H|(_ & H)].
  - apply (delimited_inv multi_close _ multi_token) in H. destruct H as (t & -> & Hw). exists ("f" :: """" :: """" :: """" :: t ++ [""""; """"; """"]). split; [cbn [multi_open multi_close app]; now flat|now constructor].
  - apply (delimited_inv single_close _ single_token) in H. destruct H as (t & -> & Hw). exists ("f" :: """" :: t ++ [""""]). split; [cbn [single_open single_close app]; now flat|now constructor].
Qed.
Lemma parse_fstring_fuel i : parse_fstring ops i <> Fuel.
Proof.
  assert (G : fine (length i) (parse_fstring ops)) by (apply fine_alt; apply delimited_fuel; [exact multi_token|exact single_token]).
  specialize (G i (le_n _)). intros E. now rewrite E in G.
Qed.
End Parser.

(** ** Values *)
Section Value.
Context (F : float_ops).
Notation value := (dval F).
Variable eval : expr -> fres value.
Variable value_of : term -> option value.
Hypothesis Heval : forall e, eval e = match value_of (term_of e) with Some v => Value v | None => Undefined end.

Lemma denotes_app a l : denotes value_of (map IChar a ++ l) = option_map (app (map code a)) (denotes value_of l).
Proof. induction a as [|c a IH]; cbn [map app denotes]; [now destruct (denotes value_of l)|]. rewrite IH. now destruct (denotes value_of l). Qed.
Lemma str_value v : str_function (F := F) v = Value (VString (text_of v)).
Proof. destruct v; reflexivity. Qed.
Lemma arguments_ok l : match denotes value_of (content l) with
  | Some s => exists ss, arguments F eval (translate l) = Value (map VString ss) /\ concat ss = s
  | None => arguments F eval (translate l) = Undefined end.
Proof.
  induction l as [|x l IH]; [exists []; auto|].
  assert (K : forall a, match option_map (app (map code a)) (denotes value_of (content l)) with
    | Some s => exists ss, fbind (Value (VString (map code a))) (fun v => fbind (arguments F eval (translate l)) (fun vs => Value (v :: vs))) = Value (map VString ss) /\ concat ss = s
    | None => fbind (Value (VString (map code a))) (fun v => fbind (arguments F eval (translate l)) (fun vs => Value (v :: vs))) = Undefined end).
  { intros a. destruct (denotes value_of (content l)) as [s|]; cbn [option_map fbind].
    - destruct IH as (ss & -> & <-). exists (map code a :: ss). split; reflexivity.
    - now rewrite IH. }
  destruct x as [a|e| |].
  - change (content (EText a :: l)) with (map IChar a ++ content l). rewrite denotes_app. exact (K a).
  - change (content (EExpr e :: l)) with (ITerm (term_of e) :: content l). cbn [denotes]. change (arguments F eval (translate (EExpr e :: l))) with (fbind (fbind (eval e) str_function) (fun v => fbind (arguments F eval (translate l)) (fun vs => Value (v :: vs)))). rewrite Heval.
    destruct (value_of (term_of e)) as [v|]; [|reflexivity]. cbn [fbind]. rewrite str_value. cbn [fbind]. destruct (denotes value_of (content l)) as [s|].
    + destruct IH as (ss & -> & <-). exists (text_of v :: ss). split; reflexivity.
    + now rewrite IH.
  - exact (K ["{"]).
  - exact (K ["}"]).
Qed.
Lemma as_all_strings ss : as_all (F := F) (map VString ss) = Value (map (fun s => mk_tagged s None) ss).
Proof. induction ss as [|s ss IH]; [reflexivity|]. cbn [map as_all as_tagged fbind]. now rewrite IH. Qed.
Lemma concatenation_strings ss : string_concatenation (F := F) (map VString ss) = Value (VString (concat ss)).
Proof.
  unfold string_concatenation. rewrite as_all_strings. unfold fmap. cbn [fbind]. rewrite !map_map. cbn [tag text]. rewrite map_id. destruct ss; reflexivity.
Qed.
Lemma fstring_value_ok l : fstring_value F eval l = match denotes value_of (content l) with Some s => Value (VString s) | None => Undefined end.
Proof.
  unfold fstring_value. pose proof (arguments_ok l) as H. destruct (denotes value_of (content l)) as [s|].
  - destruct H as (ss & -> & <-). cbn [fbind]. apply concatenation_strings.
  - now rewrite H.
Qed.
End Value.

(** ** Texts without terms *)
Lemma doubled_writes ops s : ~ In """" s -> writes_items ops true [""""] (map IChar s) (doubled s).
Proof.
  induction s as [|c s IH]; intros H; [constructor|]. cbn [map doubled flat_map]. fold (doubled s). specialize (IH ltac:(intros K; apply H; now right)).
  destruct (Ascii.eqb_spec c "{") as [->|N1]; [now constructor|]. destruct (Ascii.eqb_spec c "}") as [->|N2]; [now constructor|]. cbn [orb app].
  constructor; auto. intros (x & E). injection E as -> _. apply H. now left.
Qed.
Lemma doubled_nil s : "f" :: """" :: doubled s ++ [""""] = ["f"; """"; """"] -> s = [].
Proof.
  destruct s as [|c s]; auto. intros H. exfalso. apply (f_equal (@length ascii)) in H. rename H into E. cbn [length] in E. rewrite app_length in E. cbn [doubled flat_map] in E. destruct ((c =? "{") || (c =? "}")); cbn [app length] in E; lia.
Qed.
Lemma split_chars l a : forall s, map IChar a ++ content l = map IChar s -> exists s', s = a ++ s' /\ content l = map IChar s'.
Proof.
  induction a as [|c a IH]; intros s H; [exists s; auto|]. destruct s as [|d s]; [discriminate|]. cbn [map app] in H. injection H as <- H. destruct (IH s H) as (s' & -> & E). exists s'. auto.
Qed.
Lemma chars_arguments F (eval : expr -> fres (dval F)) l : forall s, content l = map IChar s ->
  exists ss, arguments F eval (translate l) = Value (map VString ss) /\ concat ss = map code s.
Proof.
  induction l as [|x l IH]; intros s H; [destruct s; [|discriminate]; exists []; auto|].
  assert (G : forall a, map IChar a ++ content l = map IChar s -> exists ss, fbind (Value (VString (map code a))) (fun v => fbind (arguments F eval (translate l)) (fun vs => Value (v :: vs))) = Value (map VString ss) /\ concat ss = map code s).
  { intros a Ha. destruct (split_chars l a s Ha) as (s' & -> & E). destruct (IH s' E) as (ss & Es & Ec). exists (map code a :: ss). cbn [fbind]. rewrite Es. split; [reflexivity|]. cbn [concat]. now rewrite Ec, map_app. }
  destruct x as [a|e| |]; [exact (G a H)| |exact (G ["{"] H)|exact (G ["}"] H)]. destruct s; discriminate.
Qed.
Lemma chars_value F (eval : expr -> fres (dval F)) l s : content l = map IChar s -> fstring_value F eval l = Value (VString (map code s)).
Proof.
  intros H. destruct (chars_arguments F eval l s H) as (ss & Es & <-). unfold fstring_value. rewrite Es. cbn [fbind]. apply concatenation_strings.
Qed.
(** no content ends with a quotation mark *)
Lemma no_final_quote_items ops strict k l t : writes_items ops strict (repeat """" (S k)) l t -> forall l', l <> l' ++ [IChar """"].
Proof.
  induction 1 as [|c l t H1 H2 H3 Hw IH|l t Hw IH|l t Hw IH|e s l t He Hw IH]; intros [|x l'] E; try discriminate; injection E as Ex E; subst; try (now apply (IH l')).
  subst. inversion Hw; subst. apply H3. exists [""""]. cbn [app]. clear. change (repeat """" (S k)) with (["""" ] ++ repeat """" k). rewrite <- app_assoc. cbn [app]. f_equal. induction k as [|k IH]; [reflexivity|]. cbn [repeat app] in *. now f_equal.
Qed.
Lemma no_final_quote ops strict l t : writes_fstring ops strict l t -> forall l', l <> l' ++ [IChar """"].
Proof. intros [l0 t0 H|l0 t0 H] l'; [apply (no_final_quote_items ops strict 0 l0 t0 H)|apply (no_final_quote_items ops strict 2 l0 t0 H)]. Qed.
