(** What the parser reads writes the term, in the natural grammar. *)
From Coq Require Import List Arith Bool Ascii Lia.
From Verif Require Import ParseModel ParseSpec ParseProofs1 ParseProofs2.
Import ListNotations.
Local Open Scope char_scope.

Definition sound {A} (p : parser A) (P : A -> text -> Prop) : Prop := forall i x r, p i = Ok x r -> exists t, i = t ++ r /\ P x t.
Ltac flat := repeat first [rewrite <- app_assoc | progress (cbn [app])].
Ltac inv H := apply bind_ok in H; destruct H as (? & ? & ? & H).

(** ** White space *)
Lemma blank_app a b : blank a -> blank b -> blank (a ++ b).
Proof.
  intros Ha Hb. induction Ha; cbn [app]; auto.
  - now apply b_space.
  - rewrite <- !app_assoc. now apply b_line.
  - rewrite <- app_assoc. cbn [app]. now apply b_closed.
Qed.
Lemma blank_spaces a b : all_chars is_space a -> blank b -> blank (a ++ b).
Proof. intros H Hb. induction a as [|c a IH]; auto. cbn. apply b_space; [apply H; now left|]. apply IH. intros d Hd. apply H. now right. Qed.
Lemma comment_token_inv i x r : comment_token i = Ok x r ->
  exists c, i = "%" :: c ++ r /\ all_chars (fun d => d =? "%") c /\ (forall d, c ++ r = "%" :: "%" :: d -> starts (fun z => z = "%") d).
Proof.
  intros H. unfold comment_token in H.
  assert (K : exists y, i = "%" :: y). { destruct i as [|[[] [] [] [] [] [] [] []] y]; try discriminate. eauto. }
  destruct K as (y & ->).
  destruct (span (fun c => c =? "%") y) as [a b] eqn:Es. apply span_inv in Es. destruct Es as (-> & Ha & Hb).
  destruct a as [|a1 [|a2 [|a3 a]]].
  - exists []. cbn [app] in *. assert (r = b) by (destruct b as [|[[] [] [] [] [] [] [] []] b]; cbn in H; try congruence; exfalso; apply Hb; reflexivity). subst. split; auto. split; [intros ? []|]. intros d ->. exfalso. apply Hb. reflexivity.
  - assert (a1 = "%") by (apply Ascii.eqb_eq, Ha; now left). subst. exists []. cbn [app] in *.
    assert (r = "%" :: b) by (destruct b as [|[[] [] [] [] [] [] [] []] b]; cbn in H; try congruence; exfalso; apply Hb; reflexivity). subst. split; auto. split; [intros ? []|]. intros d E. injection E as ->. exfalso. apply Hb. reflexivity.
  - exfalso. assert (a1 = "%") by (apply Ascii.eqb_eq, Ha; now left). assert (a2 = "%") by (apply Ascii.eqb_eq, Ha; right; now left). subst. cbn [app] in *.
    destruct b as [|[[] [] [] [] [] [] [] []] b]; cbn in H; try discriminate. apply Hb. reflexivity.
  - assert (a1 = "%") by (apply Ascii.eqb_eq, Ha; now left). assert (a2 = "%") by (apply Ascii.eqb_eq, Ha; right; now left). assert (a3 = "%") by (apply Ascii.eqb_eq, Ha; right; right; now left). subst. cbn [app] in *.
    destruct (span (fun c => c =? "%") (a ++ b)) as [u v] eqn:Es. rewrite span_app in Es by (auto; intros c Hc; apply Ha; right; right; now right). injection Es as <- <-. injection H as _ <-.
    exists ("%" :: "%" :: "%" :: a). cbn [app]. split; auto. split; auto. intros d E. injection E as <-. reflexivity.
Qed.
Lemma line_comment_inv i x r : line_comment i = Ok x r -> exists w, i = w ++ r /\ (blank w \/ r = []).
Proof.
  intros H. unfold line_comment in H. inv H. inv H. destruct (comment_token_inv _ _ _ H0) as (c & -> & Hc & Hd). unfold not_line_ending in H1.
  destruct (span (fun c => negb ((c =? "010") || (c =? "013"))) x1) as [a b] eqn:Es. apply span_inv in Es. destruct Es as (-> & Ha & Hb).
  assert (L : line_content (c ++ a)).
  { assert (Hn : forall d, In d (c ++ a) -> (d =? "010") || (d =? "013") = false).
    { intros d Hi. apply in_app_or in Hi. destruct Hi as [Hi|Hi]; [apply Hc in Hi; apply Ascii.eqb_eq in Hi; subst; reflexivity|apply Ha in Hi; now destruct ((d =? "010") || (d =? "013"))]. }
    split; [intros Hi; apply Hn in Hi; discriminate|]. split; [intros Hi; apply Hn in Hi; discriminate|]. intros (d & E & Hs). apply Hs. rewrite app_assoc, E in Hd. specialize (Hd (d ++ b) eq_refl).
    destruct d as [|z d]; [|exact Hd]. exfalso. cbn [app] in Hd. destruct b as [|z b]; [destruct Hd|]. cbn in Hd. subst z. apply Hb. reflexivity. }
  assert (Eb : b = x3). { destruct b as [|[[] [] [] [] [] [] [] []] b]; try congruence. destruct b as [|[[] [] [] [] [] [] [] []] b]; congruence. }
  subst x3. clear H1. destruct b as [|z b].
  - cbn in H. injection H as _ <-. exists ("%" :: c ++ a ++ []). split; [flat; now rewrite !app_nil_r|auto].
  - assert (K : exists nl, z :: b = nl ++ r /\ (nl = ["010"] \/ nl = ["013"; "010"])).
    { unfold line_ending_or_eof in H. destruct z as [[] [] [] [] [] [] [] []]; try discriminate; [destruct b as [|[[] [] [] [] [] [] [] []] b]; try discriminate; injection H as _ <-; exists ["013"; "010"]; auto|injection H as _ <-; exists ["010"]; auto]. }
    destruct K as (nl & -> & Hnl). exists ("%" :: (c ++ a) ++ nl ++ []). split; [flat; reflexivity|]. left. apply b_line; auto. apply b_nil.
Qed.
Lemma comment_end_inv : forall i x r, comment_end i = Ok x r -> exists c, i = c ++ "*" :: "/" :: r /\ closed_content c.
Proof.
  induction i as [|c i IH]; intros x r H; [discriminate|].
  assert (K : (c = "*" /\ i = "/" :: r) \/ ((c <> "*" \/ ~ starts (fun d => d = "/") i) /\ comment_end i = Ok x r)).
  { cbn [comment_end] in H. destruct (Ascii.eqb_spec c "*") as [-> |N].
    - destruct i as [|d i]; [discriminate|]. destruct (Ascii.eqb_spec d "/") as [-> |N]; [injection H as _ <-; auto|]. right. split; [right; exact N|]. destruct d as [[] [] [] [] [] [] [] []]; try exact H. congruence.
    - right. split; auto. destruct c as [[] [] [] [] [] [] [] []]; try exact H. congruence. }
  destruct K as [(-> & ->)|(Hn & E)].
  - exists []. split; auto. intros (a & b & Hab). destruct a; discriminate.
  - destruct (IH _ _ E) as (d & -> & Hd). exists (c :: d). split; auto. intros (a & b & Hab). destruct a as [|y a].
    + cbn in Hab. injection Hab as -> ->. destruct Hn as [Hn|Hn]; [congruence|apply Hn; reflexivity].
    + cbn in Hab. injection Hab as -> ->. apply Hd. eauto.
Qed.
Lemma wsoc_inv i x r : wsoc i = Ok x r -> exists w, i = w ++ r /\ (blank w \/ r = []).
Proof.
  intros H. unfold wsoc in H. apply pmap_ok in H. destruct H as (l & H & _). unfold many0 in H. revert H. generalize (S (length i)) as fuel. intros fuel. revert i l.
  induction fuel as [|fuel IH]; intros i l H; [discriminate|]. cbn [many0_] in H.
  destruct (alt whitespace (alt line_comment closed_comment) i) as [y s| | |] eqn:E; try discriminate; [|injection H as _ <-; exists []; split; auto; left; apply b_nil].
  destruct (Nat.eqb (length s) (length i)); [discriminate|]. inv H. injection H as _ ->. destruct (IH _ _ H0) as (w & -> & Hw).
  apply alt_ok in E. destruct E as [E|(_ & E)].
  - unfold whitespace in E. apply pmap_ok in E. destruct E as (a & E & _). apply take_inv in E. destruct E as (-> & _ & Ha & _). exists (a ++ w). split; [flat; reflexivity|]. destruct Hw as [Hw|Hw]; auto. left. now apply blank_spaces.
  - apply alt_ok in E. destruct E as [E|(_ & E)].
    + apply line_comment_inv in E. destruct E as (a & -> & Ha). exists (a ++ w). split; [flat; reflexivity|]. destruct Hw as [Hw|Hw]; auto. destruct Ha as [Ha|Ha]; [left; now apply blank_app|right]. now apply app_eq_nil in Ha.
    + unfold closed_comment in E. inv E. apply tag_inv in H. subst i. apply comment_end_inv in E. destruct E as (c & -> & Hc). exists ("/" :: "*" :: c ++ "*" :: "/" :: w). split; [flat; reflexivity|].
      destruct Hw as [Hw|Hw]; auto. left. now apply b_closed.
Qed.

(** ** Leaves *)
Lemma sign_inv i s r : opt sign i = Ok s r -> i = sign_text s ++ r.
Proof.
  unfold opt. destruct (sign i) eqn:E; try discriminate; intros H; injection H as <- <-; auto. unfold sign in E. apply alt_ok in E.
  destruct E as [E|(_ & E)]; apply pmap_ok in E; destruct E as (? & E & ->); apply chr_inv in E; now subst.
Qed.
Lemma digits_inv i d r : digits i = Ok d r -> i = d ++ r /\ digits_text d.
Proof. intros H. apply take_inv in H. destruct H as (-> & Hn & Hd & _). split; auto. split; auto. Qed.
Ltac invs H x y E := apply bind_ok in H; destruct H as (x & y & E & H).
Lemma number_inv : sound parse_number number_text.
Proof.
  intros i n r H. unfold parse_number in H. invs H s i1 E1. invs H d i2 E2. invs H f i3 E3. invs H e i4 E4. invs H m i5 E5. injection H as <- <-.
  apply sign_inv in E1. apply digits_inv in E2. destruct E2 as (-> & Hd). subst i.
  assert (F : exists ft, i2 = ft ++ i3 /\ match f with Some y => digits_text y /\ ft = "." :: y | None => ft = [] end).
  { unfold opt in E3. destruct (fractional i2) eqn:E; try discriminate; injection E3 as <- <-; [|exists []; auto]. unfold fractional in E. invs E u j1 K1. apply chr_inv in K1. subst. apply digits_inv in E. destruct E as (-> & Hx). eexists ("." :: _). split; [|split; [exact Hx|reflexivity]]. reflexivity. }
  assert (G : exists et, i3 = et ++ i4 /\ match e with Some (s', y) => digits_text y /\ exists c, (c = "e" \/ c = "E") /\ et = c :: sign_text s' ++ y | None => et = [] end).
  { unfold opt in E4. destruct (exponent i3) eqn:E; try discriminate; injection E4 as <- <-; [|exists []; auto]. unfold exponent in E. invs E u j1 K1. invs E s' j2 K2. invs E y j3 K3. injection E as <- <-. apply sign_inv in K2. apply digits_inv in K3. destruct K3 as (-> & Hx). subst.
    apply alt_ok in K1. destruct K1 as [H|(_ & H)]; apply chr_inv in H; subst; [exists ("e" :: sign_text s' ++ y)|exists ("E" :: sign_text s' ++ y)]; (split; [flat; reflexivity|]); split; eauto. }
  assert (M : exists mt, i4 = mt ++ i5 /\ match m with Some true => mt = ["d"] | Some false => mt = ["f"] | None => mt = [] end).
  { unfold opt in E5. destruct (type_marker i4) eqn:E; try discriminate; injection E5 as <- <-; [|exists []; auto]. unfold type_marker in E. apply alt_ok in E. destruct E as [E|(_ & E)]; apply pmap_ok in E; destruct E as (? & E & ->); apply chr_inv in E; subst; eexists; split; try reflexivity; reflexivity. }
  destruct F as (ft & -> & F), G as (et & -> & G), M as (mt & -> & M). exists (sign_text s ++ d ++ ft ++ et ++ mt). split; [flat; reflexivity|]. now apply nt.
Qed.
Lemma structure_inv : sound structure_tag tag_text.
Proof.
  intros i l r H. unfold structure_tag in H. apply alt_ok in H. destruct H as [H|(_ & H)].
  - invs H p i1 H0. invs H u i2 H1. invs H n i3 H2. injection H as <- <-. apply chr_inv in H1. subst. apply name_inv in H2. destruct H2 as (-> & Hn & _).
    exists (p ++ ":" :: n). apply alt_ok in H0. destruct H0 as [H0|(_ & H0)].
    + apply name_inv in H0. destruct H0 as (-> & Hp & _). split; [flat; reflexivity|]. apply tt_prefixed; auto.
    + injection H0 as <- ->. split; [flat; reflexivity|]. apply tt_prefixed; auto.
  - apply alt_ok in H. destruct H as [H|(_ & H)].
    + apply pmap_ok in H. destruct H as (n & H & ->). apply name_inv in H. destruct H as (-> & Hn & _). exists n. split; auto. now apply tt_name.
    + unfold parse_iri in H. invs H u i1 H0. invs H s i2 H1. invs H v i3 H2. injection H as <- <-. apply chr_inv in H0, H2. subst. apply take_inv in H1. destruct H1 as (-> & Hs & Ha & _). exists ("<" :: s ++ [">"]). split; [flat; reflexivity|]. now apply tt_iri.
Qed.
Lemma variable_inv : sound parse_variable (leaf_text false).
Proof.
  intros [|c i] l r H; [discriminate|]. unfold parse_variable in H.
  assert (K : forall k, bind (cut name i) (fun n r => Ok (LVar k n) r) = Ok l r -> c = indicator k -> exists t, c :: i = t ++ r /\ leaf_text false l t).
  { intros k E ->. inv E. injection E as <- <-. unfold cut in H0. destruct (name i) eqn:En; try discriminate. injection H0 as -> ->. apply name_inv in En. destruct En as (-> & Hn & _). exists (indicator k :: x). split; auto. now apply lt_var. }
  destruct (Ascii.eqb_spec c "?"); [now apply (K Universal)|]. destruct (Ascii.eqb_spec c "!"); [now apply (K Existential)|]. destruct (Ascii.eqb_spec c "$"); [now apply (K Global)|].
  destruct (Ascii.eqb_spec c "_"); [|discriminate]. injection H as <- <-. subst. exists ["_"]. split; auto. apply lt_anon.
Qed.
Lemma basic_inv : sound parse_basic (fun a t => exists l, a = ELeaf l /\ leaf_text false l t).
Proof.
  intros i a r H. unfold parse_basic in H. apply pmap_ok in H. destruct H as (l & H & ->). 
  assert (K : exists t, i = t ++ r /\ leaf_text false l t); [|destruct K as (t & -> & Ht); exists t; eauto].
  apply alt_ok in H. destruct H as [H|(_ & H)].
  - unfold parse_boolean in H. apply alt_ok in H. destruct H as [H|(_ & H)]; apply pmap_ok in H; destruct H as (? & H & ->); apply tag_inv in H; subst; eexists; (split; [reflexivity|]); [apply lt_true|apply lt_false].
  - apply alt_ok in H. destruct H as [H|(_ & H)].
    + apply structure_inv in H. destruct H as (t & -> & Ht). exists t. split; auto. apply lt_tag; auto. discriminate.
    + apply alt_ok in H. destruct H as [H|(_ & H)]; [|now apply variable_inv]. apply pmap_ok in H. destruct H as (n & H & ->). apply number_inv in H. destruct H as (t & -> & Ht). exists t. split; auto. now apply lt_num.
Qed.

(** ** Expressions *)
Section Sound.
Variable ops : list text.
Hypothesis Hops : function_names ops.
Notation L := (writes ops false).
Lemma loose_gap w : blank w -> gap false w.
Proof. intros H. split; auto. discriminate. Qed.
Lemma tag_nonempty l t : tag_text l t -> t <> [].
Proof. intros [n (c & s & -> & _)|p n _ _|s _ _]; [discriminate| |discriminate]. destruct p; discriminate. Qed.
Lemma loose_nonempty lv e t : L lv e t -> t <> [].
Proof.
  intros H. induction H; auto; try discriminate; try (intros E; apply app_eq_nil in E; destruct E as (E1 & E2); try discriminate; try (apply app_eq_nil in E2; destruct E2; discriminate)).
  destruct H as [k n _| | | |l t Ht _|n t Hn]; try discriminate; [eapply tag_nonempty; eauto|]. destruct Hn as [s d f ft e et m mt (Hd & _) _ _ _]. intros E. apply app_eq_nil in E. destruct E as (_ & E). apply app_eq_nil in E. destruct E as (E & _). auto.
Qed.
Definition sE (p : parser expr) := sound p (fun a t => L Expression (term_of a) t).
Definition sA (p : parser expr) := sound p (fun a t => L Atomic (term_of a) t).
Definition sS (p : parser expr) := sound p (fun a t => L Sum (term_of a) t /\ is_bin (term_of a)).
Lemma enclosed_inv {A} (p : parser A) (P : A -> text -> Prop) i x r : sound p P -> enclosed p i = Ok x r ->
  exists w t w', i = "(" :: w ++ t ++ w' ++ ")" :: r /\ blank w /\ blank w' /\ P x t.
Proof.
  intros Hp H. unfold enclosed in H. invs H u i1 E1. invs H u' i2 E2. invs H y i3 E3. invs H u'' i4 E4. invs H u3 i5 E5. injection H as <- <-.
  apply chr_inv in E1, E5. subst. apply wsoc_inv in E2, E4. destruct E4 as (w' & -> & [Hw'|Hw']); [|discriminate]. apply Hp in E3. destruct E3 as (t & -> & Ht).
  destruct E2 as (w & -> & [Hw|Hw]); [|destruct t; [destruct w'|]; discriminate]. exists w, t, w'. split; [flat; reflexivity|auto].
Qed.
Lemma comma_inv i x r : comma i = Ok x r -> exists w w', i = w ++ "," :: w' ++ r /\ blank w /\ (blank w' \/ r = []).
Proof.
  intros H. unfold comma in H. invs H u i1 E1. invs H u' i2 E2. apply chr_inv in E2. subst. apply wsoc_inv in E1, H. destruct E1 as (w & -> & [Hw|Hw]); [|discriminate]. destruct H as (w' & -> & Hw'). exists w, w'. split; [flat; reflexivity|auto].
Qed.
Lemma rest_inv p : sE p -> forall fuel i xs r, sep_rest fuel comma p i = Ok xs r -> (xs = [] /\ i = r) \/
  exists w w' u, i = w ++ "," :: w' ++ u ++ r /\ blank w /\ blank w' /\ writes_list ops false (map term_of xs) u.
Proof.
  intros Hp. induction fuel as [|fuel IH]; intros i xs r H; [discriminate|]. cbn [sep_rest] in H. destruct (comma i) as [u j| | |] eqn:E1; try discriminate; [|injection H as <- <-; auto].
  destruct (Nat.eqb (length j) (length i)); [discriminate|]. destruct (p j) as [y j2| | |] eqn:E2; try discriminate; [|injection H as <- <-; auto]. invs H ys j3 E3. injection H as <- <-. right.
  apply comma_inv in E1. destruct E1 as (w & w' & -> & Hw & Hw'). apply Hp in E2. destruct E2 as (t & -> & Ht). pose proof (loose_nonempty _ _ _ Ht) as Hn.
  destruct Hw' as [Hw'|Hw']; [|destruct t; [congruence|discriminate]]. apply IH in E3. destruct E3 as [(-> & ->)|(v & v' & s & -> & Hv & Hv' & Hs)].
  - exists w, w', t. repeat split; auto. cbn. now apply wl_one.
  - exists w, w', (t ++ v ++ "," :: v' ++ s). split; [flat; reflexivity|]. repeat split; auto. cbn [map]. apply wl_cons; auto. now apply loose_gap.
Qed.
Lemma sep_inv p : sE p -> sound (sep_list1 comma p) (fun xs u => writes_list ops false (map term_of xs) u).
Proof.
  intros Hp i xs r H. unfold sep_list1 in H. invs H x i1 E1. invs H ys i2 E2. injection H as <- <-. apply Hp in E1. destruct E1 as (t & -> & Ht). apply (rest_inv p Hp) in E2.
  destruct E2 as [(-> & ->)|(v & v' & s & -> & Hv & Hv' & Hs)].
  - exists t. split; auto. now apply wl_one.
  - exists (t ++ v ++ "," :: v' ++ s). split; [flat; reflexivity|]. cbn [map]. apply wl_cons; auto. now apply loose_gap.
Qed.
(** the arguments, with the space before the closing parenthesis *)
Lemma sequence_inv p i xs s w3 : sE p -> sequence p i = Ok xs s -> blank w3 -> forall r, s = w3 ++ ")" :: r ->
  exists w u, i = w ++ u ++ ")" :: r /\ blank w /\ writes_known ops false (map term_of xs) u.
Proof.
  intros Hp H Hw3 r ->. unfold sequence in H. invs H o j E1. injection H as <- ->. unfold opt at 1 in E1.
  destruct (bind (sep_list1 comma p i) (fun xs0 r0 => bind (opt comma r0) (fun _ r1 => Ok xs0 r1))) as [ys k| | |] eqn:E; try discriminate; injection E1 as <- ->.
  - invs E zs j1 E1. invs E u j2 E2. injection E as <- ->. apply (sep_inv p Hp) in E1. destruct E1 as (t & -> & Ht). unfold opt in E2. destruct (comma j1) as [u' k| | |] eqn:Ec; try discriminate; injection E2 as <- ->.
    + apply comma_inv in Ec. destruct Ec as (w & w' & -> & Hw & [Hw'|Hw']); [|destruct w3; discriminate]. exists [], (t ++ w ++ "," :: w' ++ w3). split; [flat; reflexivity|]. split; [apply b_nil|]. apply wk_trailing; auto; [now apply loose_gap|now apply blank_app].
    + exists [], (t ++ w3). split; [flat; reflexivity|]. split; [apply b_nil|]. apply wk_list; auto. now apply loose_gap.
  - exists w3, []. repeat split; auto. apply wk_nil.
Qed.
Lemma sequence_enclosed p i xs r : sE p -> enclosed (sequence p) i = Ok xs r ->
  exists w u, i = "(" :: w ++ u ++ ")" :: r /\ blank w /\ writes_known ops false (map term_of xs) u.
Proof.
  intros Hp H. unfold enclosed in H. invs H u i1 E1. invs H u' i2 E2. invs H y i3 E3. invs H u'' i4 E4. invs H u3 i5 E5. injection H as <- <-.
  apply chr_inv in E1, E5. subst. apply wsoc_inv in E2, E4. destruct E4 as (w3 & -> & [Hw'|Hw']); [|discriminate]. destruct (sequence_inv p _ _ _ w3 Hp E3 Hw' _ eq_refl) as (w & t & -> & Hw & Ht).
  destruct E2 as (w0 & -> & [H0|H0]); [|destruct w; [destruct t|]; discriminate]. exists (w0 ++ w), t. split; [flat; reflexivity|]. split; auto. now apply blank_app.
Qed.
Lemma sequence_of_list p i xs r : enclosed (sep_list1 comma p) i = Ok xs r -> exists ys s, enclosed (sequence p) i = Ok ys s.
Proof.
  intros H. unfold enclosed in *. invs H u i1 E1. invs H u' i2 E2. invs H y i3 E3. invs H u'' i4 E4. invs H u3 i5 E5. injection H as <- <-. rewrite E1. cbn [bind]. rewrite E2. cbn [bind].
  assert (K : sequence p i2 = Ok y i3). { unfold sequence, opt at 1. rewrite E3. cbn [bind]. unfold opt, comma. rewrite E4. cbn [bind]. apply chr_inv in E5. subst. rewrite chr_err by (cbn; discriminate). reflexivity. }
  rewrite K. cbn [bind]. rewrite E4. cbn [bind]. rewrite E5. cbn [bind]. eauto.
Qed.
Section Level.
Variable p : parsers.
Hypotheses (He : sE (p_expr p)) (Hb : sA (p_basic p)) (Ha : sS (p_arith p)).
Lemma complex_sound : sA (parse_complex ops p).
Proof.
  intros i a r H. unfold parse_complex in H. apply alt_ok in H. destruct H as [H|(Eo & H)].
  - unfold parse_operation in H. invs H k j E1. invs H xs j2 E2. injection H as <- <-. apply operation_tag_inv in E1. destruct E1 as (Hk & c & -> & Hc). apply (sequence_enclosed _ _ _ _ He) in E2. destruct E2 as (w & u & -> & Hw & Hu).
    exists (c ++ "(" :: w ++ u ++ [")"]). split; [flat; reflexivity|]. cbn [term_of]. now apply w_known.
  - apply alt_ok in H. destruct H as [H|(_ & H)].
    + unfold parse_atom in H. invs H l j E1. invs H xs j2 E2. injection H as <- <-. apply structure_inv in E1. destruct E1 as (t & -> & Ht). pose proof E2 as E3. apply (enclosed_inv _ _ _ _ _ (sep_inv _ He)) in E2. destruct E2 as (w & u & w' & -> & Hw & Hw' & Hu).
      exists (t ++ "(" :: w ++ u ++ w' ++ [")"]). split; [flat; reflexivity|]. cbn [term_of]. apply w_call; auto; [|now apply loose_gap]. intros Hi. apply sequence_of_list in E3. destruct E3 as (ys & s & E3).
      unfold parse_operation in Eo. rewrite (operation_tag_ok ops Hops (map lower t) t _ Hi eq_refl) in Eo. cbn [bind] in Eo. rewrite E3 in Eo. discriminate.
    + unfold parse_tuple in H. apply pmap_ok in H. destruct H as (xs & H & ->). unfold enclosed in H. invs H u i1 E1. invs H u' i2 E2. invs H y i3 E3. invs H u'' i4 E4. invs H u3 i5 E5. injection H as <- <-.
      apply chr_inv in E1, E5. subst. apply wsoc_inv in E2, E4. destruct E4 as (w3 & -> & [Hw3|Hw3]); [|discriminate]. unfold first_trailing in E3. invs E3 x j1 K1. invs E3 v j2 K2. invs E3 v' j3 K3. invs E3 v'' j4 K4. invs E3 ys j5 K5. injection E3 as <- ->.
      destruct (sequence_inv _ _ _ _ w3 He K5 Hw3 _ eq_refl) as (w & t & -> & Hw & Ht). apply chr_inv in K3. subst. apply wsoc_inv in K2, K4. destruct K4 as (w4 & -> & [H4|H4]); [|destruct w; [destruct t|]; discriminate].
      destruct K2 as (w1 & -> & [H1|H1]); [|discriminate]. apply He in K1. destruct K1 as (s & -> & Hs). destruct E2 as (w0 & -> & [H0|H0]); [|destruct s; [destruct w1|]; discriminate].
      exists ("(" :: w0 ++ s ++ w1 ++ "," :: (w4 ++ w) ++ t ++ [")"]). split; [flat; reflexivity|]. cbn [term_of map]. apply w_tuple; auto; [now apply loose_gap|now apply blank_app].
Qed.
Lemma non_sound : sA (non_arithmetic ops p).
Proof.
  intros i a r H. unfold non_arithmetic in H. apply alt_ok in H. destruct H as [H|(_ & H)]; [now apply complex_sound|]. apply basic_inv in H. destruct H as (t & -> & l & -> & Hl). exists t. split; auto. now apply w_leaf.
Qed.
Lemma factor_sound : sound (factor ops p) (fun a t => L Factor (term_of a) t).
Proof.
  intros i a r H. unfold factor in H. apply alt_ok in H. destruct H as [H|(_ & H)].
  - unfold parenthesized_non_arithmetic in H. apply pmap_ok in H. destruct H as (x & H & ->). apply (enclosed_inv _ _ _ _ _ Hb) in H. destruct H as (w & t & w' & -> & Hw & Hw' & Ht). exists ("(" :: w ++ t ++ w' ++ [")"]). split; [flat; reflexivity|]. cbn. apply w_parens; auto. now apply loose_gap.
  - apply alt_ok in H. destruct H as [H|(_ & H)]; [apply non_sound in H; destruct H as (t & -> & Ht); exists t; split; auto; now apply w_factor|].
    unfold parenthesized_expression in H. apply (enclosed_inv _ _ _ _ _ Ha) in H. destruct H as (w & t & w' & -> & Hw & Hw' & Ht & Hbin). exists ("(" :: w ++ t ++ w' ++ [")"]). split; [flat; reflexivity|]. apply w_parens_bin; auto. now apply loose_gap.
Qed.
Lemma chain_inv lv lv' add opp q : (forall i o r, opp i = Ok o r -> i = op_text o :: r /\ additive_op o = add) ->
  sound q (fun a t => L lv (term_of a) t) ->
  (forall o a s b t w w', additive_op o = add -> L lv' a s -> gap false w -> blank w' -> L lv b t -> L lv' (TBin o a b) (s ++ w ++ op_text o :: w' ++ t)) ->
  forall fuel i l r, many0_ fuel (operand opp q) i = Ok l r -> forall a s, L lv' (term_of a) s -> exists t, i = t ++ r /\ L lv' (term_of (fold_chain a l)) (s ++ t).
Proof.
  intros Ho Hq Hw. induction fuel as [|fuel IH]; intros i l r H a s Hs; [discriminate|]. cbn [many0_] in H. destruct (operand opp q i) as [x j| | |] eqn:E; try discriminate; [|injection H as <- <-; exists []; split; auto; now rewrite app_nil_r].
  destruct (Nat.eqb (length j) (length i)); [discriminate|]. invs H l' j2 E2. injection H as <- <-. unfold operand in E. invs E u i1 K1. invs E o i2 K2. invs E u' i3 K3. invs E b i4 K4. injection E as <- <-.
  apply Ho in K2. destruct K2 as (-> & Hadd). apply Hq in K4. destruct K4 as (t & -> & Ht). pose proof (loose_nonempty _ _ _ Ht) as Hn. apply wsoc_inv in K1, K3. destruct K1 as (w & -> & [H1|H1]); [|discriminate].
  destruct K3 as (w' & -> & [H3|H3]); [|destruct t; [congruence|discriminate]]. specialize (IH _ _ _ E2 (EArith o a b) (s ++ w ++ op_text o :: w' ++ t)). destruct IH as (v & -> & Hv); [cbn [term_of]; apply Hw; auto; now apply loose_gap|].
  exists (w ++ op_text o :: w' ++ t ++ v). split; [flat; reflexivity|]. revert Hv. unfold fold_chain. cbn [fold_left fst snd]. flat. auto.
Qed.
Lemma op_inv add_ m (c1 c2 : ascii) o1 o2 i o r : m = alt (pmap (fun _ => o1) (chr c1)) (pmap (fun _ => o2) (chr c2)) -> op_text o1 = c1 -> op_text o2 = c2 ->
  additive_op o1 = add_ -> additive_op o2 = add_ -> m i = Ok o r -> i = op_text o :: r /\ additive_op o = add_.
Proof. intros -> <- <- A B H. apply alt_ok in H. destruct H as [H|(_ & H)]; apply pmap_ok in H; destruct H as (? & H & ->); apply chr_inv in H; auto. Qed.
Lemma product_sound : sound (product ops p) (fun a t => L Product (term_of a) t).
Proof.
  intros i a r H. unfold product in H. invs H e j E1. invs H l j2 E2. injection H as <- <-. apply factor_sound in E1. destruct E1 as (t & -> & Ht). unfold many0 in E2.
  destruct (chain_inv Factor Product false multiplicative (factor ops p)) with (1 := fun i o r => op_inv false multiplicative _ _ Mul Div i o r eq_refl eq_refl eq_refl eq_refl eq_refl) (4 := E2) (a := e) (s := t) as (v & -> & Hv); auto.
  - apply factor_sound.
  - intros. now apply w_mul.
  - now apply w_product.
  - exists (t ++ v). split; [flat; reflexivity|auto].
Qed.
Lemma sum_sound : sound (sum ops p) (fun a t => L Sum (term_of a) t).
Proof.
  intros i a r H. unfold sum in H. invs H e j E1. invs H l j2 E2. injection H as <- <-. apply product_sound in E1. destruct E1 as (t & -> & Ht). unfold many0 in E2.
  destruct (chain_inv Product Sum true additive (product ops p)) with (1 := fun i o r => op_inv true additive _ _ Add Sub i o r eq_refl eq_refl eq_refl eq_refl eq_refl) (4 := E2) (a := e) (s := t) as (v & -> & Hv); auto.
  - apply product_sound.
  - intros. now apply w_add.
  - now apply w_sum.
  - exists (t ++ v). split; [flat; reflexivity|auto].
Qed.
Lemma arithmetic_sound : sS (arithmetic ops p).
Proof. intros i a r H. unfold arithmetic in H. destruct (sum ops p i) as [b s| | |] eqn:E; try discriminate. apply sum_sound in E. destruct E as (t & -> & Ht). destruct b; try discriminate. injection H as <- <-. exists t. split; auto. split; auto. exact I. Qed.
Lemma expression_sound : sE (expression ops p).
Proof.
  intros i a r H. unfold expression in H. apply alt_ok in H. destruct H as [H|(_ & H)].
  - apply arithmetic_sound in H. destruct H as (t & -> & Ht & Hi). exists t. split; auto. now apply w_expression.
  - apply alt_ok in H. destruct H as [H|(_ & H)].
    + unfold parenthesized in H. apply pmap_ok in H. destruct H as (x & H & ->). apply (enclosed_inv _ _ _ _ _ He) in H. destruct H as (w & t & w' & -> & Hw & Hw' & Ht). exists ("(" :: w ++ t ++ w' ++ [")"]). split; [flat; reflexivity|]. cbn. apply w_expression_parens; auto. now apply loose_gap.
    + apply non_sound in H. destruct H as (t & -> & Ht). exists t. split; auto. now apply w_expression_atomic.
Qed.
End Level.
Lemma depth_sound n : sE (p_expr (at_depth ops n)) /\ sA (p_basic (at_depth ops n)) /\ sS (p_arith (at_depth ops n)).
Proof.
  induction n as [|n (H1 & H2 & H3)]; [repeat split; intros i a r H; discriminate|]. cbn [at_depth p_expr p_basic p_arith].
  split; [now apply expression_sound|]. split; [now apply non_sound|now apply arithmetic_sound].
Qed.
Theorem parse_expression_sound i a r : parse_expression ops i = Ok a r -> exists t, i = t ++ r /\ L Expression (term_of a) t.
Proof. unfold parse_expression. destruct (depth_sound (length i)) as (H1 & H2 & H3). now apply expression_sound. Qed.
End Sound.
