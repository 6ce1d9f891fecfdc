(** Proofs for the parser: every expression is parsed. *)
From Coq Require Import List Arith Bool Ascii Lia.
From Verif Require Import ParseModel ParseSpec ParseProofs1 ParseProofs2.
Import ListNotations.
Local Open Scope char_scope.

Ltac flat := repeat first [rewrite <- app_assoc | progress (cbn [app])].
Ltac flat_in H := repeat first [rewrite <- app_assoc in H | progress (cbn [app] in H)].

Definition isA (a : expr) : Prop := match a with EArith _ _ _ => True | _ => False end.
Lemma term_of_fold l : forall a, term_of (fold_chain a l) = fold_terms (term_of a) (map (fun x => (fst x, term_of (snd x))) l).
Proof. unfold fold_chain, fold_terms. induction l as [|x l IH]; intros a; [reflexivity|]. cbn [fold_left map]. rewrite IH. reflexivity. Qed.
Lemma isA_fold l : forall a, isA (fold_chain a l) <-> l <> [] \/ isA a.
Proof.
  unfold fold_chain. induction l as [|x l IH]; intros a; cbn [fold_left]; [tauto|]. rewrite IH. cbn. split; intros _; [left; discriminate|auto].
Qed.
Lemma bin_fold l : forall e, is_bin (fold_terms e l) <-> l <> [] \/ is_bin e.
Proof.
  unfold fold_terms. induction l as [|x l IH]; intros a; cbn [fold_left]; [tauto|]. rewrite IH. cbn. split; intros _; [left; discriminate|auto].
Qed.

Section Parser.
Variable ops : list text.
Hypothesis Hops : function_names ops.
Notation W := (writes ops true).

Lemma operand_stop opp q w r : blank w -> no_space r -> opp r = Err -> operand opp q (w ++ r) = Err.
Proof. intros Hw Hr Ho. unfold operand. rewrite (wsoc_ok w r Hw Hr). cbn [bind]. now rewrite Ho. Qed.
Lemma many_pieces lv add (q : parser expr) (opp : parser arith_op) (F : text -> Prop) k r :
  (forall e t s, W lv e t -> length t <= k -> F s -> exists a, q (t ++ s) = Ok a s /\ term_of a = e) ->
  (forall o x, additive_op o = add -> opp (op_text o :: x) = Ok o x) ->
  (forall w o x, gap true w -> additive_op o = add -> no_space (op_text o :: x) -> F (w ++ op_text o :: x)) ->
  F r -> operand opp q r = Err ->
  forall l u, pieces ops lv add l u -> length u <= k -> forall fuel, length (u ++ r) < fuel ->
  exists l', many0_ fuel (operand opp q) (u ++ r) = Ok l' r /\ map (fun x => (fst x, term_of (snd x))) l' = l.
Proof.
  intros Hq Hop HF HFr Hstop l u Hp. induction Hp as [|o e w w' t l u Ho Hw Hw' Ht Hp IH]; intros Hk fuel Hf; (destruct fuel as [|fuel]; [lia|]).
  - cbn [app many0_]. rewrite Hstop. exists []. auto.
  - assert (Lk : length t <= k /\ length u <= k /\ length (u ++ r) < fuel /\ length (u ++ r) < length ((w ++ op_text o :: w' ++ t ++ u) ++ r)).
    { rewrite !app_length in *. cbn [length] in *. rewrite !app_length in *. lia. }
    destruct Lk as (L1 & L2 & L3 & L4). cbn [many0_].
    assert (Fu : F (u ++ r)) by (destruct (pieces_head ops Hops lv add l u r Hp) as [(-> & ->)|(v & o' & x & E & A & B & _ & C)]; [exact HFr|rewrite E; now apply HF]).
    destruct (Hq e t (u ++ r) Ht L1 Fu) as (a & Ea & Et).
    assert (E : operand opp q ((w ++ op_text o :: w' ++ t ++ u) ++ r) = Ok (o, a) (u ++ r)).
    { flat. unfold operand. rewrite wsoc_ok; [|apply Hw|apply (op_no_space ops Hops o lv e t w' (u ++ r) Ht Hw')]. cbn [bind]. rewrite (Hop o _ Ho). cbn [bind].
      rewrite (wsoc_ok w' (t ++ u ++ r) Hw' (writes_no_space ops Hops lv e t _ Ht)). cbn [bind]. rewrite Ea. reflexivity. }
    rewrite E. rewrite (proj2 (Nat.eqb_neq _ _)) by lia. destruct (IH L2 fuel L3) as (l' & -> & El). cbn [bind]. exists ((o, a) :: l'). split; auto. cbn. now rewrite Et, El.
Qed.

(** ** The statements for texts up to a length *)
Definition follows_product (r : text) : Prop :=
  separated r /\ exists w r', r = w ++ r' /\ blank w /\ no_space r' /\ ~ starts (fun c => c = "*" \/ c = "/") r'.
Definition okA k := forall e t, W Atomic e t -> length t <= k -> forall m r, length t <= m -> separated r ->
  exists a, non_arithmetic ops (at_depth ops m) (t ++ r) = Ok a r /\ term_of a = e /\ ~ isA a.
Definition okF k := forall e t, W Factor e t -> length t <= k -> forall m r, length t <= m -> separated r ->
  exists a, factor ops (at_depth ops m) (t ++ r) = Ok a r /\ term_of a = e /\ (isA a <-> is_bin e).
Definition okP k := forall e t, W Product e t -> length t <= k -> forall m r, length t <= m -> follows_product r ->
  exists a, product ops (at_depth ops m) (t ++ r) = Ok a r /\ term_of a = e /\ (isA a <-> is_bin e).
Definition okS k := forall e t, W Sum e t -> length t <= k -> forall m r, length t <= m -> follows r ->
  exists a, sum ops (at_depth ops m) (t ++ r) = Ok a r /\ term_of a = e /\ (isA a <-> is_bin e).
Definition okE k := forall e t, W Expression e t -> length t <= k -> forall m r, length t <= m -> follows r ->
  exists a, expression ops (at_depth ops m) (t ++ r) = Ok a r /\ term_of a = e.
Definition okD k := forall e t, W Expression e t -> length t <= k -> forall m r, length t <= m -> follows r ->
  (W Sum e t /\ is_bin e) \/ arithmetic ops (at_depth ops m) (t ++ r) = Err.

Lemma atomic_not_bin e t : W Atomic e t -> ~ is_bin e.
Proof. intros H. inversion H; subst; auto. Qed.
Lemma follows_separated r : follows r -> separated r.
Proof. intros H. apply H. Qed.
Lemma follows_p r : follows r -> follows_product r.
Proof.
  intros (Hs & w & r' & -> & Hw & He). split; auto. exists w, r'. repeat split; auto; [now apply ends_no_space|]. destruct r' as [|c r']; auto. cbn in *. destruct He as (_ & He). intros [-> | ->]; apply He; tauto.
Qed.
Lemma mult_ok o x : additive_op o = false -> multiplicative (op_text o :: x) = Ok o x.
Proof. destruct o; try discriminate; reflexivity. Qed.
Lemma add_ok o x : additive_op o = true -> additive (op_text o :: x) = Ok o x.
Proof. destruct o; try discriminate; reflexivity. Qed.
Lemma mult_err r : ~ starts (fun c => c = "*" \/ c = "/") r -> multiplicative r = Err.
Proof. intros H. unfold multiplicative, alt, pmap. rewrite !chr_err by (destruct r; cbn in *; tauto). reflexivity. Qed.
Lemma add_err r : ~ starts (fun c => c = "+" \/ c = "-") r -> additive r = Err.
Proof. intros H. unfold additive, alt, pmap. rewrite !chr_err by (destruct r; cbn in *; tauto). reflexivity. Qed.

Lemma okP_of k : okF k -> okP k.
Proof.
  intros HF e t Ht Hk m r Hm Hr. apply product_chain in Ht. destruct Ht as (e0 & t0 & l & u & H0 & Hu & -> & ->). rewrite app_length in *.
  destruct Hr as (Hs & w & r' & Er & Hw & Hn & Ho).
  assert (HFs : forall w o x, gap true w -> additive_op o = false -> no_space (op_text o :: x) -> separated (w ++ op_text o :: x)) by (intros; apply gap_separated; auto; apply op_separated).
  assert (Fu : separated (u ++ r)) by (destruct (pieces_head ops Hops Factor false l u r Hu) as [(-> & ->)|(v & o' & x & E & A & B & _ & C)]; [exact Hs|rewrite E; now apply HFs]).
  destruct (HF e0 t0 H0 ltac:(lia) m (u ++ r) ltac:(lia) Fu) as (a & Ea & Et & Eb).
  destruct (many_pieces Factor false (factor ops (at_depth ops m)) multiplicative separated (length u) r) with (l := l) (u := u) (fuel := S (length (u ++ r))) as (l' & El & Em); auto.
  - intros e' t' s' H1 H2 H3. destruct (HF e' t' H1 ltac:(lia) m s' ltac:(lia) H3) as (a' & A & B & _). eauto.
  - apply mult_ok.
  - rewrite Er. apply operand_stop; auto. now apply mult_err.
  - unfold product. flat. rewrite Ea. cbn [bind]. unfold many0. rewrite El. cbn [bind]. exists (fold_chain a l'). split; auto. split; [rewrite term_of_fold, Em, Et; auto|].
    rewrite isA_fold, bin_fold, Eb. assert (l' = [] <-> l = []) by (rewrite <- Em; destruct l'; cbn; split; congruence). tauto.
Qed.
Lemma okS_of k : okP k -> okS k.
Proof.
  intros HP e t Ht Hk m r Hm Hr. apply sum_chain in Ht. destruct Ht as (e0 & t0 & l & u & H0 & Hu & -> & ->). rewrite app_length in *.
  assert (HFs : forall w o x, gap true w -> additive_op o = true -> no_space (op_text o :: x) -> follows_product (w ++ op_text o :: x)).
  { intros w o x Hw Ho Hn. split; [apply gap_separated; auto; apply op_separated|]. exists w, (op_text o :: x). destruct Hw. split; [reflexivity|]. split; [assumption|]. split; [assumption|]. destruct o; try discriminate; cbn; intuition discriminate. }
  pose proof (follows_p r Hr) as Hr'. destruct Hr as (Hs & w & r' & Er & Hw & He).
  assert (Fu : follows_product (u ++ r)) by (destruct (pieces_head ops Hops Product true l u r Hu) as [(-> & ->)|(v & o' & x & E & A & B & _ & C)]; [exact Hr'|rewrite E; now apply HFs]).
  destruct (HP e0 t0 H0 ltac:(lia) m (u ++ r) ltac:(lia) Fu) as (a & Ea & Et & Eb).
  destruct (many_pieces Product true (product ops (at_depth ops m)) additive follows_product (length u) r) with (l := l) (u := u) (fuel := S (length (u ++ r))) as (l' & El & Em); auto.
  - intros e' t' s' H1 H2 H3. destruct (HP e' t' H1 ltac:(lia) m s' ltac:(lia) H3) as (a' & A & B & _). eauto.
  - apply add_ok.
  - rewrite Er. apply operand_stop; auto; [now apply ends_no_space|]. apply add_err. destruct r' as [|c r']; auto. cbn in *. destruct He as (_ & He). intros [-> | ->]; apply He; tauto.
  - unfold sum. flat. rewrite Ea. cbn [bind]. unfold many0. rewrite El. cbn [bind]. exists (fold_chain a l'). split; auto. split; [rewrite term_of_fold, Em, Et; auto|].
    rewrite isA_fold, bin_fold, Eb. assert (l' = [] <-> l = []) by (rewrite <- Em; destruct l'; cbn; split; congruence). tauto.
Qed.

(** ** Parentheses *)
Lemma operation_err_head p i : starts (fun c => is_name_rest c = false) i -> parse_operation ops p i = Err.
Proof.
  intros H. apply operation_err. intros k c r Hk E ->. destruct (ops_chars ops Hops k c Hk E) as (Hn & Hc & _). destruct c as [|x c]; [congruence|]. cbn in H. rewrite (Hc x) in H by (left; auto). discriminate.
Qed.
Lemma atom_err_head p i : ~ starts (fun c => is_alpha c = true \/ c = ":" \/ c = "<") i -> parse_atom p i = Err.
Proof. intros H. unfold parse_atom. now rewrite structure_err. Qed.
Lemma complex_close p r : parse_complex ops p (")" :: r) = Err.
Proof. unfold parse_complex, alt. rewrite operation_err_head by reflexivity. rewrite atom_err_head by (cbn; intuition discriminate). reflexivity. Qed.
Lemma basic_close r : parse_basic (")" :: r) = Err.
Proof.
  unfold parse_basic, pmap. unfold alt at 1. rewrite boolean_err_head by (cbn; discriminate). unfold alt at 1. rewrite structure_err by (cbn; intuition discriminate). unfold alt, pmap. rewrite number_err by (cbn; intuition discriminate). reflexivity.
Qed.
Lemma expression_close p r : expression ops p (")" :: r) = Err.
Proof.
  assert (En : non_arithmetic ops p (")" :: r) = Err) by (unfold non_arithmetic, alt; now rewrite complex_close, basic_close).
  unfold expression, alt. assert (Ea : arithmetic ops p (")" :: r) = Err).
  { unfold arithmetic, sum, product, factor, alt, parenthesized_non_arithmetic, parenthesized_expression, pmap. rewrite !enclosed_err by (cbn; discriminate). cbn [bind]. now rewrite En. }
  rewrite Ea. unfold parenthesized, pmap. rewrite enclosed_err by (cbn; discriminate). cbn [bind]. now rewrite complex_close, basic_close.
Qed.
Lemma comma_ok w w' r : blank w -> blank w' -> no_space r -> comma (w ++ "," :: w' ++ r) = Ok tt r.
Proof. intros Hw Hw' Hr. unfold comma. rewrite (wsoc_ok w _ Hw (no_space_comma _)). cbn [bind]. rewrite chr_ok. cbn [bind]. now apply wsoc_ok. Qed.
Lemma comma_close w r : blank w -> comma (w ++ ")" :: r) = Err.
Proof. intros Hw. unfold comma. rewrite (wsoc_ok w _ Hw (no_space_close _)). cbn [bind]. now rewrite chr_err by (cbn; discriminate). Qed.

Lemma list_head ts u : writes_list ops true ts u -> starts head_ok u.
Proof. intros [e t H|e t es v w w' H _ _ _]; [|apply starts_app]; eapply writes_head; eauto. Qed.
Lemma list_ok k m (p := expression ops (at_depth ops m)) : okE k -> forall s, follows s ->
  (comma s = Err \/ exists x, comma s = Ok tt x /\ length x < length s /\ p x = Err) ->
  forall ts u, writes_list ops true ts u -> length u <= k -> length u <= m ->
  exists x s1, p (u ++ s) = Ok x s1 /\ length s1 < length (u ++ s) /\ forall fuel, length s1 < fuel -> exists xs, sep_rest fuel comma p s1 = Ok xs s /\ map term_of (x :: xs) = ts.
Proof.
  intros HE s Hs Hc ts u Hl. induction Hl as [e t Ht|e t es u w w' Ht Hw Hw' Hl IH]; intros Hk Hm.
  - destruct (HE e t Ht Hk m s Hm Hs) as (a & Ea & Et). exists a, s. split; auto. split.
    { apply (writes_head ops Hops) in Ht. destruct t; [destruct Ht|]. cbn. rewrite app_length. lia. }
    intros fuel Hf. destruct fuel as [|fuel]; [lia|]. exists []. split; [|cbn; now rewrite Et]. cbn [sep_rest].
    destruct Hc as [->|(x & -> & Lx & Px)]; [reflexivity|]. rewrite (proj2 (Nat.eqb_neq _ _)) by lia. now rewrite Px.
  - rewrite app_length in *. rewrite app_length in *. cbn [length] in *. rewrite app_length in *.
    assert (Hf : follows (w ++ "," :: w' ++ u ++ s)) by (apply follows_gap; auto; [apply comma_separated|apply comma_ends]).
    destruct (HE e t Ht ltac:(lia) m _ ltac:(lia) Hf) as (a & Ea & Et). exists a, (w ++ "," :: w' ++ u ++ s). split; [rewrite <- Ea; f_equal; flat; reflexivity|]. split.
    { apply (writes_head ops Hops) in Ht. destruct t; [destruct Ht|]. rewrite !app_length. cbn [length]. rewrite !app_length. cbn [length]. lia. }
    destruct (IH ltac:(lia) ltac:(lia)) as (x & s1 & Ex & Lx & Hx). intros fuel Hfu. destruct fuel as [|fuel]; [lia|]. cbn [sep_rest].
    rewrite comma_ok; [|apply Hw|exact Hw'|apply head_no_space; eapply list_head; eauto]. rewrite !app_length in *. cbn [length] in *. rewrite !app_length in *. rewrite (proj2 (Nat.eqb_neq _ _)) by lia.
    fold p. rewrite Ex. destruct (Hx fuel ltac:(lia)) as (xs & -> & Em). cbn [bind]. exists (x :: xs). split; auto. cbn [map]. cbn [map] in Em. now rewrite Et, Em.
Qed.
Lemma sep_list_ok k m : okE k -> forall s, follows s ->
  (comma s = Err \/ exists x, comma s = Ok tt x /\ length x < length s /\ expression ops (at_depth ops m) x = Err) ->
  forall ts u, writes_list ops true ts u -> length u <= k -> length u <= m ->
  exists xs, sep_list1 comma (expression ops (at_depth ops m)) (u ++ s) = Ok xs s /\ map term_of xs = ts.
Proof.
  intros HE s Hs Hc ts u Hl Hk Hm. destruct (list_ok k m HE s Hs Hc ts u Hl Hk Hm) as (x & s1 & E & _ & H). destruct (H _ (le_n _)) as (xs & E2 & Em).
  exists (x :: xs). unfold sep_list1. rewrite E. cbn [bind]. rewrite E2. cbn [bind]. auto.
Qed.
Lemma known_no_space ts u r : writes_known ops true ts u -> no_space (u ++ ")" :: r).
Proof.
  intros [|es t w Hl _|es t w w' Hl _ _]; [apply no_space_close| |]; flat; apply head_no_space; eapply list_head; eauto.
Qed.
Lemma sequence_ok k m : okE k -> forall ts u r, writes_known ops true ts u -> length u <= k -> length u <= m ->
  exists xs s, sequence (expression ops (at_depth ops m)) (u ++ ")" :: r) = Ok xs s /\ wsoc s = Ok tt (")" :: r) /\ map term_of xs = ts.
Proof.
  intros HE ts u r Hk. destruct Hk as [|es t w Hl Hw|es t w w' Hl Hw Hw']; intros Lk Lm.
  - exists [], (")" :: r). split; [|split; auto; apply wsoc_nil, no_space_close]. unfold sequence, opt, sep_list1. cbn [app]. rewrite expression_close. reflexivity.
  - rewrite app_length in *. destruct (sep_list_ok k m HE (w ++ ")" :: r)) with (ts := es) (u := t) as (xs & E & Em); auto; try lia.
    + apply follows_gap; auto; [apply close_separated|apply close_ends].
    + left. apply comma_close. apply Hw.
    + exists xs, (w ++ ")" :: r). split; [|split; auto; apply wsoc_gap; auto; apply no_space_close]. unfold sequence, opt. flat. rewrite E. cbn [bind]. rewrite comma_close by apply Hw. reflexivity.
  - rewrite app_length in *. destruct (sep_list_ok k m HE (w ++ "," :: w' ++ ")" :: r)) with (ts := es) (u := t) as (xs & E & Em); auto; try lia.
    + apply follows_gap; auto; [apply comma_separated|apply comma_ends].
    + right. exists (")" :: r). rewrite comma_ok by (auto; try apply Hw; apply no_space_close). split; auto. split; [rewrite !app_length; cbn [length]; rewrite app_length; cbn [length]; lia|apply expression_close].
    + exists xs, (")" :: r). split; [|split; auto; apply wsoc_nil, no_space_close]. unfold sequence, opt. flat. rewrite E. cbn [bind]. rewrite comma_ok by (auto; try apply Hw; apply no_space_close). reflexivity.
Qed.

(** ** Enclosed texts *)
Lemma enclosed_open {A} (q : parser A) w t r lv e : blank w -> W lv e t -> enclosed q ("(" :: w ++ t ++ r) =
  bind (q (t ++ r)) (fun x r => bind (wsoc r) (fun _ r => bind (chr ")" r) (fun _ r => Ok x r))).
Proof. intros Hw Ht. unfold enclosed. rewrite chr_ok. cbn [bind]. rewrite (wsoc_ok w (t ++ r) Hw (writes_no_space ops Hops lv e t r Ht)). reflexivity. Qed.
Lemma enclosed_ok {A} (q : parser A) w t w' r lv e x : blank w -> W lv e t -> gap true w' -> q (t ++ w' ++ ")" :: r) = Ok x (w' ++ ")" :: r) ->
  enclosed q ("(" :: w ++ t ++ w' ++ ")" :: r) = Ok x r.
Proof.
  intros Hw Ht Hg E. rewrite (enclosed_open q w t _ lv e Hw Ht), E. cbn [bind]. rewrite wsoc_gap by (auto; apply no_space_close). cbn [bind]. now rewrite chr_ok.
Qed.
Lemma enclosed_op {A} (q : parser A) w t r lv e x v o y : blank w -> W lv e t -> q (t ++ r) = Ok x (v ++ op_text o :: y) -> gap true v -> no_space (op_text o :: y) ->
  enclosed q ("(" :: w ++ t ++ r) = Err.
Proof.
  intros Hw Ht E Hv Hn. rewrite (enclosed_open q w t _ lv e Hw Ht), E. cbn [bind]. rewrite wsoc_gap by auto. cbn [bind]. rewrite chr_err by (destruct o; cbn; discriminate). reflexivity.
Qed.
Lemma enclosed_comma {A} (q : parser A) w t w' r lv e x : blank w -> W lv e t -> gap true w' -> q (t ++ w' ++ "," :: r) = Ok x (w' ++ "," :: r) ->
  enclosed q ("(" :: w ++ t ++ w' ++ "," :: r) = Err.
Proof.
  intros Hw Ht Hg E. rewrite (enclosed_open q w t _ lv e Hw Ht), E. cbn [bind]. rewrite wsoc_gap by (auto; apply no_space_comma). cbn [bind]. rewrite chr_err by (cbn; discriminate). reflexivity.
Qed.
Lemma enclosed_fail {A} (q : parser A) w t r lv e : blank w -> W lv e t -> q (t ++ r) = Err -> enclosed q ("(" :: w ++ t ++ r) = Err.
Proof. intros Hw Ht E. rewrite (enclosed_open q w t _ lv e Hw Ht), E. reflexivity. Qed.
Lemma close_follows w r : gap true w -> follows (w ++ ")" :: r).
Proof. intros H. apply follows_gap; auto; [apply close_separated|apply close_ends]. Qed.
Lemma comma_follows w r : gap true w -> follows (w ++ "," :: r).
Proof. intros H. apply follows_gap; auto; [apply comma_separated|apply comma_ends]. Qed.

Section Step.
Variable k : nat.
Hypotheses (HA : okA k) (HF : okF k) (HS : okS k) (HE : okE k) (HD : okD k).

Lemma paren_not_tuple e u w w' r m : W Expression e u -> length u <= k -> length u <= m -> blank w -> gap true w' ->
  non_arithmetic ops (at_depth ops (S m)) ("(" :: w ++ u ++ w' ++ ")" :: r) = Err.
Proof.
  intros Hu Lk Lm Hw Hg. unfold non_arithmetic, alt, parse_complex, alt. rewrite operation_err_head by reflexivity. rewrite atom_err_head by (cbn; intuition discriminate).
  assert (K : first_trailing (p_expr (at_depth ops (S m))) (u ++ w' ++ ")" :: r) = Err).
  { unfold first_trailing. cbn [at_depth p_expr].
    destruct (HE e u Hu Lk m (w' ++ ")" :: r) Lm (close_follows w' r Hg)) as (a & -> & _). cbn [bind]. rewrite wsoc_gap by (auto; apply no_space_close). cbn [bind]. rewrite chr_err by (cbn; discriminate). reflexivity. }
  unfold parse_tuple, pmap. rewrite (enclosed_fail _ w u _ Expression e Hw Hu K). cbn [bind]. apply basic_err_open.
Qed.
Lemma factor_cases e t : W Factor e t -> W Atomic e t \/ exists u w w', t = "(" :: w ++ u ++ w' ++ [")"] /\ W Expression e u /\ blank w /\ gap true w'.
Proof.
  intros H. remember Factor as lv eqn:El. destruct H; try discriminate; auto; right; exists t, w, w'; repeat split; auto; try (apply H0); try apply H1; try apply H2.
  - now apply w_expression_atomic.
  - now apply w_expression.
Qed.
Lemma sum_first e t m s : okA k -> W Sum e t -> is_bin e -> length t <= k -> length t <= m ->
  non_arithmetic ops (at_depth ops m) (t ++ s) = Err \/
  exists a w o x, non_arithmetic ops (at_depth ops m) (t ++ s) = Ok a (w ++ op_text o :: x) /\ gap true w /\ no_space (op_text o :: x).
Proof.
  intros _ Ht Hb Lk Lm. destruct (leftmost ops Hops e t Ht s) as (e0 & t0 & v & H0 & -> & Hv). rewrite app_length in *. rewrite <- app_assoc. destruct (factor_cases e0 t0 H0) as [Ha|(u & w & w' & -> & Hu & Hw & Hg)].
  - right. destruct Hv as [(-> & ->)|(w & o & x & E & Hg & Hn)]; [exfalso; eapply atomic_not_bin; eauto|]. rewrite E.
    destruct (HA e0 t0 Ha ltac:(lia) m (w ++ op_text o :: x) ltac:(lia)) as (a & Ea & _); [apply gap_separated; auto; apply op_separated|]. exists a, w, o, x. auto.
  - left. cbn [length] in *. rewrite !app_length in *. cbn [length] in *. destruct m as [|m]; [lia|]. flat. apply (paren_not_tuple e0); auto; lia.
Qed.
Lemma okA_step : okA (S k).
Proof.
  intros e t Ht Lk m r Lm Hr. remember Atomic as lv eqn:El. destruct Ht as [l t Hl|n t ts u w Hn Et Hw Hk|l t ts u w w' Hl Hn Hw Hg Hu|e t w w1 w2 ts u Hw He H1 H2 Hk| | | | | | | | | | | ]; try discriminate.
  - exists (ELeaf l). split; [now apply leaf_ok|]. split; auto.
  - rewrite app_length in *. cbn [length] in *. rewrite !app_length in *. cbn [length] in *. destruct m as [|m]; [lia|].
    destruct (sequence_ok k m HE ts u r Hk ltac:(lia) ltac:(lia)) as (xs & s & Es & Ew & Em). exists (EOp n xs). split; [|split; [cbn; now rewrite Em|auto]].
    unfold non_arithmetic, parse_complex, alt. unfold parse_operation. flat. rewrite (operation_tag_ok ops Hops n t _ Hn Et). cbn [bind]. unfold enclosed. rewrite chr_ok. cbn [bind].
    rewrite (wsoc_ok w (u ++ ")" :: r) Hw (known_no_space ts u r Hk)). cbn [bind at_depth p_expr]. rewrite Es. cbn [bind]. rewrite Ew. cbn [bind]. now rewrite chr_ok.
  - rewrite app_length in *. cbn [length] in *. rewrite !app_length in *. cbn [length] in *. destruct m as [|m]; [lia|].
    destruct (sep_list_ok k m HE (w' ++ ")" :: r) (close_follows w' r Hg)) with (ts := ts) (u := u) as (xs & Es & Em); auto; try lia; [left; apply comma_close; apply Hg|]. exists (EAtom l xs). split; [|split; [cbn; now rewrite Em|auto]].
    unfold non_arithmetic, parse_complex, alt. flat. rewrite (call_operation_err ops Hops _ l t _ Hl Hn). unfold parse_atom. rewrite (structure_ok' l t) by (auto; cbn; discriminate). cbn [bind]. unfold enclosed. rewrite chr_ok. cbn [bind].
    rewrite (wsoc_ok w (u ++ w' ++ ")" :: r) Hw) by (apply head_no_space; eapply list_head; eauto). cbn [bind at_depth p_expr]. rewrite Es. cbn [bind]. rewrite wsoc_gap by (auto; apply no_space_close). cbn [bind]. now rewrite chr_ok.
  - cbn [length] in *. rewrite !app_length in *. cbn [length] in *. rewrite !app_length in *. cbn [length] in *. destruct m as [|m]; [lia|].
    destruct (HE e t He ltac:(lia) m (w1 ++ "," :: w2 ++ u ++ ")" :: r) ltac:(lia) (comma_follows _ _ H1)) as (a & Ea & Ee).
    destruct (sequence_ok k m HE ts u r Hk ltac:(lia) ltac:(lia)) as (xs & s & Es & Ew & Em). exists (ETuple (a :: xs)). split; [|split; [cbn; now rewrite Ee, Em|auto]].
    unfold non_arithmetic, parse_complex, alt. flat. rewrite operation_err_head by reflexivity. rewrite atom_err_head by (cbn; intuition discriminate). unfold parse_tuple, pmap.
    rewrite (enclosed_open _ w t _ Expression e Hw He). unfold first_trailing. cbn [at_depth p_expr]. rewrite Ea. cbn [bind]. rewrite wsoc_gap by (auto; apply no_space_comma). cbn [bind]. rewrite chr_ok. cbn [bind].
    rewrite (wsoc_ok w2 _ H2 (known_no_space ts u r Hk)). cbn [bind]. rewrite Es. cbn [bind]. rewrite Ew. cbn [bind]. rewrite chr_ok. reflexivity.
Qed.
(** an atomic text in front of a parenthesis: only tuples start with one, and they are no parenthesized expressions *)
Lemma atomic_not_paren e t m r : W Atomic e t -> length t <= S k -> length t <= m -> parenthesized_non_arithmetic (at_depth ops m) (t ++ r) = Err.
Proof.
  intros Ht Lk Lm. unfold parenthesized_non_arithmetic, pmap. remember Atomic as lv eqn:El. destruct Ht as [l t Hl|n t ts u w Hn Et Hw Hk|l t ts u w w' Hl Hn Hw Hg Hu|e t w w1 w2 ts u Hw He H1 H2 Hk| | | | | | | | | | | ]; try discriminate.
  - rewrite enclosed_err; auto. apply leaf_head in Hl. destruct t as [|c t]; [destruct Hl|]. cbn in *. intros ->. destruct Hl as [[H _]|H]; [discriminate|intuition discriminate].
  - rewrite enclosed_err; auto. destruct (ops_chars ops Hops n t Hn Et) as (H1 & H2 & _). destruct t as [|c t]; [congruence|]. cbn. intros ->. specialize (H2 "(" (or_introl eq_refl)). discriminate.
  - rewrite enclosed_err; auto. destruct Hl as [n (c & s & -> & Hc & _)|p n [-> | (c & s & -> & Hc & _)] _|s _ _]; cbn; try discriminate; intros ->; discriminate.
  - cbn [length] in *. rewrite !app_length in *. cbn [length] in *. rewrite !app_length in *. cbn [length] in *. destruct m as [|m]; [lia|]. flat. cbn [at_depth p_basic].
    assert (K : enclosed (non_arithmetic ops (at_depth ops m)) ("(" :: w ++ t ++ w1 ++ "," :: w2 ++ u ++ ")" :: r) = Err); [|now rewrite K].
    remember Expression as lv2 eqn:E2. pose proof He as He'. destruct He'; try discriminate.
    + destruct (sum_first e t m (w1 ++ "," :: w2 ++ u ++ ")" :: r) HA He' H ltac:(lia) ltac:(lia)) as [E|(a & v & o & x & E & A & B)]; [eapply enclosed_fail; eauto|eapply enclosed_op; eauto].
    + destruct (HA e t He' ltac:(lia) m (w1 ++ "," :: w2 ++ u ++ ")" :: r) ltac:(lia)) as (a & E & _); [apply gap_separated; auto; apply comma_separated|]. eapply enclosed_comma; eauto.
    + cbn [length] in *. rewrite !app_length in *. cbn [length] in *. destruct m as [|m]; [lia|]. rewrite (enclosed_open _ w ("(" :: w0 ++ t ++ w' ++ [")"]) _ Expression e Hw He). flat. rewrite (paren_not_tuple e); auto; lia.
Qed.
Lemma okF_step : okF (S k).
Proof.
  intros e t Ht Lk m r Lm Hr. remember Factor as lv eqn:El. destruct Ht; try discriminate.
  - destruct (okA_step e t Ht Lk m r Lm Hr) as (a & Ea & Et & Hn). exists a. unfold factor, alt. rewrite (atomic_not_paren e t m r Ht Lk Lm), Ea. split; auto. split; auto. apply atomic_not_bin in Ht. tauto.
  - cbn [length] in *. rewrite !app_length in *. cbn [length] in *. destruct m as [|m]; [lia|]. flat.
    destruct (HA e t Ht ltac:(lia) m (w' ++ ")" :: r) ltac:(lia)) as (a & Ea & Et & Hn); [apply gap_separated; auto; apply close_separated|]. exists (EParen a).
    unfold factor, alt, parenthesized_non_arithmetic, pmap. cbn [at_depth p_basic]. rewrite (enclosed_ok _ w t w' r Atomic e a); auto. cbn [bind]. split; auto. split; auto. apply atomic_not_bin in Ht. cbn. tauto.
  - cbn [length] in *. rewrite !app_length in *. cbn [length] in *. destruct m as [|m]; [lia|]. flat. unfold factor, alt.
    assert (E1 : parenthesized_non_arithmetic (at_depth ops (S m)) ("(" :: w ++ t ++ w' ++ ")" :: r) = Err).
    { unfold parenthesized_non_arithmetic, pmap. cbn [at_depth p_basic]. assert (K : enclosed (non_arithmetic ops (at_depth ops m)) ("(" :: w ++ t ++ w' ++ ")" :: r) = Err); [|now rewrite K].
      destruct (sum_first e t m (w' ++ ")" :: r) HA Ht H ltac:(lia) ltac:(lia)) as [E|(a & v & o & x & E & A & B)]; [eapply enclosed_fail; eauto|eapply enclosed_op; eauto]. }
    rewrite E1. rewrite (paren_not_tuple e); auto; try lia; [|now apply w_expression]. unfold parenthesized_expression. cbn [at_depth p_arith].
    destruct (HS e t Ht ltac:(lia) m (w' ++ ")" :: r) ltac:(lia) (close_follows w' r H1)) as (a & Ea & Et & Hb).
    assert (Ia : isA a) by now apply Hb. exists a. split; [|split; auto; tauto]. apply (enclosed_ok _ w t w' r Sum e a); auto. unfold arithmetic. rewrite Ea. destruct a; try destruct Ia. reflexivity.
Qed.

Lemma okS_step : okS (S k).
Proof. apply okS_of, okP_of, okF_step. Qed.
Lemma okD_step : okD (S k).
Proof.
  intros e t Ht Lk m r Lm Hr. remember Expression as lv eqn:El. destruct Ht; try discriminate; auto.
  - right. destruct (okS_step e t) with (m := m) (r := r) as (a & Ea & Et & Hb); auto; [now apply w_sum, w_product, w_factor|].
    unfold arithmetic. rewrite Ea. apply atomic_not_bin in Ht. destruct a; auto. exfalso. apply Ht, Hb. exact I.
  - cbn [length] in *. rewrite !app_length in *. cbn [length] in *. destruct m as [|m]; [lia|].
    pose proof Ht as Ht'. inversion Ht' as [| | | | | | | | | | | |e' t' Hs Hb|e' t' Ha|e' u v v' Hu Hv Hv']; subst.
    + left. split; auto. now apply w_sum, w_product, w_parens_bin.
    + right. destruct (okS_step e ("(" :: w ++ t ++ w' ++ [")"])) with (m := S m) (r := r) as (a & Ea & Et & Hb'); auto.
      { now apply w_sum, w_product, w_parens. }
      { cbn [length]. rewrite !app_length. cbn [length]. lia. }
      { cbn [length]. rewrite !app_length. cbn [length]. lia. }
      unfold arithmetic. rewrite Ea. apply atomic_not_bin in Ha. destruct a; auto. exfalso. apply Ha, Hb'. exact I.
    + destruct (HD e _ Ht ltac:(lia) m (w' ++ ")" :: r) ltac:(lia) (close_follows w' r H0)) as [(Hs & Hb)|E].
      { left. split; auto. now apply w_sum, w_product, w_parens_bin. }
      right.
      assert (E1 : parenthesized_non_arithmetic (at_depth ops (S m)) ("(" :: w ++ ("(" :: v ++ u ++ v' ++ [")"]) ++ w' ++ ")" :: r) = Err).
      { unfold parenthesized_non_arithmetic, pmap. rewrite (enclosed_open _ w ("(" :: v ++ u ++ v' ++ [")"]) _ Expression e H Ht). cbn [at_depth p_basic].
        cbn [length] in *. rewrite !app_length in *. cbn [length] in *. destruct m as [|m]; [lia|]. flat. rewrite (paren_not_tuple e); auto; lia. }
      assert (E2 : non_arithmetic ops (at_depth ops (S m)) ("(" :: w ++ ("(" :: v ++ u ++ v' ++ [")"]) ++ w' ++ ")" :: r) = Err) by (apply (paren_not_tuple e); auto; lia).
      assert (E3 : enclosed (p_arith (at_depth ops (S m))) ("(" :: w ++ ("(" :: v ++ u ++ v' ++ [")"]) ++ w' ++ ")" :: r) = Err) by (apply (enclosed_fail _ w _ _ Expression e); auto).
      unfold arithmetic, sum, product, factor, alt, parenthesized_expression. revert E1 E2 E3. flat. intros -> -> ->. reflexivity.
Qed.
Lemma okE_step : okE (S k).
Proof.
  intros e t Ht Lk m r Lm Hr.
  assert (B : is_bin e -> W Sum e t -> exists a, expression ops (at_depth ops m) (t ++ r) = Ok a r /\ term_of a = e).
  { intros Hb Hs. destruct (okS_step e t Hs Lk m r Lm Hr) as (a & Ea & Et & Hi). exists a. split; auto. unfold expression, alt, arithmetic. rewrite Ea. assert (Ia : isA a) by now apply Hi. destruct a; try destruct Ia. reflexivity. }
  destruct (okD_step e t Ht Lk m r Lm Hr) as [(Hs & Hb)|E]; [now apply B|]. remember Expression as lv eqn:El. destruct Ht; try discriminate; [now apply B| |].
  - destruct (okA_step e t Ht Lk m r Lm (follows_separated r Hr)) as (a & Ea & Et & _). exists a. split; auto. unfold expression, alt at 1. rewrite E. unfold alt at 1.
    assert (K : parenthesized (at_depth ops m) (t ++ r) = Err); [|rewrite K; exact Ea]. clear Ea E B Et a. unfold parenthesized, pmap.
    remember Atomic as lv2 eqn:El2. destruct Ht as [l t Hl|n t ts u w Hn Et Hw Hk|l t ts u w w' Hl Hn Hw Hg Hu|e t w w1 w2 ts u Hw He H1 H2 Hk| | | | | | | | | | | ]; try discriminate.
    + rewrite enclosed_err; auto. apply leaf_head in Hl. destruct t as [|c t]; [destruct Hl|]. cbn in *. intros ->. destruct Hl as [[H _]|H]; [discriminate|intuition discriminate].
    + rewrite enclosed_err; auto. destruct (ops_chars ops Hops n t Hn Et) as (H1 & H2 & _). destruct t as [|c t]; [congruence|]. cbn. intros ->. specialize (H2 "(" (or_introl eq_refl)). discriminate.
    + rewrite enclosed_err; auto. destruct Hl as [n (c & s & -> & Hc & _)|p n [-> | (c & s & -> & Hc & _)] _|s _ _]; cbn; try discriminate; intros ->; discriminate.
    + cbn [length] in *. rewrite !app_length in *. cbn [length] in *. rewrite !app_length in *. cbn [length] in *. destruct m as [|m]; [lia|]. flat. cbn [at_depth p_expr].
      destruct (HE e t He ltac:(lia) m (w1 ++ "," :: w2 ++ u ++ ")" :: r) ltac:(lia) (comma_follows _ _ H1)) as (a & Ea & _). rewrite (enclosed_comma _ w t w1 _ Expression e a); auto.
  - cbn [length] in *. rewrite !app_length in *. cbn [length] in *. destruct m as [|m]; [lia|].
    destruct (HE e t Ht ltac:(lia) m (w' ++ ")" :: r) ltac:(lia) (close_follows _ _ H0)) as (a & Ea & Et). exists (EParen a). split; auto. unfold expression, alt at 1. rewrite E. unfold alt at 1. flat.
    unfold parenthesized, pmap. cbn [at_depth p_expr]. rewrite (enclosed_ok _ w t w' r Expression e a); auto.
Qed.
End Step.

Lemma all_ok k : okA k /\ okF k /\ okS k /\ okE k /\ okD k.
Proof.
  induction k as [|k (HA & HF & HS & HE & HD)].
  - assert (H : forall lv e t, W lv e t -> length t <= 0 -> False). { intros lv e t Ht Hl. apply (writes_head ops Hops) in Ht. destruct t; [destruct Ht|cbn in Hl; lia]. }
    unfold okA, okF, okS, okE, okD. repeat split; intros; exfalso; eapply H; eauto.
  - split; [now apply okA_step|]. split; [now apply okF_step|]. split; [now apply okS_step|]. split; [now apply okE_step|now apply okD_step].
Qed.
Theorem parse_expression_ok e t r : W Expression e t -> follows r -> exists a, parse_expression ops (t ++ r) = Ok a r /\ term_of a = e.
Proof.
  intros Ht Hr. destruct (all_ok (length t)) as (_ & _ & _ & HE & _). unfold parse_expression. apply (HE e t Ht (le_n _)); auto. rewrite app_length. lia.
Qed.
End Parser.
