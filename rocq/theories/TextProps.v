(* C41: the functions on strings. *)
From Coq Require Import String List ZArith Bool Lia.
From Verif Require Import LexModel LexProofs6 TextModel TextSpec TextProofs TextProofs2.
Import ListNotations.
Open Scope string_scope.
Open Scope Z_scope.
Open Scope list_scope.
Notation length := List.length.
Notation concat := List.concat.

Section Functions.
Context {F : float_ops}.
Implicit Types v w : dval F.

Lemma text_normal : forall v a, normal v -> as_tagged v = Value a -> is_text v (text a) (tag a).
Proof.
  intros v a N H. destruct v; cbn in H; try discriminate; injection H as <-; cbn; [reflexivity|]. split; [reflexivity|]. eapply N. reflexivity.
Qed.
Lemma pair_cases : forall v w, normal v -> normal w ->
  compatible_texts v w /\ (exists p, as_pair v w = Value p) \/ ~ compatible_texts v w /\ as_pair v w = Undefined.
Proof.
  intros v w Nv Nw. destruct (as_pair v w) as [p| |] eqn:E.
  - left. destruct (pair_inv v w p E (ex_intro _ _ eq_refl)) as (H1 & H2 & H3). split; [|eauto]. exists (text (fst p)), (tag (fst p)), (text (snd p)), (tag (snd p)).
    split; [apply text_normal; assumption|]. split; [apply text_normal; assumption|exact H1].
  - right. split; [|reflexivity]. intros (s & t & s' & u & H1 & H2 & H3). rewrite (pair_compatible _ _ _ _ _ _ H1 H2 H3) in E. discriminate.
  - destruct (pair_no_panic v w E).
Qed.

(* The functions of two strings have a result if both arguments are strings, and the second has no language tag or
   the tag of the first.  Otherwise they are undefined.  They never panic. *)
Theorem C41_defined : forall graphemes distance v w, normal v -> normal w ->
  forall f, In f [string_compare; string_contains graphemes; string_starts graphemes; string_ends graphemes; string_before graphemes; string_after graphemes; string_levenshtein distance] ->
  compatible_texts v w /\ (exists r, f v w = Value r) \/ ~ compatible_texts v w /\ f v w = Undefined.
Proof.
  intros graphemes distance v w Nv Nw f Hf. destruct (pair_cases v w Nv Nw) as [[H (p & E)]|[H E]]; [left|right]; (split; [exact H|]);
    cbn in Hf; repeat (destruct Hf as [<-|Hf]; [unfold string_compare, string_contains, string_starts, string_ends, string_before, string_after, string_levenshtein; rewrite E; cbn [fmap fbind]; eauto|]); destruct Hf.
Qed.

(* COMPARE: the order of the code points. *)
Theorem C41_compare : forall v w s t s' u, is_text v s t -> is_text w s' u -> compatible t u ->
  exists z, string_compare v w = Value (VLong z) /\ (z = 0 <-> s = s') /\ (z = -1 <-> exists p, (exists r, s = p /\ s' = p ++ r /\ r <> []) \/ exists c d r r', s = p ++ c :: r /\ s' = p ++ d :: r' /\ c < d) /\ (z = -1 \/ z = 0 \/ z = 1).
Proof.
  intros v w s t s' u Hv Hw Hc. unfold string_compare. rewrite (pair_compatible _ _ _ _ _ _ Hv Hw Hc). cbn [fmap fbind fst snd text].
  eexists. split; [reflexivity|]. split; [|split].
  - rewrite <- (str_cmp_eq s s'). destruct (str_cmp s s'); split; intros; congruence || lia.
  - transitivity (str_cmp s s' = Lt); [destruct (str_cmp s s'); split; intros; congruence || lia|]. clear.
    revert s'. induction s as [|c s IH]; intros [|d s']; cbn [str_cmp].
    + split; [discriminate|]. intros (p & [(r & <- & K & N)|(c & d & r & r' & K & _)]); [cbn in K; subst; congruence|destruct p; discriminate].
    + split; [|reflexivity]. intros _. exists []. left. exists (d :: s'). split; [reflexivity|]. split; [reflexivity|discriminate].
    + split; [discriminate|]. intros (p & [(r & <- & K & N)|(c0 & d & r & r' & _ & K & _)]); [discriminate|destruct p; discriminate].
    + destruct (Z.compare_spec c d) as [->|L|L].
      * rewrite IH. split; intros (p & H).
        -- exists (d :: p). destruct H as [(r & -> & -> & N)|(c0 & d0 & r & r' & -> & -> & L)]; [left; exists r; auto|right; exists c0, d0, r, r'; auto].
        -- destruct H as [(r & K1 & K2 & N)|(c0 & d0 & r & r' & K1 & K2 & L)].
           ++ subst p. cbn in K2. injection K2 as ->. exists s. left. exists r. auto.
           ++ destruct p as [|x p]; cbn in K1, K2; [injection K1 as -> ->; injection K2 as -> ->; lia|]. injection K1 as -> ->. injection K2 as ->. exists p. right. exists c0, d0, r, r'. auto.
      * split; [|reflexivity]. intros _. exists []. right. exists c, d, s, s'. auto.
      * split; [discriminate|]. intros (p & [(r & K1 & K2 & N)|(c0 & d0 & r & r' & K1 & K2 & L')]).
        -- subst p. cbn in K2. injection K2 as <- _. lia.
        -- destruct p as [|x p]; cbn in K1, K2; [injection K1 as -> ->; injection K2 as -> ->; lia|]. injection K1 as -> ->. injection K2 as -> ->. lia.
  - destruct (str_cmp s s'); auto.
Qed.

(* CONCAT of strings: the texts one after the other; the result has a language tag if there is at least one argument
   and all of them have this tag. *)
Theorem C41_concat : forall vs texts, Forall2 (fun v x => is_text v (fst x) (snd x)) vs texts ->
  exists t, returns (string_concatenation vs) (concat (map fst texts)) t /\ forall l, t = Some l <-> texts <> [] /\ forall x, In x texts -> snd x = Some l.
Proof.
  intros vs texts H.
  assert (E : as_all vs = Value (map (fun x => mk_tagged (fst x) (snd x)) texts)).
  { induction H as [|v x vs texts Hv _ IH]; [reflexivity|]. cbn. rewrite (text_as _ _ _ Hv). cbn. rewrite IH. reflexivity. }
  unfold string_concatenation. rewrite E. cbn [fmap fbind]. rewrite !map_map. cbn [text tag]. rewrite (map_ext (fun x : str * option str => fst x) fst) by reflexivity.
  rewrite (map_ext (fun x : str * option str => snd x) snd) by reflexivity.
  set (r := match map snd texts with Some first :: rest => if forallb _ rest then Some first else None | _ => None end).
  assert (Hr : forall l, r = Some l <-> texts <> [] /\ forall x, In x texts -> snd x = Some l).
  { intros l. unfold r. destruct texts as [|[s [t|]] texts]; cbn [map snd].
    - split; [discriminate|]. intros [K _]. congruence.
    - assert (Ho : forall o, opt_eqb o (Some t) = true <-> o = Some t).
      { intros [o|]; cbn; [rewrite str_eqb_true; split; congruence|split; discriminate]. }
      destruct (forallb _ (map snd texts)) eqn:Ef.
      + rewrite forallb_forall in Ef. split.
        * intros K. injection K as <-. split; [discriminate|]. intros x [<-|Hx]; [reflexivity|]. apply Ho, Ef, in_map, Hx.
        * intros [_ K]. specialize (K _ (or_introl eq_refl)). exact K.
      + split; [discriminate|]. intros [_ K]. pose proof (K _ (or_introl eq_refl)) as K0. cbn in K0. injection K0 as ->. exfalso.
        rewrite <- not_true_iff_false in Ef. apply Ef. apply forallb_forall. intros o Hi. apply in_map_iff in Hi. destruct Hi as (x & <- & Hx). apply Ho, K. right. exact Hx.
    - split; [discriminate|]. intros [_ K]. specialize (K _ (or_introl eq_refl)). discriminate. }
  exists r. split; [|exact Hr]. eexists. split; [reflexivity|]. destruct r as [l|] eqn:Er; [|apply text_plain].
  destruct (proj1 (Hr l) eq_refl) as [N K]. destruct texts as [|x texts]; [congruence|]. inversion H as [|v x' vs' texts' Hv HF]; subst. rewrite (K x (or_introl eq_refl)) in Hv. eapply text_like, Hv.
Qed.

Section Segmented.
Variable graphemes : str -> list str.
Hypothesis seg : segmentation graphemes.

(* CONTAINS, STRSTARTS, STRENDS: the characters of the second string occur in the first one: anywhere, at the
   beginning, at the end. *)
Theorem C41_contains : forall v w s t s' u, is_text v s t -> is_text w s' u -> compatible t u ->
  exists b, string_contains graphemes v w = Value (VBool b) /\ (b = true <-> exists x y, graphemes s = x ++ graphemes s' ++ y).
Proof.
  intros v w s t s' u Hv Hw Hc. unfold string_contains. rewrite (pair_compatible _ _ _ _ _ _ Hv Hw Hc). cbn [fmap fbind fst snd text].
  eexists. split; [reflexivity|]. pose proof (find_spec graphemes s s') as K. destruct (unicode_find graphemes s s') as [i|].
  - destruct K as [(a & b & E & _) _]. split; eauto.
  - split; [discriminate|]. intros (x & y & E). destruct (K _ _ E).
Qed.
Theorem C41_starts : forall v w s t s' u, is_text v s t -> is_text w s' u -> compatible t u ->
  exists b, string_starts graphemes v w = Value (VBool b) /\ (b = true <-> exists y, graphemes s = graphemes s' ++ y).
Proof.
  intros v w s t s' u Hv Hw Hc. unfold string_starts. rewrite (pair_compatible _ _ _ _ _ _ Hv Hw Hc). cbn [fmap fbind fst snd text].
  eexists. split; [reflexivity|]. apply starts_spec.
Qed.
Theorem C41_ends : forall v w s t s' u, is_text v s t -> is_text w s' u -> compatible t u ->
  exists b, string_ends graphemes v w = Value (VBool b) /\ (b = true <-> exists x, graphemes s = x ++ graphemes s').
Proof.
  intros v w s t s' u Hv Hw Hc. unfold string_ends. rewrite (pair_compatible _ _ _ _ _ _ Hv Hw Hc). cbn [fmap fbind fst snd text].
  eexists. split; [reflexivity|]. apply ends_spec.
Qed.
(* In strings of single code points, these are the usual relations between strings. *)
Lemma single_app : forall s x y, map (fun c : Z => [c]) s = x ++ y -> exists a b, s = a ++ b /\ x = map (fun c => [c]) a /\ y = map (fun c => [c]) b.
Proof. intros s x y E. apply map_eq_app in E. destruct E as (a & b & -> & <- & <-). eauto. Qed.
Lemma single_inj : forall a b, map (fun c : Z => [c]) a = map (fun c => [c]) b -> a = b.
Proof. induction a as [|c a IH]; intros [|d b] H; try discriminate; [reflexivity|]. injection H as -> H. f_equal. apply IH, H. Qed.
Theorem C41_simple : forall v w s t s' u, is_text v s t -> is_text w s' u -> compatible t u -> simple graphemes s -> simple graphemes s' ->
  exists b1 b2 b3, string_contains graphemes v w = Value (VBool b1) /\ string_starts graphemes v w = Value (VBool b2) /\ string_ends graphemes v w = Value (VBool b3) /\
    (b1 = true <-> exists x y, s = x ++ s' ++ y) /\ (b2 = true <-> exists y, s = s' ++ y) /\ (b3 = true <-> exists x, s = x ++ s').
Proof.
  intros v w s t s' u Hv Hw Hc S1 S2.
  destruct (C41_contains v w s t s' u Hv Hw Hc) as (b1 & E1 & H1). destruct (C41_starts v w s t s' u Hv Hw Hc) as (b2 & E2 & H2). destruct (C41_ends v w s t s' u Hv Hw Hc) as (b3 & E3 & H3).
  exists b1, b2, b3. do 3 (split; [assumption|]). rewrite H1, H2, H3, S1, S2. split; [|split]; split.
  - intros (x & y & E). apply single_app in E. destruct E as (a & b & -> & -> & E). symmetry in E. apply single_app in E. destruct E as (c & d & -> & Ec & _). apply single_inj in Ec. subst. eauto.
  - intros (x & y & ->). rewrite !map_app. eauto.
  - intros (y & E). apply single_app in E. destruct E as (c & d & -> & Ec & _). apply single_inj in Ec. subst. eauto.
  - intros (y & ->). rewrite map_app. eauto.
  - intros (x & E). apply single_app in E. destruct E as (c & d & -> & _ & Ec). apply single_inj in Ec. subst. eauto.
  - intros (x & ->). rewrite map_app. eauto.
Qed.

(* STRBEFORE and STRAFTER: the parts of the first string before and after the first occurrence of the second, with the
   tag of the first; without an occurrence, the empty string without a tag. *)
Theorem C41_parts : forall v w s t s' u, is_text v s t -> is_text w s' u -> compatible t u ->
  (exists a b, s = a ++ s' ++ b /\ returns (string_before graphemes v w) a t /\ returns (string_after graphemes v w) b t /\
     exists x y, graphemes s = x ++ graphemes s' ++ y /\ a = concat x /\ b = concat y /\ forall x' y', graphemes s = x' ++ graphemes s' ++ y' -> (length x <= length x')%nat) \/
  (forall x y, graphemes s <> x ++ graphemes s' ++ y) /\ string_before graphemes v w = Value (VString []) /\ string_after graphemes v w = Value (VString []).
Proof.
  intros v w s t s' u Hv Hw Hc. unfold string_before, string_after. rewrite (pair_compatible _ _ _ _ _ _ Hv Hw Hc). cbn [fmap fbind fst snd text tag].
  pose proof (find_spec graphemes s s') as K. destruct (unicode_find graphemes s s') as [i|]; [left|right; split; [exact K|split; reflexivity]].
  destruct K as [(x & y & E & <-) M]. exists (concat x), (concat y).
  split; [rewrite <- (proj1 seg s) at 1; rewrite E, !concat_app, (proj1 seg s'); reflexivity|].
  assert (E1 : firstn (length x) (graphemes s) = x) by (rewrite E, firstn_app, firstn_all2, Nat.sub_diag by lia; cbn; apply app_nil_r).
  assert (E2 : skipn (length x + length (graphemes s')) (graphemes s) = y).
  { rewrite E, app_assoc, skipn_app, skipn_all2 by (rewrite app_length; lia). rewrite app_length, Nat.sub_diag. reflexivity. }
  rewrite E1, E2. split; [eexists; split; [reflexivity|eapply text_like, Hv]|]. split; [eexists; split; [reflexivity|eapply text_like, Hv]|].
  exists x, y. auto.
Qed.

Lemma int_value : forall w k, is_int w k -> to_i64 w = Value k.
Proof.
  intros w k [B [-> | ->]]; unfold to_i64, fits_i64; cbn [raw_int]; [reflexivity|]. destruct (Z.leb_spec k i64_hi); [reflexivity|lia].
Qed.

(* SUBSTR(s, k): the characters at the positions from k on (counted from 1), with the tag of s. *)
Theorem C41_substring : forall v w s t k, is_text v s t -> is_int w k ->
  returns (string_substring graphemes v w) (concat (at_positions (fun p => k <=? p) 1 (graphemes s))) t.
Proof.
  intros v w s t k Hv Hw. unfold string_substring. rewrite (text_as _ _ _ Hv), (int_value _ _ Hw). cbn [fbind text tag].
  eexists. split; [reflexivity|].
  enough (E : (match get_from (Z.max k 1 - 1) (graphemes s) with Some l => concat l | None => [] end) = concat (at_positions (fun p => k <=? p) 1 (graphemes s))) by (rewrite E; eapply text_like, Hv).
  unfold get_from. destruct (Z.leb_spec (Z.max k 1 - 1) (Z.of_nat (length (graphemes s)))) as [L|L].
  - rewrite <- at_from by lia. f_equal. apply at_ext. intros q Hq. destruct (Z.leb_spec k q), (Z.leb_spec (Z.max k 1) q); reflexivity || lia.
  - rewrite at_none; [reflexivity|]. intros q Hq. apply Z.leb_gt. lia.
Qed.

(* SUBSTR(s, k, n) with n < 1, or with k + n positive and not too large: the characters at the n positions from k on,
   in every build.  Missing: k + n <= 0 and overflows, see below. *)
Theorem C41_substring_length_partial : forall checked v w x s t k n, is_text v s t -> is_int w k -> is_int x n ->
  Z.of_nat (length (graphemes s)) <= i64_hi -> n < 1 \/ 1 <= k + n <= i64_hi ->
  returns (string_substring_length graphemes checked v w x) (concat (at_positions (fun p => (k <=? p) && (p <? k + n)) 1 (graphemes s))) t.
Proof.
  intros checked v w x s t k n Hv Hw Hx Hl Hn. unfold string_substring_length. rewrite (text_as _ _ _ Hv), (int_value _ _ Hw), (int_value _ _ Hx). cbn [fbind text tag].
  set (g := graphemes s) in *.
  enough (E : forall r, concat (at_positions (fun p => (k <=? p) && (p <? k + n)) 1 g) = r -> returns (Value (@of_tagged F (mk_tagged r t))) r t).
  { destruct (Z.ltb_spec n 1) as [L|L]; cbn [fbind].
    - rewrite at_none; [apply E|]; rewrite ?at_none; try reflexivity; intros q Hq; destruct (Z.leb_spec k q), (Z.ltb_spec q (k + n)); reflexivity || lia.
    - destruct Hn as [Hn|Hn]; [lia|]. unfold add_i64, in_bounds. destruct Hw as [Bw _]. rewrite (proj2 (Z.leb_le i64_lo (k + n))), (proj2 (Z.leb_le (k + n) i64_hi)) by (unfold i64_lo in *; lia).
      cbn [andb fbind]. unfold to_usize. rewrite (proj2 (Z.ltb_ge (k + n) 0)), (proj2 (Z.ltb_ge (Z.max k 1) 0)) by lia. cbn [fbind].
      destruct (Z.ltb_spec (Z.of_nat (length g)) (Z.max k 1)) as [L1|L1]; cbn [fbind].
      + rewrite at_none; [apply E|]; rewrite ?at_none; try reflexivity; intros q Hq; destruct (Z.leb_spec k q), (Z.ltb_spec q (k + n)); reflexivity || lia.
      + unfold dec_usize. rewrite (proj2 (Z.ltb_lt 0 (Z.max k 1))), (proj2 (Z.ltb_lt 0 (k + n))) by lia. cbn [fbind].
        unfold get_range. rewrite (proj2 (Z.leb_le (Z.max k 1 - 1) (k + n - 1))) by lia. cbn [andb].
        assert (X : forall e, e = Z.min (k + n - 1) (Z.of_nat (length g)) -> at_positions (fun p => (k <=? p) && (p <? k + n)) 1 g = firstn (Z.to_nat (e - (Z.max k 1 - 1))) (skipn (Z.to_nat (Z.max k 1 - 1)) g)).
        { intros e He. rewrite <- at_range by lia. apply at_ext. intros q Hq. destruct (Z.leb_spec k q), (Z.ltb_spec q (k + n)), (Z.leb_spec (Z.max k 1) q), (Z.leb_spec q e); reflexivity || lia. }
        destruct (Z.leb_spec (k + n - 1) (Z.of_nat (length g))) as [L2|L2]; cbn [fbind].
        * rewrite (X (k + n - 1)) by lia. apply E. rewrite (X (k + n - 1)) by lia. reflexivity.
        * unfold get_from. rewrite (proj2 (Z.leb_le (Z.max k 1 - 1) (Z.of_nat (length g)))) by lia. cbn [fbind].
          rewrite (X (Z.of_nat (length g))) by lia. rewrite (firstn_all2 (n:=Z.to_nat (Z.of_nat (length g) - (Z.max k 1 - 1)))) by (rewrite skipn_length; lia). apply E.
          rewrite (X (Z.of_nat (length g))) by lia. rewrite (firstn_all2 (n:=Z.to_nat (Z.of_nat (length g) - (Z.max k 1 - 1)))) by (rewrite skipn_length; lia). reflexivity. }
  intros r _. eexists. split; [reflexivity|]. eapply text_like, Hv.
Qed.
(* In the missing cases, no position is selected if k + n < 1, and the result should be the empty string.  Instead, if
   k + n = 0 and s is not empty, a build with overflow checks panics and another one returns all of s. *)
Theorem C41_substring_zero_refuted : forall v w x s t k n, is_text v s t -> is_int w k -> is_int x n -> 1 <= n -> k + n = 0 -> s <> [] ->
  Z.of_nat (length (graphemes s)) < i64_hi ->
  at_positions (fun p => (k <=? p) && (p <? k + n)) 1 (graphemes s) = [] /\
  string_substring_length graphemes true v w x = Panic /\ returns (string_substring_length graphemes false v w x) s t.
Proof.
  intros v w x s t k n Hv Hw Hx Hn Hk Hs Hl. split; [apply at_none; intros q Hq; destruct (Z.leb_spec k q), (Z.ltb_spec q (k + n)); reflexivity || lia|].
  assert (L : (1 <= length (graphemes s))%nat). { destruct (graphemes s) as [|g l] eqn:E; [|cbn; lia]. pose proof (proj1 seg s) as K. rewrite E in K. cbn in K. congruence. }
  unfold string_substring_length. rewrite (text_as _ _ _ Hv), (int_value _ _ Hw), (int_value _ _ Hx). cbn [fbind text tag].
  rewrite (proj2 (Z.ltb_ge n 1)) by lia. unfold add_i64. rewrite Hk. change (in_bounds i64_lo i64_hi 0) with true. cbn [fbind]. unfold to_usize.
  replace (Z.max k 1) with 1 by lia. cbn [Z.ltb Z.compare fbind]. rewrite (proj2 (Z.ltb_ge (Z.of_nat (length (graphemes s))) 1)) by lia. unfold dec_usize. cbn [Z.ltb Z.compare fbind].
  split; [reflexivity|]. unfold get_range. rewrite (proj2 (Z.leb_gt u64_hi _)) by (unfold i64_hi, u64_hi in *; lia). rewrite andb_false_r. unfold get_from. rewrite (proj2 (Z.leb_le (1 - 1) _)) by lia.
  cbn [fbind Z.sub Z.add Z.opp Z.pos_sub Z.to_nat skipn]. rewrite (proj1 seg s). eexists. split; [reflexivity|]. eapply text_like, Hv.
Qed.
(* If k + n < 0, the function is undefined. *)
Theorem C41_substring_negative_refuted : forall checked v w x s t k n, is_text v s t -> is_int w k -> is_int x n -> 1 <= n -> k + n < 0 ->
  at_positions (fun p => (k <=? p) && (p <? k + n)) 1 (graphemes s) = [] /\ string_substring_length graphemes checked v w x = Undefined.
Proof.
  intros checked v w x s t k n Hv Hw Hx Hn Hk. split; [apply at_none; intros q Hq; destruct (Z.leb_spec k q), (Z.ltb_spec q (k + n)); reflexivity || lia|].
  unfold string_substring_length. rewrite (text_as _ _ _ Hv), (int_value _ _ Hw), (int_value _ _ Hx). cbn [fbind text tag].
  rewrite (proj2 (Z.ltb_ge n 1)) by lia. unfold add_i64, in_bounds. destruct Hw as [Bw _]. rewrite (proj2 (Z.leb_le i64_lo (k + n))), (proj2 (Z.leb_le (k + n) i64_hi)) by (unfold i64_hi in *; lia).
  cbn [andb fbind]. unfold to_usize. rewrite (proj2 (Z.ltb_lt (k + n) 0)) by lia. reflexivity.
Qed.
(* If k + n is not a 64-bit integer, a build with overflow checks panics and in another one the function is
   undefined. *)
Theorem C41_substring_overflow_refuted : forall v w x s t k n, is_text v s t -> is_int w k -> is_int x n -> 1 <= n -> i64_hi < k + n ->
  string_substring_length graphemes true v w x = Panic /\ string_substring_length graphemes false v w x = Undefined.
Proof.
  intros v w x s t k n Hv Hw Hx Hn Hk.
  unfold string_substring_length. rewrite (text_as _ _ _ Hv), (int_value _ _ Hw), (int_value _ _ Hx). cbn [fbind text tag].
  rewrite (proj2 (Z.ltb_ge n 1)) by lia. unfold add_i64, in_bounds. rewrite (proj2 (Z.leb_gt (k + n) i64_hi)) by lia. rewrite andb_false_r. cbn [fbind].
  split; [reflexivity|]. destruct Hw as [Bw _], Hx as [Bx _]. rewrite (proj2 (Z.ltb_ge (k + n) i64_lo)) by (unfold i64_lo, i64_hi in *; lia). cbn [fbind].
  unfold to_usize. rewrite (proj2 (Z.ltb_lt (k + n - 2 ^ 64) 0)) by (unfold i64_lo, i64_hi in *; lia). reflexivity.
Qed.
(* SUBSTR of arguments that are not integers of 64 bits is undefined. *)
Theorem C41_substring_undefined : forall checked v w x, (forall k, w <> VLong k) -> (forall k, w = VULong k -> i64_hi < k) ->
  string_substring graphemes v w = Undefined /\ string_substring_length graphemes checked v w x = Undefined.
Proof.
  intros checked v w x H1 H2. assert (E : to_i64 w = Undefined).
  { unfold to_i64, fits_i64. destruct w; try reflexivity; [rewrite (proj2 (Z.leb_gt _ _) (H2 _ eq_refl)); reflexivity|destruct (H1 _ eq_refl)]. }
  unfold string_substring, string_substring_length. rewrite E. destruct v; cbn; auto.
Qed.
(* The functions of one string are undefined on other values. *)
Theorem C41_other_values : forall v, normal v -> (forall s t, ~ is_text v s t) ->
  forall convert w x checked f, In f [string_length graphemes; string_reverse graphemes; string_map_case convert; (fun v => string_substring graphemes v w); (fun v => string_substring_length graphemes checked v w x); language_tag; uri_encode; uri_decode] -> f v = Undefined.
Proof.
  intros v N H convert w x checked f Hf. assert (E : as_tagged v = Undefined).
  { destruct v; try reflexivity; [destruct (H s None); reflexivity|]. destruct (H s (Some tag)). split; [reflexivity|eapply N; reflexivity]. }
  cbn in Hf. repeat (destruct Hf as [<-|Hf]; [unfold string_length, string_reverse, string_map_case, string_substring, string_substring_length, language_tag, uri_encode, uri_decode; rewrite E; reflexivity|]). destruct Hf.
Qed.

(* STRLEN: the number of characters. *)
Theorem C41_length : forall v s t, is_text v s t -> Z.of_nat (length (graphemes s)) <= i64_hi -> string_length graphemes v = Value (VLong (Z.of_nat (length (graphemes s)))).
Proof. intros v s t Hv Hl. unfold string_length. rewrite (text_as _ _ _ Hv). cbn [fmap fbind text]. rewrite (proj2 (Z.leb_le _ _) Hl). reflexivity. Qed.
(* STRREV: the characters in reverse order.  UCASE and LCASE: the mapped text.  Both keep the tag. *)
Theorem C41_reverse : forall v s t, is_text v s t -> returns (string_reverse graphemes v) (concat (rev (graphemes s))) t.
Proof. intros v s t Hv. unfold string_reverse. rewrite (text_as _ _ _ Hv). cbn [fmap fbind text tag]. eexists. split; [reflexivity|eapply text_like, Hv]. Qed.
Theorem C41_case : forall convert v s t, is_text v s t -> returns (string_map_case convert v) (convert s) t.
Proof. intros convert v s t Hv. unfold string_map_case. rewrite (text_as _ _ _ Hv). cbn [fmap fbind text tag]. eexists. split; [reflexivity|eapply text_like, Hv]. Qed.
End Segmented.
End Functions.

(* LANG: the tag, or the empty string.  STRLANG: the plain string with the tag, in lower case. *)
Theorem C41_language : forall F (v : dval F) s t, is_text v s t -> language_tag v = Value (VString match t with Some l => l | None => [] end).
Proof. intros F v s t Hv. unfold language_tag. rewrite (text_as _ _ _ Hv). reflexivity. Qed.
Theorem C41_strlang : forall F (v w : dval F) s l, v = VString s -> w = VString l ->
  exists r, language_string v w = Value r /\ is_text r s (Some (map ascii_lower l)) /\ language_tag r = Value (VString (map ascii_lower l)).
Proof.
  intros F v w s l -> ->. eexists. split; [reflexivity|]. split; [|reflexivity]. cbn. split; [reflexivity|]. rewrite map_map. apply map_ext. intros c. unfold ascii_lower.
  destruct ((65 <=? c) && (c <=? 90)) eqn:E; [|rewrite E; reflexivity]. apply andb_true_iff in E. rewrite !Z.leb_le in E. destruct (Z.leb_spec (c + 32) 90); [lia|rewrite andb_false_r; reflexivity].
Qed.

(* URIENCODE of a string has only unreserved characters and percent signs, and URIDECODE recovers the string. *)
Theorem C41_uri : forall F (v : dval F) s t, is_text v s t -> Forall scalar s ->
  exists e, uri_encode v = Value (VString e) /\ (forall c, In c e -> unreserved c = true \/ c = 37) /\ uri_decode (F:=F) (VString e) = Value (VString s).
Proof.
  intros F v s t Hv Hs. exists (url_encode s). destruct (url_round s Hs) as [H1 H2]. unfold uri_encode, uri_decode. rewrite (text_as _ _ _ Hv). split; [reflexivity|]. split; [apply Forall_forall, H2|].
  cbn [as_tagged fbind text]. rewrite H1. reflexivity.
Qed.

(* REGEX: whatever calls were made before, the answer is that of the expression just compiled, and "false" if it
   cannot be compiled. *)
Definition regex_answer {R F} (compile : str -> option R) (is_match : R -> str -> bool) (call : dval F * dval F) (r : fres (dval F)) : Prop :=
  forall s t p u, is_text (fst call) s t -> is_text (snd call) p u ->
    (compatible t u -> r = Value (VBool match compile p with Some x => is_match x s | None => false end)) /\
    (~ compatible t u -> r = Undefined).
Lemma answers_right : forall R (compile : str -> option R) is_match F (calls : list (dval F * dval F)) c, right compile c ->
  Forall2 (regex_answer compile is_match) calls (answers compile is_match c calls).
Proof.
  intros R compile is_match F. induction calls as [|[v w] calls IH]; intros c Hc; [constructor|]. cbn [answers]. unfold string_regex.
  destruct (as_pair v w) as [p| |] eqn:E; cbn [fst snd].
  - destruct (try_get_or_insert compile c (text (snd p))) as [c' r] eqn:Er. destruct (cache_right compile c _ c' r Hc Er) as [Hc' ->]. constructor; [|apply IH, Hc'].
    intros s t q u Hv Hw. cbn [fst snd] in *. destruct (pair_inv v w p E (ex_intro _ _ eq_refl)) as (K1 & K2 & K3). rewrite (text_as _ _ _ Hv) in K2. rewrite (text_as _ _ _ Hw) in K3. injection K2 as K2. injection K3 as K3. rewrite <- K2, <- K3 in *. cbn [text tag] in *.
    split; [reflexivity|]. intros N. destruct (N K1).
  - constructor; [|apply IH, Hc]. intros s t q u Hv Hw. split; [|reflexivity]. intros K. cbn [fst snd] in *. rewrite (pair_compatible _ _ _ _ _ _ Hv Hw K) in E. discriminate.
  - destruct (pair_no_panic v w E).
Qed.
Theorem C41_regex : forall R (compile : str -> option R) is_match F (calls : list (dval F * dval F)),
  Forall2 (regex_answer compile is_match) calls (answers compile is_match [] calls).
Proof. intros R compile is_match F calls. apply answers_right. intros p r []. Qed.
(* The cache never has more than 32 entries. *)
Theorem C41_regex_cache : forall R (compile : str -> option R) (patterns : list str) c0 c, c0 = [] -> c = fold_left (fun c p => fst (try_get_or_insert compile c p)) patterns c0 -> (length c <= 32)%nat.
Proof.
  intros R compile patterns c0 c -> ->. assert (K : forall ps (c : @cache R), (length c <= cache_size)%nat -> (length (fold_left (fun c p => fst (try_get_or_insert compile c p)) ps c) <= cache_size)%nat).
  { induction ps as [|p ps IH]; intros c Hc; [exact Hc|]. cbn [fold_left]. apply IH. destruct (try_get_or_insert compile c p) as [c' r] eqn:E. apply (cache_small compile c p c' r Hc E). }
  apply K. cbn. lia.
Qed.

(* The statements about characters do not carry over to code points.  With carriage return and line feed: reversing
   twice, the beginning of a concatenation, and parts of a string. *)
Definition a_b : str := [97; 13; 10; 98].
Theorem C41_reverse_twice_refuted : forall F, exists (v : dval F), string_reverse crlf v <> Panic /\
  fbind (string_reverse crlf v) (string_reverse crlf) <> Value v.
Proof. intros F. exists (VString [10; 13]). split; [discriminate|]. vm_compute. discriminate. Qed.
Theorem C41_starts_concat_refuted : forall F, exists (v w : dval F) c, string_concatenation [v; w] = Value c /\ string_starts crlf c v = Value (VBool false).
Proof. intros F. exists (VString [97; 13]), (VString [10; 98]), (VString a_b). split; reflexivity. Qed.
Theorem C41_contains_refuted : forall F, exists (v w : dval F), v = VString a_b /\ w = VString [10] /\ string_contains crlf v w = Value (VBool false).
Proof. intros F. exists (VString a_b), (VString [10]). auto. Qed.
(* The segmentation used here has the required properties. *)
Theorem C41_crlf : segmentation crlf.
Proof. apply crlf_segmentation. Qed.
(* A regular expression that cannot be compiled gives "false"; the documentation says that there is no result. *)
Theorem C41_regex_invalid_refuted : forall R (compile : str -> option R) is_match F p s, compile p = None ->
  answers compile is_match [] [(VString s, VString p)] = [Value (@VBool F false)].
Proof. intros R compile is_match F p s H. cbn. unfold try_get_or_insert. cbn. rewrite H. reflexivity. Qed.

(* Examples. *)
Definition no_floats : float_ops :=
  Build_float_ops unit (fun _ => None) (fun _ => []) (fun _ _ => true) (fun _ _ => Eq) (fun _ => 0) unit (fun _ => []) (fun _ _ => true) (fun _ _ => Eq) (fun _ => 0).
Notation dv := (dval no_floats).
Example C41_example :
  string_before crlf (VLang (lit "abcbc") (lit "en") : dv) (VString (lit "bc")) = Value (VLang (lit "a") (lit "en")) /\
  string_after crlf (VLang (lit "abcbc") (lit "en") : dv) (VString (lit "bc")) = Value (VLang (lit "bc") (lit "en")) /\
  string_after crlf (VLang (lit "abcbc") (lit "en") : dv) (VLang (lit "bc") (lit "fr")) = Undefined /\
  string_concatenation [VLang (lit "a") (lit "en") : dv; VLang (lit "b") (lit "en")] = Value (VLang (lit "ab") (lit "en")) /\
  string_concatenation [VLang (lit "a") (lit "en") : dv; VString (lit "b")] = Value (VString (lit "ab")) /\
  string_substring_length crlf true (VString (lit "12345") : dv) (VLong 2) (VULong 3) = Value (VString (lit "234")) /\
  string_substring_length crlf true (VString (lit "12345") : dv) (VLong 0) (VLong 3) = Value (VString (lit "12")) /\
  string_substring_length crlf true (VString (lit "12345") : dv) (VLong (-1)) (VLong 1) = Panic /\
  string_substring_length crlf false (VString (lit "12345") : dv) (VLong (-1)) (VLong 1) = Value (VString (lit "12345")) /\
  string_length crlf (VString a_b : dv) = Value (VLong 3) /\
  uri_encode (VString [97; 32; 233; 8364; 128512] : dv) = Value (VString (lit "a%20%C3%A9%E2%82%AC%F0%9F%98%80")) /\
  uri_decode (VString (lit "%ff") : dv) = Undefined.
Proof. repeat split. Qed.
Example C41_defined_example : normal (VLang (lit "a") (lit "en") : dv) /\ compatible_texts (VLang (lit "a") (lit "en") : dv) (VString (lit "b")) /\ ~ compatible_texts (VString (lit "b") : dv) (VLang (lit "a") (lit "en")) /\
  Forall scalar [97; 32; 233; 8364; 128512] /\ simple crlf (lit "abc") /\ is_text (VLang (lit "abcbc") (lit "en") : dv) (lit "abcbc") (Some (lit "en")) /\ is_int (VULong 3 : dv) 3.
Proof.
  split; [intros s l H; injection H as <- <-; reflexivity|]. split; [exists (lit "a"), (Some (lit "en")), (lit "b"), None; repeat split; left; reflexivity|].
  split; [intros (s & t & s' & u & H1 & H2 & H3); destruct t as [t|]; cbn in H1; [destruct H1; discriminate|]; destruct u as [u|]; cbn in H2; [destruct H3; discriminate|discriminate]|].
  split; [repeat constructor; lia|]. split; [reflexivity|]. split; [split; reflexivity|]. split; [unfold i64_lo, i64_hi; lia|auto].
Qed.

Print Assumptions C41_defined. Print Assumptions C41_compare. Print Assumptions C41_concat. Print Assumptions C41_contains. Print Assumptions C41_starts.
Print Assumptions C41_ends. Print Assumptions C41_simple. Print Assumptions C41_parts. Print Assumptions C41_substring. Print Assumptions C41_substring_length_partial.
Print Assumptions C41_substring_zero_refuted. Print Assumptions C41_substring_negative_refuted. Print Assumptions C41_substring_overflow_refuted. Print Assumptions C41_substring_undefined.
Print Assumptions C41_other_values. Print Assumptions C41_length. Print Assumptions C41_reverse. Print Assumptions C41_case. Print Assumptions C41_language. Print Assumptions C41_strlang.
Print Assumptions C41_uri. Print Assumptions C41_regex. Print Assumptions C41_regex_cache. Print Assumptions C41_reverse_twice_refuted. Print Assumptions C41_starts_concat_refuted.
Print Assumptions C41_contains_refuted. Print Assumptions C41_crlf. Print Assumptions C41_regex_invalid_refuted.
