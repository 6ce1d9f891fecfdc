(* Lemmas for CastProps.v *)
From Coq Require Import List ZArith Bool Lia String.
From Verif Require Import LexModel LexSpec LexProofs1 TextModel CastModel CastSpec.
Import ListNotations.
Open Scope Z_scope.
Open Scope list_scope.
Notation length := List.length.

Lemma to_digit_some : forall r c d, 1 <= r <= 36 -> (to_digit r c = Some d <-> digit_of c d /\ d < r).
Proof.
  intros r c d Hr. unfold to_digit.
  set (n := if (48 <=? c) && (c <=? 57) then c - 48 else if (97 <=? c) && (c <=? 122) then c - 87 else if (65 <=? c) && (c <=? 90) then c - 55 else 36).
  assert (Hn : digit_of c n \/ n = 36 /\ forall d, ~ digit_of c d).
  { unfold n. destruct (Z.leb_spec 48 c), (Z.leb_spec c 57), (Z.leb_spec 97 c), (Z.leb_spec c 122), (Z.leb_spec 65 c), (Z.leb_spec c 90); try lia; cbn [andb];
    first [left; constructor; lia|right; split; [reflexivity|intros e K; destruct K; lia]]. }
  destruct Hn as [Hn|[-> Hn]].
  - destruct (Z.ltb_spec n r) as [L|L]; split; intros K; try discriminate.
    + injection K as <-. auto.
    + f_equal. destruct K as [K _]. destruct Hn; inversion K; lia.
    + exfalso. destruct K as [K K']. assert (d = n) by (destruct Hn; inversion K; lia). lia.
  - rewrite (proj2 (Z.ltb_ge 36 r)) by lia. split; [discriminate|]. intros [K _]. destruct (Hn _ K).
Qed.
Definition pos_from (r a : Z) (ds : list Z) : Z := fold_left (fun a d => a * r + d) ds a.
Lemma digit_nonneg : forall c d, digit_of c d -> 0 <= d.
Proof. intros c d H. destruct H; lia. Qed.
Lemma pos_from_mono : forall r ds a, 1 <= r -> 0 <= a -> Forall (fun d => 0 <= d) ds -> a <= pos_from r a ds.
Proof.
  intros r. induction ds as [|d ds IH]; intros a Hr Ha HF; [cbn; lia|]. inversion HF; subst. cbn. change (fold_left _ ds (a * r + d)) with (pos_from r (a * r + d) ds).
  assert (a <= a * r) by nia. specialize (IH (a * r + d) Hr ltac:(lia) ltac:(assumption)). lia.
Qed.
Lemma digits_all : forall r cs ds, Forall2 (fun c d => digit_of c d /\ d < r) cs ds -> Forall (fun d => 0 <= d) ds.
Proof. intros r cs ds H. induction H as [|c d cs ds [K _] _ IH]; constructor; [eapply digit_nonneg, K|exact IH]. Qed.
Lemma up_digits : forall r s acc z, 2 <= r <= 36 -> 0 <= acc -> (radix_digits r true acc s = Some z <-> exists ds, Forall2 (fun c d => digit_of c d /\ d < r) s ds /\ z = pos_from r acc ds /\ (s = [] \/ z <= i64_hi)).
Proof.
  intros r s. induction s as [|c s IH]; intros acc z Hr Ha; cbn [radix_digits].
  - split; [intros K; injection K as <-; exists []; auto|]. intros (ds & HF & -> & _). inversion HF. reflexivity.
  - destruct (to_digit r c) as [d|] eqn:E.
    + apply to_digit_some in E; [|lia]. pose proof (digit_nonneg _ _ (proj1 E)) as Hd.
      destruct (in_bounds i64_lo i64_hi (acc * r) && in_bounds i64_lo i64_hi (acc * r + d)) eqn:Eb.
      * rewrite andb_true_iff, !bounds_true in Eb. rewrite IH by nia. split.
        -- intros (ds & HF & -> & HB). exists (d :: ds). split; [constructor; assumption|]. split; [reflexivity|]. right. destruct HB as [->|HB]; [inversion HF; subst; unfold pos_from; cbn [fold_left]; lia|exact HB].
        -- intros (ds & HF & -> & HB). inversion HF as [|? d' ? ds' Hd' HF' E1 E2]; subst. assert (d' = d).
           { destruct E as [E _], Hd' as [Hd' _]. destruct E; inversion Hd'; lia. } subst d'.
           exists ds'. split; [assumption|]. split; [reflexivity|]. right. destruct HB as [HB|HB]; [discriminate|exact HB].
      * split; [discriminate|]. intros (ds & HF & -> & HB). inversion HF as [|? d' ? ds' Hd' HF' E1 E2]; subst. assert (d' = d).
        { destruct E as [E _], Hd' as [Hd' _]. destruct E; inversion Hd'; lia. } subst d'. destruct HB as [HB|HB]; [discriminate|].
        exfalso. rewrite andb_false_iff, !bounds_false in Eb. change (pos_from r (acc * r + d) ds' <= i64_hi) in HB.
        pose proof (pos_from_mono r ds' (acc * r + d) ltac:(lia) ltac:(nia) (digits_all _ _ _ HF')). assert (0 <= acc * r) by nia. unfold i64_lo in Eb. lia.
    + split; [discriminate|]. intros (ds & HF & _). inversion HF as [|? d ? ds' Hd HF' E1 E2]; subst. apply to_digit_some in Hd; [|lia]. congruence.
Qed.
Lemma down_digits : forall r s acc z, 2 <= r <= 36 -> acc <= 0 -> (radix_digits r false acc s = Some z <-> exists ds, Forall2 (fun c d => digit_of c d /\ d < r) s ds /\ z = - pos_from r (- acc) ds /\ (s = [] \/ i64_lo <= z)).
Proof.
  intros r s. induction s as [|c s IH]; intros acc z Hr Ha; cbn [radix_digits].
  - split; [intros K; injection K as <-; exists []; cbn; split; [constructor|split; [lia|auto]]|]. intros (ds & HF & -> & _). inversion HF. cbn. f_equal. lia.
  - destruct (to_digit r c) as [d|] eqn:E.
    + apply to_digit_some in E; [|lia]. pose proof (digit_nonneg _ _ (proj1 E)) as Hd.
      assert (HS : forall ds, pos_from r (- acc) (d :: ds) = pos_from r (- (acc * r - d)) ds) by (intros ds; cbn; unfold pos_from; f_equal; lia).
      destruct (in_bounds i64_lo i64_hi (acc * r) && in_bounds i64_lo i64_hi (acc * r - d)) eqn:Eb.
      * rewrite andb_true_iff, !bounds_true in Eb. rewrite IH by nia. split.
        -- intros (ds & HF & -> & HB). exists (d :: ds). split; [constructor; assumption|]. rewrite HS. split; [reflexivity|]. right. destruct HB as [->|HB]; [inversion HF; subst; unfold pos_from; cbn [fold_left]; lia|exact HB].
        -- intros (ds & HF & -> & HB). inversion HF as [|? d' ? ds' Hd' HF' E1 E2]; subst. assert (d' = d).
           { destruct E as [E _], Hd' as [Hd' _]. destruct E; inversion Hd'; lia. } subst d'.
           exists ds'. split; [assumption|]. rewrite HS in *. split; [reflexivity|]. right. destruct HB as [HB|HB]; [discriminate|exact HB].
      * split; [discriminate|]. intros (ds & HF & -> & HB). inversion HF as [|? d' ? ds' Hd' HF' E1 E2]; subst. assert (d' = d).
        { destruct E as [E _], Hd' as [Hd' _]. destruct E; inversion Hd'; lia. } subst d'. destruct HB as [HB|HB]; [discriminate|].
        exfalso. rewrite andb_false_iff, !bounds_false in Eb. rewrite HS in HB.
        pose proof (pos_from_mono r ds' (- (acc * r - d)) ltac:(lia) ltac:(nia) (digits_all _ _ _ HF')). assert (acc * r <= 0) by nia. unfold i64_hi in Eb. lia.
    + split; [discriminate|]. intros (ds & HF & _). inversion HF as [|? d ? ds' Hd HF' E1 E2]; subst. apply to_digit_some in Hd; [|lia]. congruence.
Qed.
Lemma positional_nonneg : forall r cs ds, 2 <= r -> Forall2 (fun c d => digit_of c d /\ d < r) cs ds -> 0 <= pos_from r 0 ds.
Proof. intros r cs ds Hr H. apply pos_from_mono; [lia|lia|eapply digits_all, H]. Qed.
Lemma digit_no_sign : forall c d, digit_of c d -> c <> 43 /\ c <> 45.
Proof. intros c d H. destruct H; lia. Qed.
Lemma parse_radix_ok : forall r s z, 2 <= r <= 36 -> (parse_radix r s = Some z <-> radix_literal r s z /\ i64_lo <= z <= i64_hi).
Proof.
  intros r s z Hr. unfold parse_radix, radix_literal, positional. fold (pos_from r 0). destruct s as [|c s].
  { split; [discriminate|]. intros [(sg & sgn & cs & ds & E & _ & N & _) _]. destruct sg; [|discriminate]. cbn in E. subst. congruence. }
  destruct (Z.eqb_spec c 43) as [->|N1]; [|destruct (Z.eqb_spec c 45) as [->|N2]]; cbn [orb].
  - assert (K : radix_literal r (43 :: s) z <-> s <> [] /\ exists ds, Forall2 (fun c d => digit_of c d /\ d < r) s ds /\ z = pos_from r 0 ds).
    { split.
      - intros (sg & sgn & cs & ds & E & HS & N & HF & ->). destruct HS; cbn in E.
        + subst cs. inversion HF as [|? ? ? ? [Hd _]]; subst. apply digit_no_sign in Hd. lia.
        + injection E as ->. split; [exact N|]. exists ds. split; [exact HF|]. unfold positional. fold (pos_from r 0 ds). lia.
        + discriminate.
      - intros (N & ds & HF & ->). exists [43], 1, s, ds. split; [reflexivity|]. split; [constructor|]. split; [exact N|]. split; [exact HF|]. unfold positional. fold (pos_from r 0 ds). lia. }
    fold (positional r). unfold radix_literal in K. rewrite K. destruct s as [|c s]; [split; [discriminate|intros [[N _] _]; congruence]|].
    rewrite up_digits by lia. split.
    + intros (ds & HF & -> & [HB|HB]); [discriminate|]. split; [split; [discriminate|eauto]|]. pose proof (positional_nonneg r _ _ ltac:(lia) HF). unfold i64_lo. lia.
    + intros [(_ & ds & HF & ->) HB]. exists ds. split; [exact HF|]. split; [reflexivity|]. right. lia.
  - assert (K : radix_literal r (45 :: s) z <-> s <> [] /\ exists ds, Forall2 (fun c d => digit_of c d /\ d < r) s ds /\ z = - pos_from r 0 ds).
    { split.
      - intros (sg & sgn & cs & ds & E & HS & N & HF & ->). destruct HS; cbn in E.
        + subst cs. inversion HF as [|? ? ? ? [Hd _]]; subst. apply digit_no_sign in Hd. lia.
        + discriminate.
        + injection E as ->. split; [exact N|]. exists ds. split; [exact HF|]. unfold positional. fold (pos_from r 0 ds). lia.
      - intros (N & ds & HF & ->). exists [45], (-1), s, ds. split; [reflexivity|]. split; [constructor|]. split; [exact N|]. split; [exact HF|]. unfold positional. fold (pos_from r 0 ds). lia. }
    unfold radix_literal in K. rewrite K. destruct s as [|c s]; [split; [discriminate|intros [[N _] _]; congruence]|].
    change (45 =? 43) with false. rewrite down_digits by lia. split.
    + intros (ds & HF & -> & [HB|HB]); [discriminate|]. split; [split; [discriminate|exists ds; auto]|]. pose proof (positional_nonneg r _ _ ltac:(lia) HF). cbn [Z.opp] in *. unfold i64_hi. lia.
    + intros [(_ & ds & HF & ->) HB]. exists ds. split; [exact HF|]. split; [reflexivity|]. right. lia.
  - assert (K : radix_literal r (c :: s) z <-> exists ds, Forall2 (fun c d => digit_of c d /\ d < r) (c :: s) ds /\ z = pos_from r 0 ds).
    { split.
      - intros (sg & sgn & cs & ds & E & HS & N & HF & ->). destruct HS; cbn in E.
        + subst cs. exists ds. split; [exact HF|]. unfold positional. fold (pos_from r 0 ds). lia.
        + injection E as -> _. congruence.
        + injection E as -> _. congruence.
      - intros (ds & HF & ->). exists [], 1, (c :: s), ds. split; [reflexivity|]. split; [constructor|]. split; [discriminate|]. split; [exact HF|]. unfold positional. fold (pos_from r 0 ds). lia. }
    unfold radix_literal in K. rewrite K. rewrite up_digits by lia. split.
    + intros (ds & HF & -> & [HB|HB]); [discriminate|]. split; [eauto|]. pose proof (positional_nonneg r _ _ ltac:(lia) HF). unfold i64_lo. lia.
    + intros [(ds & HF & ->) HB]. exists ds. split; [exact HF|]. split; [reflexivity|]. right. lia.
Qed.
