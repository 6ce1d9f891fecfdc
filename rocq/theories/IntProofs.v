From Coq Require Import ZArith List Bool Lia ZArith.Zpow_facts.
From Verif Require Import IntModel IntSpec.
Import ListNotations.
Open Scope Z_scope.

Lemma fits_spec : forall z, fits z = true <-> in_range z.
Proof.
  intros z. unfold fits, in_range, i64_min, i64_max.
  rewrite andb_true_iff, !Z.leb_le. lia.
Qed.

Lemma fits_false : forall z, fits z = false <-> ~ in_range z.
Proof.
  intros z. rewrite <- fits_spec. destruct (fits z); split; congruence.
Qed.

Lemma checked_some : forall z z', checked z = Some z' -> z' = z /\ in_range z.
Proof.
  intros z z'. unfold checked. destruct (fits z) eqn:E; [|discriminate].
  intros H. injection H as <-. split; [reflexivity|]. apply fits_spec, E.
Qed.

Lemma checked_none : forall z, checked z = None -> ~ in_range z.
Proof.
  intros z. unfold checked. destruct (fits z) eqn:E; [discriminate|].
  intros _. apply fits_false, E.
Qed.

Lemma wrap64_spec : forall z, same_low_bits z (wrap64 z).
Proof.
  intros z. unfold same_low_bits, wrap64, in_range, i64_max.
  pose proof (Z.mod_pos_bound z (2 ^ 64) ltac:(lia)) as Hb.
  pose proof (Z.div_mod z (2 ^ 64) ltac:(lia)) as Hd.
  destruct (z mod 2 ^ 64 <=? 2 ^ 63 - 1) eqn:E.
  - apply Z.leb_le in E. split; [lia|]. exists (z / 2 ^ 64). lia.
  - apply Z.leb_gt in E. split; [lia|]. exists (z / 2 ^ 64 + 1). lia.
Qed.

(* ---------- unary ---------- *)

Definition correct1 (debug : bool) (f : op1) (a : Z) : Prop :=
  match run1 debug f a with
  | Num z => in_range z /\ means1 f a (Number z)
  | Truth t => means1 f a (Boolean t)
  | Undef => forall v, representable v -> ~ means1 f a v
  | Panic | OutOfFuel => False
  end.

Lemma unary_correct : forall debug f a,
  in_range a -> ~ exceptional1 f a -> correct1 debug f a.
Proof.
  intros debug f a Ha Hex. unfold correct1, run1, exceptional1 in *. destruct f.
  - unfold absolute, i64_min. destruct (a =? - 2 ^ 63) eqn:E.
    + apply Z.eqb_eq in E. exfalso. apply Hex. split; [reflexivity|exact E].
    + apply Z.eqb_neq in E. unfold in_range in *. cbn [means1]. lia.
  - unfold negation, some_num. destruct (checked (- a)) eqn:E.
    + apply checked_some in E as [-> Hr]. split; [exact Hr|]. cbn. lia.
    + apply checked_none in E. intros [z|t] Hr; cbn; [|tauto].
      intros H. apply E. replace (- a) with z by lia. exact Hr.
  - unfold squareroot. destruct (a <? 0) eqn:E.
    + apply Z.ltb_lt in E. intros [z|t] Hr; cbn; [|tauto]. nia.
    + apply Z.ltb_ge in E. pose proof (Z.sqrt_spec a E) as Hs.
      pose proof (Z.sqrt_nonneg a). unfold Z.succ in Hs. cbn [means1].
      unfold in_range in *. split; [|lia]. nia.
Qed.

(* ---------- division ---------- *)

Lemma quot_facts : forall a b, b <> 0 ->
  a = b * Z.quot a b + Z.rem a b /\ Z.abs (Z.rem a b) < Z.abs b /\ 0 <= Z.rem a b * a.
Proof.
  intros a b Hb. split; [apply Z.quot_rem; exact Hb|]. split.
  - apply Z.rem_bound_abs, Hb.
  - apply Z.rem_sign_mul, Hb.
Qed.

Lemma div_unique_trunc : forall a b q r q' r',
  a = b * q + r -> Z.abs r < Z.abs b -> 0 <= r * a ->
  a = b * q' + r' -> Z.abs r' < Z.abs b -> 0 <= r' * a ->
  q = q' /\ r = r'.
Proof.
  intros a b q r q' r' H1 H2 H3 H4 H5 H6.
  assert (Hb : b <> 0) by lia.
  assert (Hr : Z.abs (r - r') < Z.abs b).
  { destruct (Z.lt_trichotomy a 0) as [Ha|[Ha|Ha]].
    - assert (r <= 0) by nia. assert (r' <= 0) by nia. lia.
    - subst a. assert (Hd : b * (q - q') = r' - r) by lia.
      (* a = 0: r = - b q with |r| < |b| forces q = 0 *)
      assert (q = 0) by nia. assert (q' = 0) by nia. subst. lia.
    - assert (0 <= r) by nia. assert (0 <= r') by nia. lia. }
  assert (Hd : b * (q - q') = r' - r) by lia.
  assert (q - q' = 0) by nia. nia.
Qed.

Lemma div_correct : forall a b,
  in_range a -> in_range b ->
  match division a b with
  | Num z => in_range z /\ means2 Div a b (Number z)
  | Undef => forall v, representable v -> ~ means2 Div a b v
  | _ => False
  end.
Proof.
  intros a b Ha Hb. unfold division. destruct (b =? 0) eqn:E.
  - apply Z.eqb_eq in E. subst. intros [z|t] Hr; cbn; [|tauto]. intros (r & ? & ? & ?). lia.
  - apply Z.eqb_neq in E. destruct (quot_facts a b E) as (H1 & H2 & H3).
    destruct (checked (Z.quot a b)) eqn:Ec; cbn [some_num].
    + apply checked_some in Ec as [-> Hr]. split; [exact Hr|]. cbn.
      exists (Z.rem a b). auto.
    + apply checked_none in Ec. intros [z|t] Hr; cbn; [|tauto].
      intros (r & ? & ? & ?). apply Ec.
      destruct (div_unique_trunc a b (Z.quot a b) (Z.rem a b) z r) as [-> _]; auto.
Qed.

Lemma rem_correct : forall a b,
  in_range a -> in_range b -> ~ (a = - 2 ^ 63 /\ b = -1) ->
  match remainder a b with
  | Num z => in_range z /\ means2 Rem a b (Number z)
  | Undef => forall v, representable v -> ~ means2 Rem a b v
  | _ => False
  end.
Proof.
  intros a b Ha Hb Hex. unfold remainder. destruct (b =? 0) eqn:E.
  - apply Z.eqb_eq in E. subst. intros [z|t] Hr; cbn; [|tauto]. intros (r & ? & ? & ?). lia.
  - apply Z.eqb_neq in E. destruct (quot_facts a b E) as (H1 & H2 & H3).
    destruct ((a =? i64_min) && (b =? -1)) eqn:Em.
    + apply andb_true_iff in Em as [E1 E2]. apply Z.eqb_eq in E1, E2. apply Hex.
      split; [exact E1|exact E2].
    + split.
      * unfold in_range in *. lia.
      * cbn. exists (Z.quot a b). auto.
Qed.

(* ---------- logarithm ---------- *)

Lemma ilog_loop_spec : forall fuel value base n r,
  2 <= base -> 0 < value -> 0 <= n -> r = base ^ n -> r <= value ->
  value < r * 2 ^ (Z.of_nat fuel) ->
  exists m, ilog_loop fuel value base n r = Num m /\ 0 <= m /\
            base ^ m <= value < base ^ (m + 1).
Proof.
  induction fuel as [|fuel IH]; intros value base n r Hb Hv Hn Hr Hle Hf.
  - cbn in Hf. lia.
  - cbn [ilog_loop]. destruct (r <=? value / base) eqn:E.
    + apply Z.leb_le in E.
      assert (Hrb : r * base <= value).
      { pose proof (Z.mul_div_le value base ltac:(lia)). nia. }
      apply IH; try lia.
      * rewrite Z.pow_add_r, Z.pow_1_r by lia. subst r. reflexivity.
      * rewrite Nat2Z.inj_succ, Z.pow_succ_r in Hf by lia.
        assert (0 < 2 ^ Z.of_nat fuel) by (apply Z.pow_pos_nonneg; lia).
        assert (0 < r) by (subst r; apply Z.pow_pos_nonneg; lia).
        nia.
    + apply Z.leb_gt in E. exists n. split; [reflexivity|]. split; [lia|].
      split; [lia|]. rewrite Z.pow_add_r, Z.pow_1_r by lia. rewrite <- Hr.
      pose proof (Z.mul_succ_div_gt value base ltac:(lia)). nia.
Qed.

Lemma pow_ge_exp : forall b z, 2 <= b -> 0 <= z -> z < b ^ z.
Proof. intros b z Hb Hz. apply Z.pow_gt_lin_r; lia. Qed.

Lemma log_correct : forall a b,
  in_range a -> in_range b ->
  match logarithm a b with
  | Num z => in_range z /\ means2 Log a b (Number z)
  | Undef => forall v, representable v -> ~ means2 Log a b v
  | _ => False
  end.
Proof.
  intros a b Ha Hb. unfold logarithm.
  destruct ((a <=? 0) || (b <? 2)) eqn:E.
  - intros [z|t] Hr; cbn; [|tauto]. intros (H1 & H2 & H3).
    assert (0 < b ^ z) by (apply Z.pow_pos_nonneg; lia).
    apply orb_true_iff in E as [E|E]; [apply Z.leb_le in E|apply Z.ltb_lt in E]; lia.
  - apply orb_false_iff in E as [E1 E2]. apply Z.leb_gt in E1. apply Z.ltb_ge in E2.
    unfold ilog. destruct (a <? b) eqn:E.
    + apply Z.ltb_lt in E. split; [unfold in_range; lia|]. cbn [means2].
      rewrite Z.pow_0_r, Z.add_0_l, Z.pow_1_r. lia.
    + apply Z.ltb_ge in E.
      destruct (ilog_loop_spec 64 a b 1 b) as (m & -> & Hm & Hl); try lia.
      * unfold in_range in Ha.
        change (2 ^ Z.of_nat 64) with (2 * 2 ^ 63). nia.
      * split; [|cbn; auto]. pose proof (pow_ge_exp b m E2 Hm). unfold in_range in *. lia.
Qed.

(* ---------- power ---------- *)

Lemma no_square_2_63 : forall x, x * x <> 2 ^ 63.
Proof.
  intros x H.
  assert (Hs : Z.sqrt (2 ^ 63) * Z.sqrt (2 ^ 63) <> 2 ^ 63) by (vm_compute; discriminate).
  apply Hs. rewrite <- H. rewrite <- (Z.abs_square x) at 1 2.
  rewrite <- (Z.abs_square x).
  rewrite Z.sqrt_square by lia. reflexivity.
Qed.

Lemma one_le_pow : forall b k, 1 <= b -> 0 <= k -> 1 <= b ^ k.
Proof. intros b k Hb Hk. pose proof (Z.pow_pos_nonneg b k). lia. Qed.

Lemma base_le_pow : forall b k, 1 <= b -> 1 <= k -> b <= b ^ k.
Proof.
  intros b k Hb Hk. replace k with (Z.succ (k - 1)) by lia.
  rewrite Z.pow_succ_r by lia. pose proof (one_le_pow b (k - 1)). nia.
Qed.

Lemma pow_loop1_spec : forall fuel base exp,
  0 < exp < 2 ^ (Z.of_nat fuel) -> in_range base ->
  match pow_loop1 fuel base exp with
  | PowFuel => False
  | PowNone => ~ in_range (base ^ exp)
  | PowGo base' exp' =>
      base' ^ exp' = base ^ exp /\ Z.odd exp' = true /\ 0 < exp' <= exp /\ in_range base'
  end.
Proof.
  induction fuel as [|fuel IH]; intros base exp He Hr.
  - cbn in He. lia.
  - cbn [pow_loop1]. destruct (Z.even exp) eqn:Ee.
    + apply Z.even_spec in Ee as [k ->].
      replace (2 * k / 2) with k by (rewrite Z.mul_comm, Z.div_mul; lia).
      assert (Hpow : base ^ (2 * k) = (base * base) ^ k).
      { rewrite Z.pow_mul_r by lia. f_equal. lia. }
      destruct (checked (base * base)) as [b'|] eqn:Ec.
      * apply checked_some in Ec as [-> Hr'].
        rewrite Nat2Z.inj_succ, Z.pow_succ_r in He by lia.
        specialize (IH (base * base) k ltac:(lia) Hr'). rewrite Hpow.
        destruct (pow_loop1 fuel (base * base) k); auto.
        destruct IH as (? & ? & ? & Hrr). split; [assumption|]. split; [assumption|]. split; [lia|exact Hrr].
      * apply checked_none in Ec. rewrite Hpow. intros Hin. apply Ec.
        unfold in_range in *.
        destruct (Z.le_gt_cases (base * base) 0) as [Hz|Hz]; [nia|].
        pose proof (base_le_pow (base * base) k). lia.
    + split; [reflexivity|]. split; [rewrite <- Z.negb_even, Ee; reflexivity|]. split; [lia|exact Hr].
Qed.

Lemma out_of_range_mul : forall x y, ~ in_range x -> 1 <= y -> ~ in_range (x * y).
Proof. intros x y Hx Hy H. apply Hx. unfold in_range in *. nia. Qed.

Lemma pow_loop2_spec : forall fuel base exp acc,
  0 < exp < 2 ^ (Z.of_nat fuel) -> (0 < fuel)%nat -> in_range base -> in_range acc ->
  (base <> 0 -> acc <> 0) ->
  match pow_loop2 fuel base exp acc with
  | Num z => z = acc * (base * base) ^ (exp / 2) /\ in_range z
  | Undef => ~ in_range (acc * (base * base) ^ (exp / 2))
  | _ => False
  end.
Proof.
  induction fuel as [|fuel IH]; intros base exp acc He Hfu Hb Ha Hnz.
  - lia.
  - cbn [pow_loop2]. rewrite Z.gtb_ltb. destruct (1 <? exp) eqn:E1.
    + apply Z.ltb_lt in E1.
      rewrite Nat2Z.inj_succ, Z.pow_succ_r in He by lia.
      assert (Hk : 1 <= exp / 2) by (apply Z.div_le_lower_bound; lia).
      assert (Hk2 : exp / 2 < 2 ^ Z.of_nat fuel) by (apply Z.div_lt_upper_bound; lia).
      assert (Hfu' : (0 < fuel)%nat).
      { destruct fuel; [cbn in Hk2; lia|lia]. }
      set (k := exp / 2) in *. cbv zeta.
      destruct (checked (base * base)) as [b'|] eqn:Ec.
      * apply checked_some in Ec as [-> Hb'].
        set (B := base * base) in *.
        assert (HB : 0 <= B) by (subst B; nia).
        destruct (Z.odd k) eqn:Eo.
        -- apply Z.odd_spec in Eo as [j Hj].
           assert (Hk' : k / 2 = j).
           { rewrite Hj. symmetry. apply Z.div_unique with 1; lia. }
           assert (Hp : acc * B ^ k = acc * B * (B * B) ^ j).
           { rewrite Hj, Z.pow_add_r, Z.pow_1_r, Z.pow_mul_r by lia.
             rewrite Z.pow_2_r. ring. }
           destruct (checked (acc * B)) as [a'|] eqn:Ea.
           ++ apply checked_some in Ea as [-> Ha'].
              specialize (IH B k (acc * B) ltac:(lia) Hfu' Hb' Ha').
              rewrite Hk' in IH. rewrite <- Hp in IH. apply IH.
              intros HB0. subst B. apply Z.neq_mul_0. split; [|exact HB0].
              apply Hnz. nia.
           ++ apply checked_none in Ea. rewrite Hp. apply out_of_range_mul; [exact Ea|].
              apply one_le_pow; [|lia].
              assert (B <> 0). { intros ->. apply Ea. unfold in_range. lia. }
              nia.
        -- assert (Ee : Z.even k = true) by (rewrite <- Z.negb_odd, Eo; reflexivity).
           apply Z.even_spec in Ee as [j Hj].
           assert (Hk' : k / 2 = j).
           { rewrite Hj. rewrite Z.mul_comm, Z.div_mul; lia. }
           assert (Hp : acc * B ^ k = acc * (B * B) ^ j).
           { rewrite Hj, Z.pow_mul_r by lia.
             rewrite Z.pow_2_r. ring. }
           specialize (IH B k acc ltac:(lia) Hfu' Hb' Ha).
           rewrite Hk' in IH. rewrite <- Hp in IH. apply IH.
           intros HB0. apply Hnz. subst B. nia.
      * apply checked_none in Ec.
        assert (Hbig : 2 ^ 63 < base * base).
        { pose proof (no_square_2_63 base). unfold in_range in Ec. nia. }
        pose proof (base_le_pow (base * base) k ltac:(lia) Hk) as Hp.
        assert (Hacc : acc <> 0) by (apply Hnz; nia).
        intros Hin. unfold in_range in Hin. nia.
    + apply Z.ltb_ge in E1. replace exp with 1 by lia.
      change (1 / 2) with 0. rewrite Z.pow_0_r. split; [lia|exact Ha].
Qed.

Lemma pow_correct : forall a b,
  in_range a -> in_range b ->
  match power a b with
  | Num z => in_range z /\ means2 Pow a b (Number z)
  | Undef => forall v, representable v -> ~ means2 Pow a b v
  | _ => False
  end.
Proof.
  intros a b Ha Hb. unfold power. destruct (b <? 0) eqn:E.
  - apply Z.ltb_lt in E. intros [z|t] Hr; cbn; [|tauto]. lia.
  - apply Z.ltb_ge in E. unfold checked_pow. destruct (b =? 0) eqn:E0.
    + apply Z.eqb_eq in E0. subst. split; [unfold in_range; lia|]. cbn. lia.
    + apply Z.eqb_neq in E0.
      assert (H64 : 0 < b < 2 ^ Z.of_nat 64).
      { unfold in_range in Hb. change (Z.of_nat 64) with 64. lia. }
      pose proof (pow_loop1_spec 64 a b H64 Ha) as H1.
      destruct (pow_loop1 64 a b) as [| |base exp].
      * intros [z|t] Hr; cbn [means2]; [|tauto]. intros [_ ->]. apply H1, Hr.
      * exact H1.
      * destruct H1 as (Hpow & Hodd & Hexp & Hbase).
        destruct (exp =? 1) eqn:Ee.
        -- apply Z.eqb_eq in Ee. subst exp. rewrite Z.pow_1_r in Hpow. subst base.
           split; [exact Hbase|]. cbn. auto.
        -- assert (H64' : 0 < exp < 2 ^ Z.of_nat 64) by lia.
           pose proof (pow_loop2_spec 64 base exp base H64' ltac:(lia) Hbase Hbase
                         ltac:(auto)) as H2.
           assert (Hval : base * (base * base) ^ (exp / 2) = a ^ b).
           { rewrite <- Hpow. apply Z.odd_spec in Hodd as [j Hj].
             assert (exp / 2 = j) as ->. { rewrite Hj. symmetry. apply Z.div_unique with 1; lia. }
             rewrite Hj, Z.pow_add_r, Z.pow_1_r, Z.pow_mul_r by lia.
             rewrite Z.pow_2_r. ring. }
           rewrite Hval in H2.
           destruct (pow_loop2 64 base exp base); try exact H2.
           ++ destruct H2 as [-> Hr]. split; [exact Hr|]. cbn. auto.
           ++ intros [z|t] Hr; cbn [means2]; [|tauto]. intros [_ ->]. apply H2, Hr.
Qed.

(* ---------- shifts ---------- *)

Lemma shift_amount_lt : forall debug b, ~ 64 <= b -> shift_amount debug b = Some b.
Proof.
  intros debug b H. unfold shift_amount.
  assert (b <? 64 = true) as -> by (apply Z.ltb_lt; lia). reflexivity.
Qed.

Lemma div_pow_bounds : forall a b, 0 <= b ->
  (a / 2 ^ b) * 2 ^ b <= a < (a / 2 ^ b + 1) * 2 ^ b.
Proof.
  intros a b Hb. assert (0 < 2 ^ b) by (apply Z.pow_pos_nonneg; lia).
  pose proof (Z.mul_div_le a (2 ^ b) ltac:(lia)).
  pose proof (Z.mul_succ_div_gt a (2 ^ b) ltac:(lia)). lia.
Qed.

Lemma div_pow_range : forall a b, 0 <= b -> in_range a -> in_range (a / 2 ^ b).
Proof.
  intros a b Hb Ha. pose proof (div_pow_bounds a b Hb).
  pose proof (one_le_pow 2 b ltac:(lia) Hb). unfold in_range in *. nia.
Qed.

Lemma same_low_bits_refl : forall z, in_range z -> same_low_bits z z.
Proof. intros z H. split; [exact H|]. exists 0. lia. Qed.

Definition correct2 (debug : bool) (f : op2) (a b : Z) : Prop :=
  match run2 debug f a b with
  | Num z => in_range z /\ means2 f a b (Number z)
  | Truth t => means2 f a b (Boolean t)
  | Undef => forall v, representable v -> ~ means2 f a b v
  | Panic | OutOfFuel => False
  end.

Lemma binary_correct : forall debug f a b,
  in_range a -> in_range b -> ~ exceptional2 f a b -> correct2 debug f a b.
Proof.
  intros debug f a b Ha Hb Hex. unfold correct2, run2. destruct f; cbn [exceptional2] in Hex.
  - unfold addition, some_num. destruct (checked (a + b)) eqn:E.
    + apply checked_some in E as [-> Hr]. split; [exact Hr|reflexivity].
    + apply checked_none in E. intros [z|t] Hr; cbn; [|tauto]. intros ->. apply E, Hr.
  - unfold subtraction, some_num. destruct (checked (a - b)) eqn:E.
    + apply checked_some in E as [-> Hr]. split; [exact Hr|]. cbn. lia.
    + apply checked_none in E. intros [z|t] Hr; cbn; [|tauto]. intros H. apply E.
      replace (a - b) with z by lia. exact Hr.
  - unfold multiplication, some_num. destruct (checked (a * b)) eqn:E.
    + apply checked_some in E as [-> Hr]. split; [exact Hr|reflexivity].
    + apply checked_none in E. intros [z|t] Hr; cbn; [|tauto]. intros ->. apply E, Hr.
  - pose proof (div_correct a b Ha Hb) as H. destruct (division a b); auto; contradiction.
  - pose proof (rem_correct a b Ha Hb Hex) as H. destruct (remainder a b); auto; contradiction.
  - pose proof (pow_correct a b Ha Hb) as H. destruct (power a b); auto; contradiction.
  - pose proof (log_correct a b Ha Hb) as H. destruct (logarithm a b); auto; contradiction.
  - cbn. apply Z.ltb_lt.
  - cbn. apply Z.leb_le.
  - cbn. rewrite Z.gtb_ltb. apply Z.ltb_lt.
  - cbn. rewrite Z.geb_leb. apply Z.leb_le.
  - unfold bitwise_shl. destruct (b <? 0) eqn:E.
    + apply Z.ltb_lt in E. intros [z|t] Hr; cbn; [lia|tauto].
    + apply Z.ltb_ge in E. rewrite shift_amount_lt by exact Hex.
      pose proof (wrap64_spec (a * 2 ^ b)) as Hw. split; [exact (proj1 Hw)|]. cbn. auto.
  - unfold bitwise_shr. destruct (b <? 0) eqn:E.
    + apply Z.ltb_lt in E. intros [z|t] Hr; cbn; [lia|tauto].
    + apply Z.ltb_ge in E. rewrite shift_amount_lt by exact Hex.
      split; [apply div_pow_range; assumption|]. cbn. split; [lia|].
      apply div_pow_bounds; lia.
  - unfold bitwise_shru. destruct (b <? 0) eqn:E.
    + apply Z.ltb_lt in E. intros [z|t] Hr; cbn; [lia|tauto].
    + apply Z.ltb_ge in E. rewrite shift_amount_lt by exact Hex.
      rewrite Z.gtb_ltb. destruct (0 <? a) eqn:Ep.
      * apply Z.ltb_lt in Ep.
        pose proof (div_pow_range a b E Ha) as Hr. split; [exact Hr|].
        cbn. split; [lia|]. exists a, (a / 2 ^ b).
        split; [unfold in_range in Ha; lia|].
        split; [exists 0; lia|]. split; [apply div_pow_bounds; lia|].
        apply same_low_bits_refl, Hr.
      * pose proof (wrap64_spec (a mod 2 ^ 64 / 2 ^ b)) as Hw.
        split; [exact (proj1 Hw)|]. cbn [means2]. split; [lia|].
        exists (a mod 2 ^ 64), (a mod 2 ^ 64 / 2 ^ b).
        split; [apply Z.mod_pos_bound; lia|].
        split. { exists (a / 2 ^ 64). pose proof (Z.div_mod a (2 ^ 64)). lia. }
        split; [apply div_pow_bounds; lia|]. exact Hw.
Qed.

(* ---------- n-ary ---------- *)

(* bits from position 63 on are all copies of the sign *)
Lemma in_range_shiftr : forall z, in_range z <-> Z.shiftr z 63 = 0 \/ Z.shiftr z 63 = -1.
Proof.
  intros z. rewrite Z.shiftr_div_pow2 by lia. unfold in_range.
  pose proof (Z.div_mod z (2 ^ 63) ltac:(lia)).
  pose proof (Z.mod_pos_bound z (2 ^ 63) ltac:(lia)).
  split.
  - intros Hz. destruct (Z.le_gt_cases 0 z).
    + left. apply Z.div_small. lia.
    + right. nia.
  - intros [Hq|Hq]; rewrite Hq in *; lia.
Qed.

Lemma lor_range : forall a b, in_range a -> in_range b -> in_range (Z.lor a b).
Proof.
  intros a b. rewrite !in_range_shiftr, Z.shiftr_lor.
  intros [-> | ->] [-> | ->]; cbn; auto.
Qed.

Lemma lxor_range : forall a b, in_range a -> in_range b -> in_range (Z.lxor a b).
Proof.
  intros a b. rewrite !in_range_shiftr, Z.shiftr_lxor.
  intros [-> | ->] [-> | ->]; cbn; auto.
Qed.

Lemma land_range : forall a b, in_range a -> in_range b -> in_range (Z.land a b).
Proof.
  intros a b. rewrite !in_range_shiftr, Z.shiftr_land.
  intros [-> | ->] [-> | ->]; cbn; auto.
Qed.

Lemma fold_range : forall (g : Z -> Z -> Z) (l : list Z) acc,
  (forall a b, in_range a -> in_range b -> in_range (g a b)) ->
  in_range acc -> (forall x, In x l -> in_range x) -> in_range (fold_left g l acc).
Proof.
  intros g l. induction l as [|x l IH]; intros acc Hg Ha Hl; cbn; [exact Ha|].
  apply IH; [exact Hg|apply Hg; [exact Ha|apply Hl; left; reflexivity]|intros y Hy; apply Hl; right; exact Hy].
Qed.

Lemma fold_land_bit : forall (l : list Z) acc i, 0 <= i ->
  (Z.testbit (fold_left Z.land l acc) i = true <->
   Z.testbit acc i = true /\ forall x, In x l -> Z.testbit x i = true).
Proof.
  induction l as [|x l IH]; intros acc i Hi; cbn [fold_left].
  - split; [intros H; split; [exact H|intros ? []]|intros [H _]; exact H].
  - rewrite IH, Z.land_spec, andb_true_iff by lia. split.
    + intros [[H1 H2] H3]. split; [exact H1|]. intros y [<-|Hy]; auto.
    + intros [H1 H2]. split; [split|]; auto with datatypes.
Qed.

Lemma fold_lor_bit : forall (l : list Z) acc i, 0 <= i ->
  (Z.testbit (fold_left Z.lor l acc) i = true <->
   Z.testbit acc i = true \/ exists x, In x l /\ Z.testbit x i = true).
Proof.
  induction l as [|x l IH]; intros acc i Hi; cbn [fold_left].
  - split; [auto|intros [H|(? & [] & _)]; exact H].
  - rewrite IH, Z.lor_spec, orb_true_iff by lia. split.
    + intros [[H|H]|(y & Hy & H)]; [left; exact H|right; exists x|right; exists y];
        auto with datatypes.
    + intros [H|(y & [<-|Hy] & H)]; auto. right. exists y. auto.
Qed.

Lemma fold_lxor_bit : forall (l : list Z) acc i, 0 <= i ->
  Z.testbit (fold_left Z.lxor l acc) i = xorb (Z.testbit acc i) (odd_ones l i).
Proof.
  unfold odd_ones.
  induction l as [|x l IH]; intros acc i Hi; cbn [fold_left filter].
  - cbn. rewrite xorb_false_r. reflexivity.
  - rewrite IH, Z.lxor_spec by lia. destruct (Z.testbit x i); cbn [length].
    + rewrite Nat.odd_succ, <- Nat.negb_odd.
      destruct (Z.testbit acc i), (Nat.odd (length (filter (fun x0 => Z.testbit x0 i) l)));
        reflexivity.
    + rewrite xorb_false_r. reflexivity.
Qed.

Lemma testbit_max : forall i, 0 <= i -> Z.testbit i64_max i = (i <? 63).
Proof.
  intros i Hi. unfold i64_max.
  replace (2 ^ 63 - 1) with (Z.ones 63) by reflexivity.
  apply Z.testbit_ones_nonneg; lia.
Qed.

Lemma high_bit_nonneg : forall x i, in_range x -> 0 <= x -> 63 <= i -> Z.testbit x i = false.
Proof.
  intros x i Hr Hx Hi. destruct (Z.eq_dec x 0) as [->|Hn]; [apply Z.bits_0|].
  apply Z.bits_above_log2; [lia|].
  assert (Z.log2 x < 63) by (apply Z.log2_lt_pow2; unfold in_range in Hr; lia). lia.
Qed.

Lemma sum_loop_spec : forall (l pre : list Z) acc, acc = total pre -> in_range acc ->
  match sum_loop l acc with
  | Some z => z = total (pre ++ l) /\ in_range z
  | None => exists p s, pre ++ l = p ++ s /\ ~ in_range (total p)
  end.
Proof.
  assert (Happ : forall a b, total (a ++ b) = total a + total b).
  { intros a b. unfold total. induction a; cbn in *; [reflexivity|]. rewrite IHa. lia. }
  induction l as [|x l IH]; intros pre acc He Hr; cbn [sum_loop].
  - rewrite app_nil_r. auto.
  - destruct (checked (acc + x)) eqn:E.
    + apply checked_some in E as [-> Hr'].
      replace (pre ++ x :: l) with ((pre ++ [x]) ++ l) by (rewrite <- app_assoc; reflexivity).
      apply IH; [|exact Hr']. rewrite Happ, He. cbn. lia.
    + apply checked_none in E. exists (pre ++ [x]), l. split; [rewrite <- app_assoc; reflexivity|].
      rewrite Happ. cbn. rewrite Z.add_0_r, <- He. exact E.
Qed.

Lemma product_loop_spec : forall (l pre : list Z) acc, acc = total_product pre -> in_range acc ->
  match product_loop l acc with
  | Some z => z = total_product (pre ++ l) /\ in_range z
  | None => exists p s, pre ++ l = p ++ s /\ ~ in_range (total_product p)
  end.
Proof.
  assert (Happ : forall a b, total_product (a ++ b) = total_product a * total_product b).
  { intros a b. unfold total_product. induction a as [|y a IHa]; cbn [app fold_right]; [lia|].
    rewrite IHa. ring. }
  induction l as [|x l IH]; intros pre acc He Hr; cbn [product_loop].
  - rewrite app_nil_r. auto.
  - destruct (checked (acc * x)) eqn:E.
    + apply checked_some in E as [-> Hr'].
      replace (pre ++ x :: l) with ((pre ++ [x]) ++ l) by (rewrite <- app_assoc; reflexivity).
      apply IH; [|exact Hr']. rewrite Happ, He. unfold total_product at 3. cbn [fold_right]. ring.
    + apply checked_none in E. exists (pre ++ [x]), l. split; [rewrite <- app_assoc; reflexivity|].
      rewrite Happ. unfold total_product at 2. cbn [fold_right]. rewrite Z.mul_1_r, <- He. exact E.
Qed.

Lemma fold_min_spec : forall (l : list Z) a,
  In (fold_left Z.min l a) (a :: l) /\ forall x, In x (a :: l) -> fold_left Z.min l a <= x.
Proof.
  induction l as [|y l IH]; intros a; cbn [fold_left].
  - split; [left; reflexivity|]. intros x [<-|[]]. lia.
  - destruct (IH (Z.min a y)) as [H1 H2]. split.
    + destruct H1 as [H1|H1]; [|right; right; exact H1].
      destruct (Z.min_spec a y) as [[_ Hm]|[_ Hm]]; rewrite Hm in *; [left|right; left]; exact H1.
    + intros x Hx.
      assert (fold_left Z.min l (Z.min a y) <= Z.min a y) by (apply H2; left; reflexivity).
      destruct Hx as [<-|[<-|Hx]]; [lia|lia|]. apply H2. right. exact Hx.
Qed.

Lemma fold_max_spec : forall (l : list Z) a,
  In (fold_left Z.max l a) (a :: l) /\ forall x, In x (a :: l) -> x <= fold_left Z.max l a.
Proof.
  induction l as [|y l IH]; intros a; cbn [fold_left].
  - split; [left; reflexivity|]. intros x [<-|[]]. lia.
  - destruct (IH (Z.max a y)) as [H1 H2]. split.
    + destruct H1 as [H1|H1]; [|right; right; exact H1].
      destruct (Z.max_spec a y) as [[_ Hm]|[_ Hm]]; rewrite Hm in *; [right; left|left]; exact H1.
    + intros x Hx.
      assert (Z.max a y <= fold_left Z.max l (Z.max a y)) by (apply H2; left; reflexivity).
      destruct Hx as [<-|[<-|Hx]]; [lia|lia|]. apply H2. right. exact Hx.
Qed.

Definition correctn (debug : bool) (f : opn) (l : list Z) : Prop :=
  match runn debug f l with
  | Num z => in_range z /\ l <> [] /\ meansn f l (Number z)
  | Undef => may_be_undefined f l
  | Truth _ | Panic | OutOfFuel => False
  end.

Lemma nary_correct : forall debug f (l : list Z),
  (forall x, In x l -> in_range x) -> ~ (l <> [] /\ exceptionaln f l) -> correctn debug f l.
Proof.
  intros debug f l Hl Hex. unfold correctn.
  destruct l as [|a l]; [left; reflexivity|].
  unfold runn. set (L := a :: l) in *.
  assert (HL : L <> []) by discriminate.
  assert (H0 : in_range 0) by (unfold in_range; lia).
  assert (H1 : in_range 1) by (unfold in_range; lia).
  assert (Hm : in_range i64_max) by (unfold in_range, i64_max; lia).
  destruct f.
  - unfold bitwise_and. split; [apply fold_range; auto using land_range|]. split; [exact HL|].
    cbn [meansn]. intros i Hi. rewrite fold_land_bit, testbit_max by lia.
    destruct (Z.lt_ge_cases i 63) as [Hlt|Hge].
    + assert (i <? 63 = true) as -> by (apply Z.ltb_lt; lia). tauto.
    + assert (i <? 63 = false) as -> by (apply Z.ltb_ge; lia). split; [intros [? _]; discriminate|].
      intros Hall. exfalso. apply Hex. split; [exact HL|]. split; [reflexivity|].
      intros x Hx. destruct (Z.lt_ge_cases x 0) as [|Hx0]; [assumption|].
      rewrite (high_bit_nonneg x i (Hl x Hx) Hx0 Hge) in Hall || specialize (Hall x Hx).
      rewrite (high_bit_nonneg x i (Hl x Hx) Hx0 Hge) in Hall. discriminate.
  - unfold bitwise_or. split; [apply fold_range; auto using lor_range|]. split; [exact HL|].
    cbn [meansn]. intros i Hi. rewrite fold_lor_bit, Z.bits_0 by lia.
    split; [intros [?|H]; [discriminate|exact H]|auto].
  - unfold bitwise_xor. split; [apply fold_range; auto using lxor_range|]. split; [exact HL|].
    cbn [meansn]. intros i Hi. rewrite fold_lxor_bit, Z.bits_0 by lia.
    apply xorb_false_l.
  - unfold sum, some_num. pose proof (sum_loop_spec L [] 0 eq_refl H0) as Hs. cbn [app] in Hs.
    destruct (sum_loop L 0) as [z|].
    + destruct Hs as [-> Hr]. repeat split; auto; apply Hr.
    + right. exact Hs.
  - unfold product, some_num. pose proof (product_loop_spec L [] 1 eq_refl H1) as Hs. cbn [app] in Hs.
    destruct (product_loop L 1) as [z|].
    + destruct Hs as [-> Hr]. repeat split; auto; apply Hr.
    + right. exact Hs.
  - unfold minimum, L. destruct (fold_min_spec l a) as [Hi Hmin].
    split; [apply Hl, Hi|]. split; [exact HL|]. cbn [meansn]. auto.
  - unfold maximum, L. destruct (fold_max_spec l a) as [Hi Hmax].
    split; [apply Hl, Hi|]. split; [exact HL|]. cbn [meansn]. auto.
Qed.
