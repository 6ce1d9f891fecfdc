(* The closest order. *)
From Coq Require Import List ZArith Bool Arith Lia Permutation.
From Verif Require Import ColumnModel StoreModel.
From Verif Require PermModel PermProofs PermProps.
Import ListNotations.
Local Open Scope nat_scope.

Section Distance.
Variables from inverted : perm.
Let g (j : nat) : nat := PermModel.get from (PermModel.get inverted j).
Hypothesis inj : forall i j, g i = g j -> i = j.

Lemma score_mono : forall l st, fst st <= fst (fold_left (distance_step from inverted) l st).
Proof.
  induction l as [|x l IH]; intros st; cbn [fold_left]; [lia|]. specialize (IH (distance_step from inverted st x)). unfold distance_step in IH at 1. cbn [fst] in IH. lia.
Qed.
Lemma score_zero : forall k a sc, (forall j, j < a -> g j = j) ->
  (fst (fold_left (distance_step from inverted) (seq a k) (sc, (Z.of_nat a - 1)%Z)) = 0 <-> sc = 0 /\ forall j, a <= j < a + k -> g j = j).
Proof.
  induction k as [|k IH]; intros a sc Ha; cbn [seq fold_left].
  - cbn [fst]. split; [intros ->; split; [reflexivity|lia]|tauto].
  - assert (Est : distance_step from inverted (sc, (Z.of_nat a - 1)%Z) a =
      (sc + (if (Z.of_nat (g a) - (Z.of_nat a - 1) <=? 0)%Z then Z.abs_nat (Z.of_nat (g a) - (Z.of_nat a - 1)) else Z.to_nat (Z.of_nat (g a) - (Z.of_nat a - 1) - 1)), Z.of_nat (g a))) by reflexivity.
    rewrite Est. destruct (Nat.eq_dec (g a) a) as [E|E].
    + rewrite E. replace (Z.of_nat a - (Z.of_nat a - 1))%Z with 1%Z by lia. cbn [Z.leb Z.compare Z.sub Z.to_nat]. cbn. rewrite Nat.add_0_r.
      replace (Z.of_nat a) with (Z.of_nat (S a) - 1)%Z by lia. rewrite IH.
      * split; intros [H1 H2]; (split; [exact H1|]); intros j Hj; [destruct (Nat.eq_dec j a) as [->|]; [exact E|]|]; apply H2; lia.
      * intros j Hj. destruct (Nat.eq_dec j a) as [->|]; [exact E|apply Ha; lia].
    + split.
      * intros H. exfalso. pose proof (score_mono (seq (S a) k) (sc + (if (Z.of_nat (g a) - (Z.of_nat a - 1) <=? 0)%Z then Z.abs_nat (Z.of_nat (g a) - (Z.of_nat a - 1)) else Z.to_nat (Z.of_nat (g a) - (Z.of_nat a - 1) - 1)), Z.of_nat (g a))) as M.
        rewrite H in M. cbn [fst] in M. destruct (Z.leb_spec (Z.of_nat (g a) - (Z.of_nat a - 1)) 0) as [L|L]; [|lia].
        assert (Hg : g a = a - 1 /\ 0 < a) by lia. destruct Hg as [Hg Hpos]. rewrite <- (Ha (a - 1)) in Hg by lia. apply inj in Hg. lia.
      * intros [_ H]. specialize (H a ltac:(lia)). congruence.
Qed.
End Distance.

Lemma distance_zero : forall from to, PermProps.built from -> PermProps.built to -> (distance from to = 0 <-> forall i, PermModel.get from i = PermModel.get to i).
Proof.
  intros from to Hf Ht. pose proof (PermProps.C16_invert to Ht) as Hi.
  assert (Hinj : forall i j, PermModel.get from (PermModel.get (PermModel.invert to) i) = PermModel.get from (PermModel.get (PermModel.invert to) j) -> i = j).
  { intros i j E. apply PermProofs.get_inj in E; [|apply PermProps.built_wf, Hf]. apply PermProofs.get_inj in E; [exact E|]. apply PermProps.built_wf. constructor. exact Ht. }
  unfold distance. change (-1)%Z with (Z.of_nat 0 - 1)%Z. rewrite (score_zero from (PermModel.invert to) Hinj) by lia. split.
  - intros [_ H] i. destruct (Hi i) as [H1 _].
    assert (G : forall j, PermModel.get from (PermModel.get (PermModel.invert to) j) = j).
    { intros j. destruct (Nat.le_gt_cases j (max_len from to)) as [L|L]; [apply H; lia|].
      pose proof (PermProps.C16_last_mapped from) as Lf. pose proof (PermProps.C16_last_mapped to) as Lt. unfold max_len in L.
      assert (Ff : PermModel.get from j = j). { destruct (PermModel.last_mapped from) as [a|]; [apply Lf; destruct (PermModel.last_mapped to); lia|apply Lf]. }
      assert (Ft : PermModel.get to j = j). { destruct (PermModel.last_mapped to) as [b|]; [apply Lt; destruct (PermModel.last_mapped from); lia|apply Lt]. }
      destruct (Hi j) as [Hj _]. rewrite Ft in Hj. rewrite Hj. exact Ff. }
    specialize (G (PermModel.get to i)). rewrite H1 in G. exact G.
  - intros H. split; [reflexivity|]. intros j _. rewrite H. apply Hi.
Qed.

Lemma closest_min : forall orders order c, closest_order orders order = Some c -> In c orders /\ forall o, In o orders -> distance c order <= distance o order.
Proof.
  intros orders order. unfold closest_order.
  set (f := fun best o => match best with None => Some o | Some b => if distance o order <? distance b order then Some o else Some b end).
  assert (G : forall l b c, fold_left f l (Some b) = Some c -> (c = b \/ In c l) /\ distance c order <= distance b order /\ forall o, In o l -> distance c order <= distance o order).
  { induction l as [|o l IH]; intros b c E; cbn [fold_left] in E; [injection E as <-; repeat split; auto; intros o []|]. unfold f at 2 in E. destruct (Nat.ltb_spec (distance o order) (distance b order)) as [L|L].
    - destruct (IH o c E) as (H1 & H2 & H3). split; [cbn [In]; destruct H1 as [->|H1]; auto|]. split; [lia|]. intros o' [->|Ho]; auto.
    - destruct (IH b c E) as (H1 & H2 & H3). split; [cbn [In]; destruct H1 as [->|H1]; auto|]. split; [lia|]. intros o' [->|Ho]; auto. lia. }
  intros c E. destruct orders as [|o l]; cbn [fold_left] in E; [discriminate|]. destruct (G l o c E) as (H1 & H2 & H3).
  split; [cbn [In]; destruct H1 as [->|H1]; auto|]. intros o' [->|Ho]; auto.
Qed.
