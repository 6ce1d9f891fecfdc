(* Difference of scans. *)
From Coq Require Import List ZArith Bool Lia Sorted.
From Verif Require Import ColumnModel ScanModel ScanSpec ColumnProofs ScanProofs ScanProofs3.
Import ListNotations.
Local Open Scope nat_scope.

Section Subtract.
Variable D : Z -> Prop.
Variable sc : scanner.
Variable b : bool.
Variable R : state sc -> option Z -> list Z -> Prop.
Hypothesis HR : implements D sc b (fun _ _ => True) R.
Variable F : nat -> list Z.
Variable active : list bool.

Definition on (i : nat) : Prop := nth_error active i = Some true.

(* the indices can be used *)
Definition usable (idx : list nat) (fol : list (option (state sc))) : Prop :=
  forall i, In i idx -> i < length active /\ (on i -> exists s, nth_error fol i = Some (Some s)).
Definition fol_conform (fol : list (option (state sc))) (fc : nat -> option Z * list Z) : Prop :=
  forall i s, on i -> nth_error fol i = Some (Some s) -> R s (fst (fc i)) (snd (fc i)).
Definition fol_agree (idx : list nat) (low : Z -> Prop) (fc : nat -> option Z * list Z) : Prop :=
  forall i, In i idx -> on i -> forall x, low x -> (In x (ahead (fst (fc i)) (snd (fc i))) <-> In x (F i)).
Definition gone (idx : list nat) (x : Z) : Prop := exists j, In j idx /\ on j /\ In x (F j).

Lemma usable_set : forall idx fol i s, usable idx fol -> i < length fol -> usable idx (set_nth i (Some s) fol).
Proof.
  intros idx fol i s H Hi j Hj. destruct (H j Hj) as [H1 H2]. split; [exact H1|]. intros Ho. destruct (Nat.eq_dec i j) as [->|Hn].
  - exists s. apply set_nth_same, Hi.
  - rewrite set_nth_other by exact Hn. apply H2, Ho.
Qed.
Definition upd (i : nat) (cl : option Z * list Z) (fc : nat -> option Z * list Z) : nat -> option Z * list Z :=
  fun j => if j =? i then cl else fc j.
Lemma fol_conform_set : forall fol fc i s cl, fol_conform fol fc -> i < length fol -> R s (fst cl) (snd cl) ->
  fol_conform (set_nth i (Some s) fol) (upd i cl fc).
Proof.
  intros fol fc i s cl H Hi Hs j s' Hoj Hj. unfold upd. destruct (Nat.eqb_spec j i) as [->|Hn].
  - rewrite set_nth_same in Hj by exact Hi. injection Hj as <-. exact Hs.
  - rewrite set_nth_other in Hj by congruence. apply H; assumption.
Qed.

Lemma seek_follower : forall idx fol fc i m, usable idx fol -> fol_conform fol fc -> fol_agree idx (fun x => (m <= x)%Z) fc ->
  In i idx -> on i -> D m -> exists n s s' o,
    index fol i = Ok (Some s) /\ i < length fol /\ (forall fuel, n <= fuel -> s_seek sc fuel m s = Ok (s', o)) /\
    (o = Some m <-> In m (F i)) /\
    exists fc', fol_conform (set_nth i (Some s') fol) fc' /\ fol_agree idx (fun x => (m <= x)%Z) fc' /\ fst (fc' i) = o /\ forall j, j <> i -> fc' j = fc j.
Proof.
  intros idx fol fc i m Hu Hc Ha Hi Ho HD. destruct (Hu i Hi) as [Hl Hs]. destruct (Hs Ho) as (s & Es). pose proof (Hc i s Ho Es) as Hr.
  assert (Hil : i < length fol) by (apply nth_error_Some; congruence).
  pose proof (i_increasing _ _ _ _ _ HR _ _ _ Hr) as Hinc.
  destruct (i_ask _ _ _ _ _ HR s _ _ (RSeek m) Hr HD) as (n & s' & Hask & _ & Hr'). cbn [after] in Hask, Hr'.
  set (rest := from m (ahead (fst (fc i)) (snd (fc i)))) in *.
  assert (Hrest : forall x, In x rest <-> In x (F i) /\ (m <= x)%Z).
  { intros x. unfold rest. rewrite from_In by exact Hinc. split; intros [H1 H2]; (split; [|exact H2]); apply (Ha i Hi Ho x H2); exact H1. }
  exists n, s, s', (hd_error rest). split; [apply index_Ok; exact Es|]. split; [exact Hil|]. split; [exact Hask|]. split.
  - split.
    + intros H. apply hd_In in H. apply Hrest in H. apply H.
    + intros H. apply hd_is; [apply from_increasing, Hinc|apply Hrest; split; [exact H|lia]|]. intros y Hy. apply Hrest in Hy. lia.
  - exists (upd i (hd_error rest, tl rest) fc). split; [apply fol_conform_set; assumption|].
    split; [intros j Hj Hoj x Hx; unfold upd; destruct (Nat.eqb_spec j i) as [->|Hn]; [|apply Ha; assumption]; cbn [fst snd]; rewrite ahead_split, Hrest; tauto|].
    unfold upd. rewrite Nat.eqb_refl. split; [reflexivity|]. intros j Hj. destruct (Nat.eqb_spec j i); [contradiction|reflexivity].
Qed.

Lemma pass_flag : forall fuel idx mn0 fl0 eq0 m0 mn1 fl1 eq2 m2 f2,
  subtract_pass sc fuel idx active mn0 fl0 eq0 m0 true = Ok (mn1, fl1, eq2, Some (m2, f2)) -> f2 = true.
Proof.
  intros fuel. induction idx as [|i idx IH]; intros mn0 fl0 eq0 m0 mn1 fl1 eq2 m2 f2 H; cbn [subtract_pass] in H; [congruence|].
  destruct (index eq0 i); try discriminate. cbn [bind] in H. destruct (index active i) as [ac| |]; try discriminate. cbn [bind] in H.
  destruct (negb ac); [eapply IH; exact H|]. destruct (index fl0 i) as [[s|]| |]; try discriminate. cbn [bind] in H.
  destruct (s_seek sc fuel m0 s) as [r| |]; try discriminate. cbn [bind] in H. destruct (opt_eqb (snd r) (Some m0)); [|eapply IH; exact H].
  destruct (s_next sc fuel mn0) as [r2| |]; try discriminate. cbn [bind] in H. destruct (snd r2); [eapply IH; exact H|discriminate].
Qed.

Lemma pass_ok : forall all idx main fol fc eq m lm flag, incl idx all ->
  usable all fol -> fol_conform fol fc -> fol_agree all (fun x => (m <= x)%Z) fc -> R main (Some m) lm -> length eq = length active ->
  exists n main' fol' eq' o, (forall fuel, n <= fuel -> subtract_pass sc fuel idx active main fol eq m flag = Ok (main', fol', eq', o)) /\
    usable all fol' /\ length eq' = length active /\ (exists fc', fol_conform fol' fc' /\
    match o with
    | None => R main' None [] /\ (forall x, In x (m :: lm) -> gone idx x)
    | Some (m', flag') =>
        (exists lm', R main' (Some m') lm' /\ (forall x, In x (m' :: lm') <-> In x (m :: lm) /\ (m' <= x)%Z) /\
          (flag' = true -> flag = true \/ length lm' < length lm) /\ length lm' <= length lm /\
          (flag' = false -> lm' = lm)) /\
        (forall x, In x (m :: lm) -> (x < m')%Z -> gone idx x) /\ (m <= m')%Z /\
        fol_agree all (fun x => (m' <= x)%Z) fc' /\
        (flag' = false -> m' = m /\ ~ gone idx m) /\
        (forall j, nth_error eq' j = if in_dec Nat.eq_dec j idx then (match nth_error eq j with Some _ => Some false | None => None end) else nth_error eq j)
    end).
Proof.
  intros all. induction idx as [|i idx IH]; intros main fol fc eq m lm flag Hincl Hu Hc Ha Hm Hle.
  - exists 0, main, fol, eq, (Some (m, flag)). split; [reflexivity|]. split; [exact Hu|]. split; [exact Hle|]. exists fc. split; [exact Hc|].
    assert (Hinc := i_increasing _ _ _ _ _ HR _ _ _ Hm). split; [|split; [|split; [lia|split; [exact Ha|split]]]].
    + exists lm. split; [exact Hm|]. split; [|auto]. intros x. split; [|tauto]. intros H. split; [exact H|]. eapply hd_least; [exact Hinc|reflexivity|exact H].
    + intros x Hx Hlt. exfalso. pose proof (hd_least _ m x Hinc eq_refl Hx). lia.
    + intros _. split; [reflexivity|]. intros (j & [] & _).
    + intros j. reflexivity.
  - assert (Hi : In i all) by (apply Hincl; left; reflexivity). destruct (Hu i Hi) as [Hil _].
    assert (Hinc := i_increasing _ _ _ _ _ HR _ _ _ Hm).
    assert (HDm : D m) by (apply (i_domain _ _ _ _ _ HR _ _ _ m Hm); left; reflexivity).
    assert (Heq : exists e, index eq i = Ok e) by (destruct (index_lt _ eq i) as (e & He & _); [lia|eauto]). destruct Heq as [e He].
    assert (Hincl' : incl idx all) by (intros x Hx; apply Hincl; right; exact Hx).
    set (eq1 := set_nth i false eq). assert (Hle1 : length eq1 = length active) by (unfold eq1; rewrite set_nth_length; exact Hle).
    assert (Heqs : forall eq' , (forall j, nth_error eq' j = if in_dec Nat.eq_dec j idx then (match nth_error eq1 j with Some _ => Some false | None => None end) else nth_error eq1 j) ->
       forall j, nth_error eq' j = if in_dec Nat.eq_dec j (i :: idx) then (match nth_error eq j with Some _ => Some false | None => None end) else nth_error eq j).
    { intros eq' H j. rewrite H. unfold eq1. destruct (Nat.eq_dec i j) as [->|Hn].
      - rewrite set_nth_same by lia. destruct (in_dec Nat.eq_dec j (j :: idx)) as [_|Hf]; [|exfalso; apply Hf; left; reflexivity].
        destruct (nth_error eq j) eqn:Ej; [|apply nth_error_None in Ej; lia]. destruct (in_dec Nat.eq_dec j idx); reflexivity.
      - rewrite set_nth_other by exact Hn. destruct (in_dec Nat.eq_dec j idx) as [Hj|Hj]; destruct (in_dec Nat.eq_dec j (i :: idx)) as [Hj'|Hj']; try reflexivity.
        + exfalso. apply Hj'. right. exact Hj.
        + exfalso. destruct Hj' as [Hj'|Hj']; contradiction. }
    destruct (index_lt _ active i Hil) as (a & Eia & Ena). destruct a.
    + destruct (seek_follower all fol fc i m Hu Hc Ha Hi Ena HDm) as (n1 & s & s' & o & Es & Hifl & Hsk & Hom & fc1 & Hc1 & Ha1 & _).
      assert (Hu1 : usable all (set_nth i (Some s') fol)) by (apply usable_set; assumption).
      destruct (opt_eqb o (Some m)) eqn:Eo.
      * apply opt_eqb_eq in Eo. assert (HmF : In m (F i)) by (apply Hom, Eo).
        destruct (i_ask _ _ _ _ _ HR main (Some m) lm RNext Hm I) as (n2 & main1 & Hnx & _ & Hm1). cbn [after ask] in Hnx, Hm1.
        destruct lm as [|m1 lm1]; cbn [hd_error tl] in Hnx, Hm1.
        -- exists (Nat.max n1 n2), main1, (set_nth i (Some s') fol), eq1, None. split; [|split; [exact Hu1|split; [exact Hle1|exists fc1; split; [exact Hc1|split; [exact Hm1|]]]]].
           ++ intros fuel Hf. cbn [subtract_pass]. rewrite He. cbn [bind]. rewrite Eia. cbn [bind negb]. rewrite Es. cbn [bind]. rewrite Hsk by lia. cbn [bind fst snd].
              rewrite Eo. replace (opt_eqb (Some m) (Some m)) with true by (symmetry; apply opt_eqb_eq; reflexivity). rewrite Hnx by lia. reflexivity.
           ++ intros x [<-|[]]. exists i. split; [left; reflexivity|]. auto.
        -- assert (Hlt : (m < m1)%Z) by (cbn in Hinc; apply increasing_cons in Hinc; apply Hinc; left; reflexivity).
           assert (Ha2 : fol_agree all (fun x => (m1 <= x)%Z) fc1) by (intros j Hj Ho x Hx; apply Ha1; [exact Hj|exact Ho|cbn in Hx; lia]).
           destruct (IH main1 _ fc1 eq1 m1 lm1 true Hincl' Hu1 Hc1 Ha2 Hm1 Hle1) as (n3 & mn & fl & eq' & o' & Hrun & Hu' & Hle' & fc' & Hc' & Hpost).
           exists (Nat.max n1 (Nat.max n2 n3)), mn, fl, eq', o'. split.
           { intros fuel Hf. cbn [subtract_pass]. rewrite He. cbn [bind]. rewrite Eia. cbn [bind negb]. rewrite Es. cbn [bind]. rewrite Hsk by lia. cbn [bind fst snd].
             rewrite Eo. replace (opt_eqb (Some m) (Some m)) with true by (symmetry; apply opt_eqb_eq; reflexivity). rewrite Hnx by lia. cbn [bind fst snd]. apply Hrun. lia. }
           split; [exact Hu'|]. split; [exact Hle'|]. exists fc'. split; [exact Hc'|]. destruct o' as [[m' flag']|].
           ++ destruct Hpost as ((lm' & P1 & P2 & P3 & P4 & P5) & P6 & P7 & P8 & P9 & P10). split; [|split; [|split; [lia|split; [exact P8|split]]]].
              ** exists lm'. split; [exact P1|]. split; [|split; [|split; [cbn; lia|]]].
                 --- intros x. rewrite P2. cbn. split; [tauto|]. intros [[<-|Hx] Hx2]; [lia|tauto].
                 --- intros _. right. cbn. lia.
                 --- intros Hf. exfalso. assert (flag' = true); [|congruence]. eapply pass_flag. exact (Hrun n3 (Nat.le_refl _)).
              ** intros x [<-|Hx] Hlt'; [exists i; split; [left; reflexivity|auto]|]. destruct (P6 x Hx Hlt') as (j & Hj & Hj'). exists j. split; [right; exact Hj|exact Hj'].
              ** intros Hf. exfalso. assert (flag' = true); [|congruence]. eapply pass_flag. exact (Hrun n3 (Nat.le_refl _)).
              ** apply Heqs, P10.
           ++ destruct Hpost as [P1 P2]. split; [exact P1|]. intros x [<-|Hx]; [exists i; split; [left; reflexivity|auto]|]. destruct (P2 x Hx) as (j & Hj & Hj'). exists j. split; [right; exact Hj|exact Hj'].
      * assert (HmF : ~ In m (F i)). { intros H. apply Hom in H. rewrite H in Eo. assert (opt_eqb (Some m) (Some m) = true) by (apply opt_eqb_eq; reflexivity). congruence. }
        destruct (IH main _ fc1 eq1 m lm flag Hincl' Hu1 Hc1 Ha1 Hm Hle1) as (n3 & mn & fl & eq' & o' & Hrun & Hu' & Hle' & fc' & Hc' & Hpost).
        exists (Nat.max n1 n3), mn, fl, eq', o'. split.
        { intros fuel Hf. cbn [subtract_pass]. rewrite He. cbn [bind]. rewrite Eia. cbn [bind negb]. rewrite Es. cbn [bind]. rewrite Hsk by lia. cbn [bind fst snd]. rewrite Eo. apply Hrun. lia. }
        split; [exact Hu'|]. split; [exact Hle'|]. exists fc'. split; [exact Hc'|]. destruct o' as [[m' flag']|].
        -- destruct Hpost as (P1 & P6 & P7 & P8 & P9 & P10). split; [exact P1|]. split; [|split; [exact P7|split; [exact P8|split]]].
           ++ intros x Hx Hlt. destruct (P6 x Hx Hlt) as (j & Hj & Hj'). exists j. split; [right; exact Hj|exact Hj'].
           ++ intros Hf. destruct (P9 Hf) as [E Hng]. split; [exact E|]. intros (j & [<-|Hj] & Hj2 & Hj3); [contradiction|]. apply Hng. exists j. auto.
           ++ apply Heqs, P10.
        -- destruct Hpost as [P1 P2]. split; [exact P1|]. intros x Hx. destruct (P2 x Hx) as (j & Hj & Hj'). exists j. split; [right; exact Hj|exact Hj'].
    + destruct (IH main _ fc eq1 m lm flag Hincl' Hu Hc Ha Hm Hle1) as (n3 & mn & fl & eq' & o' & Hrun & Hu' & Hle' & fc' & Hc' & Hpost).
      exists n3, mn, fl, eq', o'. split.
      { intros fuel Hf. cbn [subtract_pass]. rewrite He. cbn [bind]. rewrite Eia. cbn [bind negb]. apply Hrun. lia. }
      split; [exact Hu'|]. split; [exact Hle'|]. exists fc'. split; [exact Hc'|]. destruct o' as [[m' flag']|].
      * destruct Hpost as (P1 & P6 & P7 & P8 & P9 & P10). split; [exact P1|]. split; [|split; [exact P7|split; [exact P8|split]]].
        -- intros x Hx Hlt. destruct (P6 x Hx Hlt) as (j & Hj & Hj'). exists j. split; [right; exact Hj|exact Hj'].
        -- intros Hf. destruct (P9 Hf) as [E Hng]. split; [exact E|]. intros (j & [<-|Hj] & Hj2 & Hj3); [unfold on in Hj2; congruence|]. apply Hng. exists j. auto.
        -- apply Heqs, P10.
      * destruct Hpost as [P1 P2]. split; [exact P1|]. intros x Hx. destruct (P2 x Hx) as (j & Hj & Hj'). exists j. split; [right; exact Hj|exact Hj'].
Qed.

Lemma while_ok : forall all idx, incl idx all -> forall len main fol fc eq m lm, length lm < len ->
  usable all fol -> fol_conform fol fc -> fol_agree all (fun x => (m <= x)%Z) fc -> R main (Some m) lm -> length eq = length active ->
  exists n main' fol' eq' o, (forall fuel, n <= fuel -> subtract_while sc fuel idx active main fol eq m = Ok (main', fol', eq', o)) /\
    usable all fol' /\ length eq' = length active /\ (exists fc', fol_conform fol' fc' /\
    match o with
    | None => R main' None [] /\ (forall x, In x (m :: lm) -> gone idx x)
    | Some v =>
        (exists lm', R main' (Some v) lm' /\ (forall x, In x (v :: lm') <-> In x (m :: lm) /\ (v <= x)%Z)) /\
        (forall x, In x (m :: lm) -> (x < v)%Z -> gone idx x) /\ (m <= v)%Z /\ ~ gone idx v /\
        fol_agree all (fun x => (v <= x)%Z) fc' /\
        (forall j, nth_error eq' j = if in_dec Nat.eq_dec j idx then (match nth_error eq j with Some _ => Some false | None => None end) else nth_error eq j)
    end).
Proof.
  intros all idx Hincl. induction len as [|len IH]; intros main fol fc eq m lm Hl Hu Hc Ha Hm Hle; [lia|].
  destruct (pass_ok all idx main fol fc eq m lm false Hincl Hu Hc Ha Hm Hle) as (n1 & mn & fl & eq1 & o & Hrun & Hu1 & Hle1 & fc1 & Hc1 & Hpost).
  destruct o as [[m' [|]]|].
  - destruct Hpost as ((lm' & P1 & P2 & P3 & P4 & P5) & P6 & P7 & P8 & P9 & P10). destruct (P3 eq_refl) as [?|Hlt]; [discriminate|].
    destruct (IH mn fl fc1 eq1 m' lm' ltac:(lia) Hu1 Hc1 P8 P1 Hle1) as (n2 & mn2 & fl2 & eq2 & o2 & Hrun2 & Hu2 & Hle2 & fc2 & Hc2 & Hpost2).
    exists (S (Nat.max n1 n2)), mn2, fl2, eq2, o2. split.
    { intros fuel Hf. destruct fuel as [|fuel]; [lia|]. cbn [subtract_while]. rewrite Hrun by lia. cbn [bind]. apply Hrun2. lia. }
    split; [exact Hu2|]. split; [exact Hle2|]. exists fc2. split; [exact Hc2|]. destruct o2 as [v|].
    + destruct Hpost2 as ((lm2 & Q1 & Q2) & Q3 & Q4 & Q5 & Q6 & Q7). split; [|split; [|split; [lia|split; [exact Q5|split; [exact Q6|]]]]].
      * exists lm2. split; [exact Q1|]. intros x. rewrite Q2, P2. split; [tauto|]. intros [H1 H2]. split; [split; [exact H1|lia]|exact H2].
      * intros x Hx Hlt2. destruct (Z.lt_ge_cases x m') as [H|H]; [apply P6; assumption|]. apply Q3; [apply P2; auto|exact Hlt2].
      * intros j. rewrite Q7, P10. destruct (in_dec Nat.eq_dec j idx); [destruct (nth_error eq j); reflexivity|reflexivity].
    + destruct Hpost2 as [Q1 Q2]. split; [exact Q1|]. intros x Hx. destruct (Z.lt_ge_cases x m') as [H|H]; [apply P6; assumption|]. apply Q2, P2. auto.
  - destruct Hpost as ((lm' & P1 & P2 & P3 & P4 & P5) & P6 & P7 & P8 & P9 & P10). destruct (P9 eq_refl) as [-> Hng].
    exists (S n1), mn, fl, eq1, (Some m). split.
    { intros fuel Hf. destruct fuel as [|fuel]; [lia|]. cbn [subtract_while]. rewrite Hrun by lia. reflexivity. }
    split; [exact Hu1|]. split; [exact Hle1|]. exists fc1. split; [exact Hc1|]. split; [exists lm'; auto|]. auto 10.
  - exists (S n1), mn, fl, eq1, None. split.
    { intros fuel Hf. destruct fuel as [|fuel]; [lia|]. cbn [subtract_while]. rewrite Hrun by lia. reflexivity. }
    split; [exact Hu1|]. split; [exact Hle1|]. exists fc1. auto.
Qed.

Lemma follow_ok : forall all v, D v -> forall idx fol fc eq, incl idx all ->
  usable all fol -> fol_conform fol fc -> fol_agree all (fun x => (v <= x)%Z) fc -> length eq = length active ->
  exists n fol' eq', (forall fuel, n <= fuel -> follow_loop sc fuel idx active fol eq v = Ok (fol', eq')) /\
    usable all fol' /\ length eq' = length active /\
    (exists fc', fol_conform fol' fc' /\ fol_agree all (fun x => (v <= x)%Z) fc' /\
      (forall j, In v (F j) -> fst (fc j) = Some v -> fst (fc' j) = Some v) /\ (forall j, In j idx -> on j -> In v (F j) -> fst (fc' j) = Some v)) /\
    (forall j, ~ In j idx -> nth_error eq' j = nth_error eq j) /\
    (forall j, In j idx -> (nth_error eq' j = Some true <-> nth_error eq j = Some true /\ (on j -> In v (F j)))).
Proof.
  intros all v HD. induction idx as [|i idx IH]; intros fol fc eq Hincl Hu Hc Ha Hle.
  - exists 0, fol, eq. split; [reflexivity|]. split; [exact Hu|]. split; [exact Hle|]. split; [exists fc; split; [exact Hc|]; split; [exact Ha|]; split; [auto|intros j []]|]. split; [reflexivity|]. intros j [].
  - assert (Hi : In i all) by (apply Hincl; left; reflexivity). destruct (Hu i Hi) as [Hil _].
    assert (Hincl' : incl idx all) by (intros x Hx; apply Hincl; right; exact Hx).
    destruct (index_lt _ active i Hil) as (a & Eia & Ena). destruct a.
    + destruct (seek_follower all fol fc i v Hu Hc Ha Hi Ena HD) as (n1 & s & s' & o & Es & Hifl & Hsk & Hom & fc1 & Hc1 & Ha1 & Hcur & Hoth).
      assert (Hu1 : usable all (set_nth i (Some s') fol)) by (apply usable_set; assumption).
      destruct (opt_eqb o (Some v)) eqn:Eo.
      * apply opt_eqb_eq in Eo. assert (HvF : In v (F i)) by (apply Hom, Eo).
        destruct (IH _ fc1 eq Hincl' Hu1 Hc1 Ha1 Hle) as (n2 & fl & eq' & Hrun & Hu' & Hle' & (fc' & Hfc1 & Hfc2 & Hfc3 & Hfc4) & P1 & P2).
        exists (Nat.max n1 n2), fl, eq'. split.
        { intros fuel Hf. cbn [follow_loop]. rewrite Eia. cbn [bind negb]. rewrite Es. cbn [bind]. rewrite Hsk by lia. cbn [bind fst snd]. rewrite Eo.
          replace (opt_eqb (Some v) (Some v)) with true by (symmetry; apply opt_eqb_eq; reflexivity). apply Hrun. lia. }
        split; [exact Hu'|]. split; [exact Hle'|]. split; [exists fc'; split; [exact Hfc1|]; split; [exact Hfc2|]; split; [intros j Hj Hjc; apply Hfc3; [exact Hj|]; destruct (Nat.eq_dec j i) as [->|Hn]; [rewrite Hcur; apply Hom, Hj|rewrite Hoth by exact Hn; exact Hjc]|intros j [<-|Hj] Hoj Hjv; [apply Hfc3; [exact Hjv|rewrite Hcur; apply Hom, Hjv]|apply Hfc4; assumption]]|]. split.
        -- intros j Hj. apply P1. intros H. apply Hj. right. exact H.
        -- intros j Hj. destruct (in_dec Nat.eq_dec j idx) as [Hj'|Hj']; [apply P2, Hj'|]. destruct Hj as [<-|Hj]; [|contradiction]. rewrite (P1 i Hj'). tauto.
      * assert (HvF : ~ In v (F i)). { intros H. apply Hom in H. rewrite H in Eo. assert (opt_eqb (Some v) (Some v) = true) by (apply opt_eqb_eq; reflexivity). congruence. }
        destruct (index_lt _ eq i) as (e & Ee & _); [lia|].
        destruct (IH _ fc1 (set_nth i false eq) Hincl' Hu1 Hc1 Ha1) as (n2 & fl & eq' & Hrun & Hu' & Hle' & (fc' & Hfc1 & Hfc2 & Hfc3 & Hfc4) & P1 & P2); [rewrite set_nth_length; exact Hle|].
        exists (Nat.max n1 n2), fl, eq'. split.
        { intros fuel Hf. cbn [follow_loop]. rewrite Eia. cbn [bind negb]. rewrite Es. cbn [bind]. rewrite Hsk by lia. cbn [bind fst snd]. rewrite Eo, Ee. cbn [bind]. apply Hrun. lia. }
        split; [exact Hu'|]. split; [exact Hle'|]. split; [exists fc'; split; [exact Hfc1|]; split; [exact Hfc2|]; split; [intros j Hj Hjc; apply Hfc3; [exact Hj|]; destruct (Nat.eq_dec j i) as [->|Hn]; [rewrite Hcur; apply Hom, Hj|rewrite Hoth by exact Hn; exact Hjc]|intros j [<-|Hj] Hoj Hjv; [apply Hfc3; [exact Hjv|rewrite Hcur; apply Hom, Hjv]|apply Hfc4; assumption]]|]. split.
        -- intros j Hj. rewrite P1 by (intros H; apply Hj; right; exact H). apply set_nth_other. intros ->. apply Hj. left. reflexivity.
        -- intros j Hj. destruct (Nat.eq_dec i j) as [<-|Hn].
           ++ assert (E : nth_error (set_nth i false eq) i = Some false) by (apply set_nth_same; lia).
              assert (nth_error eq' i <> Some true).
              { destruct (in_dec Nat.eq_dec i idx) as [Hj'|Hj']; [rewrite (P2 i Hj'), E; intros [? _]; discriminate|rewrite (P1 i Hj'), E; discriminate]. }
              split; [contradiction|]. intros [_ H0]. exfalso. apply HvF, H0, Ena.
           ++ destruct Hj as [Hj|Hj]; [contradiction|]. rewrite (P2 j Hj), set_nth_other by exact Hn. reflexivity.
    + destruct (IH fol fc eq Hincl' Hu Hc Ha Hle) as (n2 & fl & eq' & Hrun & Hu' & Hle' & (fc' & Hfc1 & Hfc2 & Hfc3 & Hfc4) & P1 & P2).
      exists n2, fl, eq'. split; [intros fuel Hf; cbn [follow_loop]; rewrite Eia; cbn [bind negb]; apply Hrun; lia|].
      split; [exact Hu'|]. split; [exact Hle'|]. split; [exists fc'; split; [exact Hfc1|]; split; [exact Hfc2|]; split; [exact Hfc3|intros j [<-|Hj] Hoj Hjv; [unfold on in Hoj; congruence|apply Hfc4; assumption]]|]. split.
      * intros j Hj. apply P1. intros H. apply Hj. right. exact H.
      * intros j Hj. destruct (in_dec Nat.eq_dec j idx) as [Hj'|Hj']; [apply P2, Hj'|]. destruct Hj as [<-|Hj]; [|contradiction]. rewrite (P1 i Hj'). unfold on. rewrite Ena. intuition discriminate.
Qed.

Definition subtract_rel (t : subtract sc) (c : option Z) (l : list Z) : Prop :=
  increasing (ahead c l) /\ t_value _ t = c /\ t_active _ t = active /\
  let all := t_subtract _ t ++ t_follow _ t in
  usable all (t_followers _ t) /\
  exists lm fc, R (t_main _ t) c lm /\ fol_conform (t_followers _ t) fc /\
    (forall x, In x l <-> In x lm /\ ~ gone (t_subtract _ t) x) /\
    match c with
    | Some v => ~ gone (t_subtract _ t) v /\ fol_agree all (fun x => (v <= x)%Z) fc /\
        (forall i, In i (t_follow _ t) -> on i -> In v (F i) -> fst (fc i) = Some v)
    | None => lm = [] \/ fol_agree all (fun _ => True) fc
    end.

Lemma subtract_ask_ok : forall q t c l, subtract_rel t c l -> admissible D q -> exists enough t',
  (forall fuel, enough <= fuel -> ask (subtract_scanner sc) q fuel t = Ok (t', hd_error (after q c l))) /\
  subtract_report F t' (hd_error (after q c l)) /\
  subtract_rel t' (hd_error (after q c l)) (tl (after q c l)).
Proof.
  intros q t c l (Hinc & Hval & Hact & Hu & lm & fc & Hm & Hc & Hset & Hst) Hq.
  set (all := t_subtract _ t ++ t_follow _ t) in *. set (idx := t_subtract _ t) in *.
  destruct (i_ask _ _ _ _ _ HR (t_main _ t) c lm q Hm Hq) as (n1 & main1 & Hask & _ & Hm1).
  pose proof (i_increasing _ _ _ _ _ HR _ _ _ Hm) as Hminc.
  set (rest := after q c lm) in *. set (l' := after q c l).
  assert (Hrinc : increasing rest) by (apply after_increasing, Hminc).
  assert (Hl'inc : increasing l') by (apply after_increasing, Hinc).
  assert (Hmem : forall x, In x l' <-> In x rest /\ ~ gone idx x).
  { intros x. unfold l', rest. destruct q as [|w]; cbn [after]; [apply Hset|]. rewrite !from_In by assumption. destruct c as [v|]; cbn [ahead In].
    - rewrite Hset. destruct Hst as [Hng _]. split; [intros [[<-|H] H2]; tauto|tauto].
    - rewrite Hset. tauto. }
  assert (Hstart : forall fuel, ask (subtract_scanner sc) q fuel t = subtract_finish sc fuel t (ask sc q fuel (t_main _ t))) by (intros fuel; destruct q; reflexivity).
  destruct (hd_error rest) as [m|] eqn:Eh.
  - assert (Hmrest : In m rest) by (apply hd_In, Eh).
    assert (Hmc : match c with Some v => (v <= m)%Z | None => True end).
    { destruct c as [v|]; [|exact I]. apply after_ahead in Hmrest. eapply hd_least; [exact Hminc|reflexivity|exact Hmrest]. }
    assert (Ha : fol_agree all (fun x => (m <= x)%Z) fc).
    { intros i Hi Ho x Hx. destruct c as [v|].
      - destruct Hst as (_ & Hst & _). apply Hst; [exact Hi|exact Ho|]. cbn in Hx. lia.
      - destruct Hst as [E|Hst]; [|apply Hst; auto]. exfalso. unfold rest in Hmrest. rewrite E in Hmrest. destruct q; destruct Hmrest. }
    destruct (while_ok all idx (fun x Hx => in_or_app _ _ _ (or_introl Hx)) (S (length (tl rest))) main1 (t_followers _ t) fc active m (tl rest) ltac:(lia) Hu Hc Ha Hm1 eq_refl)
      as (n2 & mn & fl & eq1 & o & Hrun & Hu1 & Hle1 & fc1 & Hc1 & Hpost).
    assert (Erest : m :: tl rest = rest) by (destruct rest; [discriminate|]; cbn in Eh |- *; congruence).
    destruct o as [v|].
    + destruct Hpost as ((lm1 & P1 & P2) & P3 & P4 & P5 & P6 & P7). rewrite Erest in P2, P3.
      assert (HDv : D v) by (apply (i_domain _ _ _ _ _ HR _ _ _ v P1); left; reflexivity).
      destruct (follow_ok all v HDv (t_follow _ t) fl fc1 eq1 (fun x Hx => in_or_app _ _ _ (or_intror Hx)) Hu1 Hc1 P6 Hle1) as (n3 & fl2 & eq2 & Hrun2 & Hu2 & Hle2 & (fc2 & Hc2 & Ha2 & _ & Hcur2) & Q1 & Q2).
      assert (Hv : In v rest) by (apply (P2 v); left; reflexivity).
      assert (Hh : hd_error l' = Some v).
      { apply hd_is; [exact Hl'inc|apply Hmem; auto|]. intros y Hy. apply Hmem in Hy. destruct Hy as [Hy Hng]. destruct (Z.lt_ge_cases y v) as [Hlt|Hge]; [|exact Hge]. exfalso. apply Hng, P3; assumption. }
      exists (Nat.max n1 (Nat.max n2 n3)), (mk_subtract _ mn fl2 idx (t_follow _ t) eq2 active (Some v)). rewrite Hh. split; [|split].
      * intros fuel Hf. rewrite Hstart. unfold subtract_finish. rewrite Hask by lia. cbn [bind fst snd]. fold idx. rewrite Hact. rewrite Hrun by lia. cbn [bind]. rewrite Hrun2 by lia. reflexivity.
      * cbn [subtract_report t_subtract t_equal t_follow t_active].
        assert (Hsub : forall i, In i idx -> nth_error eq1 i = Some false).
        { intros i Hi. rewrite P7. destruct (in_dec Nat.eq_dec i idx); [|contradiction]. destruct (Hu i ltac:(apply in_or_app; left; exact Hi)) as [Hil _].
          destruct (nth_error active i) eqn:Ei; [reflexivity|apply nth_error_None in Ei; lia]. }
        split.
        -- intros i Hi. destruct (in_dec Nat.eq_dec i (t_follow _ t)) as [Hif|Hif]; [|rewrite (Q1 i Hif); apply Hsub, Hi].
           pose proof (Q2 i Hif) as Hq2. rewrite (Hsub i Hi) in Hq2. destruct (nth_error eq2 i) as [[|]|] eqn:Ei; [|reflexivity|].
           ++ exfalso. destruct Hq2 as [Hq2 _]. destruct (Hq2 eq_refl). discriminate.
           ++ apply nth_error_None in Ei. destruct (Hu i ltac:(apply in_or_app; left; exact Hi)) as [Hil _]. lia.
        -- split; [intros i Hi Hni; rewrite (Q2 i Hi), P7; destruct (in_dec Nat.eq_dec i idx); [contradiction|]; unfold on; tauto|].
           split; [exact Hle2|]. intros i Hni Hnf. rewrite (Q1 i Hnf), P7. destruct (in_dec Nat.eq_dec i idx); [contradiction|reflexivity].
      * split; [rewrite <- Hh, ahead_split; exact Hl'inc|]. split; [reflexivity|]. split; [reflexivity|]. cbn [t_subtract t_follow t_followers t_main]. fold all. split; [exact Hu2|].
        exists lm1, fc2. split; [exact P1|]. split; [exact Hc2|]. split; [|split; [exact P5|split; [exact Ha2|exact Hcur2]]].
        intros x. rewrite (tl_In l' v x Hl'inc Hh), Hmem. pose proof (i_increasing _ _ _ _ _ HR _ _ _ P1) as Hi1. cbn in Hi1. apply increasing_cons in Hi1. destruct Hi1 as [_ Hi1].
        split.
        -- intros [[Hx Hng] Hlt]. split; [|exact Hng]. assert (Hx2 : In x (v :: lm1)) by (apply P2; split; [exact Hx|lia]). destruct Hx2 as [->|Hx2]; [lia|exact Hx2].
        -- intros [Hx Hng]. assert (Hx2 : In x rest) by (apply (P2 x); right; exact Hx). split; [auto|apply Hi1, Hx].
    + destruct Hpost as [P1 P2]. rewrite Erest in P2.
      assert (El : l' = []). { destruct l' as [|y l0] eqn:El; [reflexivity|]. exfalso. destruct (proj1 (Hmem y) (or_introl eq_refl)) as [Hy Hng]. apply Hng, P2, Hy. }
      exists (Nat.max n1 n2), (mk_subtract _ mn fl idx (t_follow _ t) eq1 active None). rewrite El. cbn [hd_error tl]. split; [|split; [exact I|]].
      * intros fuel Hf. rewrite Hstart. unfold subtract_finish. rewrite Hask by lia. cbn [bind fst snd]. fold idx. rewrite Hact. rewrite Hrun by lia. reflexivity.
      * split; [apply increasing_nil|]. split; [reflexivity|]. split; [reflexivity|]. cbn [t_subtract t_follow t_followers t_main]. fold all. split; [exact Hu1|].
        exists [], fc1. split; [exact P1|]. split; [exact Hc1|]. split; [|left; reflexivity]. intros x. cbn. tauto.
  - assert (Er : rest = []) by (apply hd_none, Eh).
    assert (El : l' = []). { destruct l' as [|y l0] eqn:El; [reflexivity|]. exfalso. destruct (proj1 (Hmem y) (or_introl eq_refl)) as [Hy Hng]. rewrite Er in Hy. exact Hy. }
    exists n1, (mk_subtract _ main1 (t_followers _ t) idx (t_follow _ t) (t_equal _ t) active None). rewrite El. cbn [hd_error tl]. split; [|split; [exact I|]].
    + intros fuel Hf. rewrite Hstart. unfold subtract_finish. rewrite Hask by lia. cbn [bind fst snd]. rewrite Hact. reflexivity.
    + split; [apply increasing_nil|]. split; [reflexivity|]. split; [reflexivity|]. cbn [t_subtract t_follow t_followers t_main]. fold all. split; [exact Hu|].
      exists [], fc. rewrite Er in Hm1. split; [exact Hm1|]. split; [exact Hc|]. split; [|left; reflexivity]. intros x. cbn. tauto.
Qed.

Lemma subtract_implements : implements D (subtract_scanner sc) true (subtract_report F) subtract_rel.
Proof.
  constructor.
  - intros t c l H. apply H.
  - intros t c l x (Hinc & Hval & Hact & Hu & lm & fc & Hm & Hc & Hset & Hst) Hx. apply (i_domain _ _ _ _ _ HR _ _ _ x Hm).
    destruct c as [v|]; cbn in Hx |- *; [destruct Hx as [->|Hx]; [left; reflexivity|right]|]; apply Hset, Hx.
  - intros t c l (_ & Hval & _) _. cbn. rewrite Hval. reflexivity.
  - intros t c l q Ht Hq. apply subtract_ask_ok; assumption.
Qed.

Lemma subtract_initial : forall main followers sub follow lm l,
  (forall i, In i (sub ++ follow) -> i < length active /\ (on i -> exists s, nth_error followers i = Some (Some s))) ->
  R main None lm -> (forall i s, on i -> nth_error followers i = Some (Some s) -> R s None (F i)) ->
  increasing l -> (forall x, In x l <-> In x lm /\ ~ gone sub x) ->
  subtract_rel (subtract_new sc main followers sub follow active) None l.
Proof.
  intros main followers sub follow lm l Hu Hm Hf Hinc Hset. unfold subtract_rel, subtract_new. cbn [t_value t_active t_subtract t_follow t_followers t_main ahead].
  split; [exact Hinc|]. split; [reflexivity|]. split; [reflexivity|]. split; [exact Hu|]. exists lm, (fun i => (None, F i)). split; [exact Hm|]. split; [|split; [exact Hset|]].
  - intros i s Ho Hi. cbn. apply Hf; assumption.
  - right. intros i Hi Ho x _. cbn. tauto.
Qed.
End Subtract.
