(* Aggregation over a cursor. *)
From Coq Require Import List ZArith Bool Lia Arith Sorted.
From Verif Require Import ColumnModel ScanModel TrieModel TrieSpec TrieProofs1 TrieProofs3 TrieProofs12 AggModel AggSpec AggProofs2 AggProofs3.
Import ListNotations.
Local Open Scope nat_scope.

Lemma differs_at : forall (x y : row) u, length x = length y -> u < length x -> differs x y = u -> firstn u x = firstn u y /\ firstn (S u) x <> firstn (S u) y.
Proof.
  intros x y u Hl Hu E. split; [apply differs_prefix; lia|]. intros H. apply differs_prefix in H; lia.
Qed.
Lemma nth_error_at : forall (x : row) k, k < length x -> nth_error x k = Some (nth k x (Id32, 0%Z)).
Proof. intros x k H. apply nth_error_nth', H. Qed.

Section Agg.
Variable F : floats.
Variable n : nat.
Variable sc : fullscan.
Variable Q : fstate sc -> option row -> list row -> Prop.
Hypothesis HQ : enumerates n sc Q.
Variable i : instructions.
Notation g := (in_groups i).
Notation A := (in_column i).
Notation m := (S (in_last i)).
Hypothesis HgA : in_groups i <= in_column i.
Hypothesis HAm : in_column i <= in_last i.
Hypothesis Hmn : in_last i < n.
Notation col := (fun r : row => nth A r (Id32, 0%Z)).
Notation table := (table n).

Lemma loop_ok : forall x l reps left, visit m g x l reps left -> table (x :: l) -> forall s p p', Q s (Some x) l -> writes F p (map col reps) = Ok p' ->
  exists en s' u, (forall fuel, en <= fuel -> agg_loop F sc fuel i s p = Ok (s', p', u)) /\
    match left with None => u = None /\ Q s' None [] | Some (y, l') => u = Some (differs x y) /\ differs x y < g /\ Q s' (Some y) l' end.
Proof.
  assert (Hstep : forall x l s p p', table (x :: l) -> Q s (Some x) l -> processor_write F p (col x) = Ok p' ->
    exists en s', Q s' (hd_error (skip_like m x l)) (tl (skip_like m x l)) /\ forall fuel, en <= fuel -> agg_loop F sc (S fuel) i s p =
      match changed (Some x) (skip_like m x l) with
      | Some u => if u <? g then Ok (s', p', Some u) else agg_loop F sc fuel i s' p'
      | None => Ok (s', p', None)
      end).
  { intros x l s p p' T Hs Hp. pose proof (proj2 T x (or_introl eq_refl)) as Lx.
    destruct (q_value _ _ _ HQ s x l A (col x) Hs) as (e1 & E1); [apply nth_error_at; unfold row in *; lia|].
    destruct (q_advance _ _ _ HQ s (Some x) l (in_last i) Hs Hmn) as (e2 & s' & E2 & Hs'). cbn [next_rows] in E2, Hs'.
    exists (e1 + e2), s'. split; [exact Hs'|]. intros fuel Hf. cbn [agg_loop]. rewrite E1 by lia. cbn [bind fst snd]. rewrite Hp. cbn [bind]. rewrite E2 by lia. reflexivity. }
  induction 1 as [x l E|x l y l' E Hd|x l y l' reps left E Hd Hv IH]; intros T s p p' Hs Hw; cbn [map writes] in Hw;
    destruct (processor_write F p (col x)) as [p1| |] eqn:Ep; cbn [bind] in Hw; try discriminate; destruct (Hstep x l s p p1 T Hs Ep) as (en & s' & Hs' & El); rewrite E in *; cbn [hd_error tl changed] in *.
  - injection Hw as <-. exists (S en), s', None. split; [|auto]. intros [|fuel] Hf; [lia|]. apply El. lia.
  - injection Hw as <-. exists (S en), s', (Some (differs x y)). split; [|auto]. intros [|fuel] Hf; [lia|]. rewrite El by lia. apply Nat.ltb_lt in Hd. rewrite Hd. reflexivity.
  - destruct (skip_like_spec n m g Hmn ltac:(lia) m x l Hmn T) as (_ & _ & _ & _ & T'). rewrite E in T'.
    destruct (IH T' s' p1 p' Hs' Hw) as (en2 & s2 & u & E2 & Hleft). exists (S (en + en2)), s2, u. split.
    + intros [|fuel] Hf; [lia|]. rewrite El by lia. destruct (Nat.ltb_spec (differs x y) g); [lia|]. apply E2. lia.
    + destruct left as [[z l'']|]; [|exact Hleft]. destruct Hleft as (-> & H1 & H2).
      pose proof (proj2 T x (or_introl eq_refl)) as Lx. pose proof (proj2 T' y (or_introl eq_refl)) as Ly.
      assert (Lz : length z = n).
      { destruct (visit_spec n m g Hmn ltac:(lia) y l' reps _ Hv T') as (pre & Epre & Tl & _). apply (proj2 Tl z). left. reflexivity. }
      assert (Exy : firstn g x = firstn g y) by (apply differs_prefix; unfold row in *; lia).
      destruct (differs_at y z (differs y z)) as [D1 D2]; [unfold row in *; lia|unfold row in *; lia|reflexivity|].
      assert (Eu : differs x z = differs y z).
      { assert (Hp : forall u, u <= g -> firstn u x = firstn u y) by (intros u Hu; rewrite <- (firstn_firstn_le g u x Hu), <- (firstn_firstn_le g u y Hu), Exy; reflexivity).
        apply differs_unique; [unfold row in *; lia|rewrite Hp by lia; exact D1|rewrite Hp by lia; exact D2]. }
      rewrite Eu. auto.
Qed.

Lemma read_values_ok : forall ks s x l, Q s (Some x) l -> (forall k, In k ks -> k < length x) ->
  exists en, forall fuel, en <= fuel -> read_values sc fuel ks s = Ok (s, map (fun k => nth k x (Id32, 0%Z)) ks).
Proof.
  induction ks as [|k ks IH]; intros s x l Hs Hk; [exists 0; reflexivity|]. destruct (IH s x l Hs) as (en & E); [intros j Hj; apply Hk; right; exact Hj|].
  destruct (q_value _ _ _ HQ s x l k _ Hs (nth_error_at x k (Hk k (or_introl eq_refl)))) as (e1 & E1). exists (en + e1). intros fuel Hf. cbn [read_values map].
  rewrite E1 by lia. cbn [bind fst snd]. rewrite E by lia. reflexivity.
Qed.
Lemma map_nth_seq : forall (x : row) c k, c + k <= length x -> map (fun j => nth j x (Id32, 0%Z)) (seq c k) = firstn k (skipn c x).
Proof.
  intros x c k. revert c. induction k as [|k IH]; intros c H; [reflexivity|]. cbn [seq map]. rewrite IH by lia.
  rewrite (skipn_nth _ c x (Id32, 0%Z)) by lia. reflexivity.
Qed.

Notation as_ := (agg_scan F sc).
(* reading a row of groups *)
Lemma read_groups : forall ks s x l, Q s (Some x) l -> (forall k, In k ks -> k < g /\ k < length x) ->
  exists en, forall fuel tail, en <= fuel -> read_row as_ fuel (ks ++ tail) (mk_tagg sc s i NotYet None) =
    bind (read_row as_ fuel tail (mk_tagg sc s i NotYet None)) (fun r => Ok (fst r, map (fun k => nth k x (Id32, 0%Z)) ks ++ snd r)).
Proof.
  induction ks as [|k ks IH]; intros s x l Hs Hk.
  - exists 0. intros fuel tail _. cbn [app map]. destruct (read_row as_ fuel tail _) as [[a r]| |]; reflexivity.
  - destruct (IH s x l Hs) as (en & E); [intros j Hj; apply Hk; right; exact Hj|]. destruct (Hk k (or_introl eq_refl)) as [H1 H2].
    destruct (q_value _ _ _ HQ s x l k _ Hs (nth_error_at x k H2)) as (e1 & E1). exists (en + e1). intros fuel tail Hf. cbn [app read_row]. cbn [fu_value agg_scan].
    unfold agg_value at 1. cbn [ag_instr ag_value ag_peeked ag_input]. apply Nat.ltb_lt in H1. rewrite H1. cbn [negb]. rewrite E1 by lia. cbn [bind fst snd].
    rewrite E by lia. destruct (read_row as_ fuel tail _) as [[a r]| |]; reflexivity.
Qed.

(* the value of a group *)
Lemma value_ok : forall x l reps left s p v, visit m g x l reps left -> table (x :: l) -> Q s (Some x) l ->
  writes F (processor_new (in_op i)) (map col reps) = Ok p -> processor_finish F p = Ok (Some v) ->
  exists en s' u vs, (forall fuel, en <= fuel -> agg_value F sc fuel g (mk_tagg sc s i NotYet None) = Ok (mk_tagg sc s' i (Computed v) (Some (u, vs)), v)) /\
    match left with None => u = None /\ Q s' None [] | Some (y, l') => u = Some (differs x y) /\ differs x y < g /\ Q s' (Some y) l' end.
Proof.
  intros x l reps left s p v Hv T Hs Hw Hf. pose proof (proj2 T x (or_introl eq_refl)) as Lx.
  destruct (read_values_ok (seq 0 g) s x l Hs) as (e1 & E1). { intros k Hk. apply in_seq in Hk. unfold row in *. lia. }
  destruct (loop_ok x l reps left Hv T s _ p Hs Hw) as (e2 & s' & u & E2 & Hl). exists (e1 + e2), s', u. eexists. split; [|exact Hl].
  intros fuel Hfu. unfold agg_value. cbn [ag_instr ag_value ag_input]. rewrite Nat.ltb_irrefl. cbn [negb]. rewrite E1 by lia. cbn [bind fst snd]. rewrite E2 by lia. cbn [bind fst snd]. rewrite Hf. reflexivity.
Qed.

Definition value_of (q : row * list row) (v : value) : Prop :=
  exists p, writes F (processor_new (in_op i)) (map col (snd q)) = Ok p /\ processor_finish F p = Ok (Some v).

Lemma collect_ok : forall x l gs, groups m g x l gs -> table (x :: l) -> forall vs, Forall2 value_of gs vs ->
  forall prev a s c, Q s (Some x) l -> c <= g -> firstn c prev = firstn c x ->
  (exists en, forall fuel, en <= fuel -> agg_advance sc fuel g a = Ok (mk_tagg sc s i NotYet None, Some c)) ->
  exists en out, (forall fuel, en <= fuel -> full_collect as_ fuel (S g) prev a = Ok out) /\
    map fst out = map (fun q => fst (fst q) ++ [snd q]) (combine gs vs) /\ hd_error (map snd out) = Some c /\
    forall prev0, match prev0 with None => True | Some p0 => c < g /\ firstn c x = firstn c p0 /\ firstn (S c) x <> firstn (S c) p0 end -> linked prev0 out.
Proof.
  assert (Hrow : forall x l reps left v, visit m g x l reps left -> table (x :: l) -> value_of (firstn g x, reps) v ->
    forall prev a s c, Q s (Some x) l -> c <= g -> firstn c prev = firstn c x ->
    (exists en, forall fuel, en <= fuel -> agg_advance sc fuel g a = Ok (mk_tagg sc s i NotYet None, Some c)) ->
    exists en s' u vs, (forall fuel, en <= fuel -> full_collect as_ (S fuel) (S g) prev a =
        bind (full_collect as_ fuel (S g) (firstn g x ++ [v]) (mk_tagg sc s' i (Computed v) (Some (u, vs)))) (fun l => Ok ((firstn g x ++ [v], c) :: l))) /\
      match left with None => u = None /\ Q s' None [] | Some (y, l') => u = Some (differs x y) /\ differs x y < g /\ Q s' (Some y) l' end).
  { intros x l reps left v Hv T (p & Hw & Hf) prev a s c Hs Hc Hp (e0 & E0). pose proof (proj2 T x (or_introl eq_refl)) as Lx.
    destruct (value_ok x l reps left s p v Hv T Hs Hw Hf) as (e1 & s' & u & vs & E1 & Hl).
    destruct (read_groups (seq c (g - c)) s x l Hs) as (e2 & E2). { intros k Hk. apply in_seq in Hk. unfold row in *. lia. }
    exists (e0 + e1 + e2), s', u, vs. split; [|exact Hl]. intros fuel Hfu. cbn [full_collect]. cbn [fu_advance agg_scan]. replace (S g - 1) with g by lia.
    rewrite E0 by lia. cbn [bind fst snd]. replace (S g - c) with (g - c + 1) by lia. rewrite seq_app. replace (c + (g - c)) with g by lia. cbn [seq].
    rewrite E2 by lia. cbn [read_row]. cbn [fu_value agg_scan]. rewrite E1 by lia. cbn [bind fst snd].
    assert (Er : firstn c prev ++ map (fun k => nth k x (Id32, 0%Z)) (seq c (g - c)) ++ [v] = firstn g x ++ [v]).
    { rewrite app_assoc. f_equal. rewrite Hp, map_nth_seq by (unfold row in *; lia). rewrite <- (firstn_skipn c (firstn g x)). rewrite firstn_firstn_le by exact Hc. apply (f_equal (app (firstn c x))). symmetry. apply skipn_firstn_comm. }
    rewrite Er. reflexivity. }
  assert (Hlk : forall x l (v : value) c (prev0 : option row), table (x :: l) -> c <= g -> match prev0 with None => True | Some p0 => c < g /\ firstn c x = firstn c p0 /\ firstn (S c) x <> firstn (S c) p0 end ->
    match prev0 with None => True | Some p0 => c < length (firstn g x ++ [v]) /\ firstn c (firstn g x ++ [v]) = firstn c p0 /\ firstn (S c) (firstn g x ++ [v]) <> firstn (S c) p0 end).
  { intros x l v c prev0 T Hc H. destruct prev0 as [p0|]; [|exact I]. destruct H as (H1 & H2 & H3). pose proof (proj2 T x (or_introl eq_refl)) as Lx.
    assert (Lg : length (firstn g x) = g) by (apply firstn_length_le; unfold row in *; lia). rewrite app_length, Lg. cbn [length]. split; [lia|].
    assert (Hpre : forall k, k <= g -> firstn k (firstn g x ++ [v]) = firstn k x).
    { intros k Hk. rewrite firstn_app, Lg. replace (k - g) with 0 by lia. cbn [firstn]. rewrite app_nil_r. apply firstn_firstn_le, Hk. }
    rewrite !Hpre by lia. auto. }
  induction 1 as [x l reps Hv|x l reps y l' gs Hv Hg IH]; intros T vs HV prev a s c Hs Hc Hp Ha; inversion HV as [|? v ? vs' Hv1 HV']; subst;
    destruct (Hrow _ _ _ _ v Hv T Hv1 prev a s c Hs Hc Hp Ha) as (en & s' & u & ws & E & Hl).
  - inversion HV'; subst. destruct Hl as [-> Hs']. destruct (q_advance _ _ _ HQ s' None [] A Hs' ltac:(lia)) as (e2 & s2 & E2 & _). cbn [next_rows changed] in E2.
    exists (S (S (en + e2))), [(firstn g x ++ [v], c)]. split; [|split; [reflexivity|split; [reflexivity|]]].
    + intros [|[|fuel]] Hf; [lia|lia|]. rewrite E by lia. cbn [full_collect]. cbn [fu_advance agg_scan]. replace (S g - 1) with g by lia.
      unfold agg_advance. cbn [ag_instr ag_peeked ag_input bind]. rewrite Nat.ltb_irrefl. rewrite E2 by lia. reflexivity.
    + intros prev0 H0. cbn [linked]. split; [exact (Hlk x l v c prev0 T Hc H0)|exact I].
  - destruct Hl as (-> & Hd & Hs'). destruct (visit_spec n m g Hmn ltac:(lia) x l reps _ Hv T) as (pre & Epre & Tl & _). cbn [left_rows] in Epre, Tl.
    pose proof (proj2 T x (or_introl eq_refl)) as Lx. pose proof (proj2 Tl y (or_introl eq_refl)) as Ly.
    destruct (differs_at x y (differs x y)) as [D1 D2]; [unfold row in *; lia|unfold row in *; lia|reflexivity|].
    assert (Lg : length (firstn g x) = g) by (apply firstn_length_le; unfold row in *; lia).
    assert (Hpre : forall k, k <= g -> firstn k (firstn g x ++ [v]) = firstn k x).
    { intros k Hk. rewrite firstn_app, Lg. replace (k - g) with 0 by lia. cbn [firstn]. rewrite app_nil_r. apply firstn_firstn_le, Hk. }
    destruct (IH Tl vs' HV' (firstn g x ++ [v]) (mk_tagg sc s' i (Computed v) (Some (Some (differs x y), ws))) s' (differs x y) Hs' ltac:(lia)) as (e2 & out & E2 & H1 & H2 & H3).
    + rewrite Hpre by lia. exact D1.
    + exists 0. intros fuel _. unfold agg_advance. cbn [ag_instr ag_peeked ag_input]. destruct (Nat.leb_spec (differs x y) g); [|lia]. reflexivity.
    + exists (S (en + e2)), ((firstn g x ++ [v], c) :: out). split; [|split; [cbn [map combine fst snd]; rewrite H1; reflexivity|split; [reflexivity|]]].
      * intros [|fuel] Hf; [lia|]. rewrite E by lia. rewrite E2 by lia. reflexivity.
      * intros prev0 H0. cbn [linked]. split; [exact (Hlk x l v c prev0 T Hc H0)|]. apply H3. split; [exact Hd|]. rewrite !Hpre by lia. split; [symmetry; exact D1|exact (not_eq_sym D2)].
Qed.

(* without the value: the first k of the group columns *)
Lemma prefix_ok : forall k x l gs, 0 < k -> k <= g -> groups k k x l gs -> table (x :: l) -> 
  forall prev a s c, Q s (Some x) l -> c < k -> firstn c prev = firstn c x ->
  (exists en, forall fuel, en <= fuel -> agg_advance sc fuel (k - 1) a = Ok (mk_tagg sc s i NotYet None, Some c)) ->
  exists en out, (forall fuel, en <= fuel -> full_collect as_ fuel k prev a = Ok out) /\
    map fst out = map fst gs /\ hd_error (map snd out) = Some c /\
    forall prev0, match prev0 with None => True | Some p0 => firstn c x = firstn c p0 /\ firstn (S c) x <> firstn (S c) p0 end -> linked prev0 out.
Proof.
  intros k x l gs Hk Hkg. 
  assert (Hrow : forall x l, table (x :: l) -> forall prev a s c, Q s (Some x) l -> c < k -> firstn c prev = firstn c x ->
    (exists en, forall fuel, en <= fuel -> agg_advance sc fuel (k - 1) a = Ok (mk_tagg sc s i NotYet None, Some c)) ->
    exists en, forall fuel, en <= fuel -> full_collect as_ (S fuel) k prev a =
        bind (full_collect as_ fuel k (firstn k x) (mk_tagg sc s i NotYet None)) (fun l => Ok ((firstn k x, c) :: l))).
  { clear x l gs. intros x l T prev a s c Hs Hc Hp (e0 & E0). pose proof (proj2 T x (or_introl eq_refl)) as Lx.
    destruct (read_groups (seq c (k - c)) s x l Hs) as (e2 & E2). { intros j Hj. apply in_seq in Hj. unfold row in *. lia. }
    exists (e0 + e2). intros fuel Hfu. cbn [full_collect]. cbn [fu_advance agg_scan]. 
    rewrite E0 by lia. cbn [bind fst snd]. replace (seq c (k - c)) with (seq c (k - c) ++ []) by apply app_nil_r. rewrite E2 by lia. cbn [read_row bind fst snd]. rewrite app_nil_r.
    assert (Er : firstn c prev ++ map (fun k => nth k x (Id32, 0%Z)) (seq c (k - c)) = firstn k x).
    { rewrite Hp, map_nth_seq by (unfold row in *; lia). rewrite <- (firstn_skipn c (firstn k x)). rewrite firstn_firstn_le by lia. apply (f_equal (app (firstn c x))). symmetry. apply skipn_firstn_comm. }
    rewrite Er. reflexivity. }
  assert (Hlk : forall x l c (prev0 : option row), table (x :: l) -> c < k -> match prev0 with None => True | Some p0 => firstn c x = firstn c p0 /\ firstn (S c) x <> firstn (S c) p0 end ->
    match prev0 with None => True | Some p0 => c < length (firstn k x) /\ firstn c (firstn k x) = firstn c p0 /\ firstn (S c) (firstn k x) <> firstn (S c) p0 end).
  { clear x l gs. intros x l c prev0 T Hc H. destruct prev0 as [p0|]; [|exact I]. pose proof (proj2 T x (or_introl eq_refl)) as Lx.
    assert (Lg : length (firstn k x) = k) by (apply firstn_length_le; unfold row in *; lia). rewrite Lg, !firstn_firstn_le by lia. auto. }
  assert (Hskip : forall x l reps left, visit k k x l reps left -> table (x :: l) -> skip_like k x l = left_rows left).
  { clear x l gs. intros x l reps left Hv T. destruct Hv as [x l E|x l y l' E Hd|x l y l' reps left E Hd Hv]; try exact E. exfalso.
    destruct (skip_like_spec n k k ltac:(lia) (le_n k) k x l ltac:(lia) T) as (_ & _ & _ & H2 & T'). rewrite E in *. pose proof (proj2 T x (or_introl eq_refl)) as Lx. pose proof (proj2 T' y (or_introl eq_refl)) as Ly.
    specialize (H2 y (or_introl eq_refl)). apply differs_prefix in Hd; [|unfold row in *; lia|unfold row in *; lia]. rewrite Hd in H2. exact (row_lt_irrefl _ H2). }
  induction 1 as [x l reps Hv|x l reps y l' gs Hv Hg IH]; intros T prev a s c Hs Hc Hp Ha; destruct (Hrow x l T prev a s c Hs Hc Hp Ha) as (en & E);
    destruct (q_advance _ _ _ HQ s (Some x) l (k - 1) Hs ltac:(lia)) as (e2 & s2 & E2 & Hs2); cbn [next_rows] in E2, Hs2; replace (S (k - 1)) with k in E2, Hs2 by lia; rewrite (Hskip _ _ _ _ Hv T) in E2, Hs2; cbn [left_rows changed hd_error tl] in E2, Hs2.
  - exists (S (S (en + e2))), [(firstn k x, c)]. split; [|split; [reflexivity|split; [reflexivity|]]].
    + intros [|[|fuel]] Hf; [lia|lia|]. rewrite E by lia. cbn [full_collect]. cbn [fu_advance agg_scan].
      unfold agg_advance. cbn [ag_instr ag_peeked ag_input bind]. destruct (Nat.ltb_spec (k - 1) g); [|lia]. rewrite E2 by lia. reflexivity.
    + intros prev0 H0. cbn [linked]. split; [exact (Hlk x l c prev0 T Hc H0)|exact I].
  - destruct (visit_spec n k k ltac:(lia) ltac:(lia) x l reps _ Hv T) as (pre & Epre & Tl & _ & _ & _ & _ & R4). cbn [left_rows] in Epre, Tl, R4.
    pose proof (proj2 T x (or_introl eq_refl)) as Lx. pose proof (proj2 Tl y (or_introl eq_refl)) as Ly.
    assert (Hd : differs x y < k).
    { destruct (Nat.lt_ge_cases (differs x y) k) as [H|H]; [exact H|]. exfalso. apply differs_prefix in H; [|unfold row in *; lia|unfold row in *; lia].
      specialize (R4 y (or_introl eq_refl)). rewrite H in R4. exact (row_lt_irrefl _ R4). }
    destruct (differs_at x y (differs x y)) as [D1 D2]; [unfold row in *; lia|unfold row in *; lia|reflexivity|].
    destruct (IH Tl (firstn k x) (mk_tagg sc s i NotYet None) s2 (differs x y) Hs2 Hd) as (e3 & out & E3 & H1 & H2 & H3).
    + rewrite firstn_firstn_le by lia. exact D1.
    + exists e2. intros fuel Hf. unfold agg_advance. cbn [ag_instr ag_peeked ag_input]. destruct (Nat.ltb_spec (k - 1) g); [|lia]. rewrite E2 by lia. cbn [bind fst snd option_map].
      destruct (Nat.ltb_spec (differs x y) g); [|lia]. reflexivity.
    + exists (S (en + e3)), ((firstn k x, c) :: out). split; [|split; [cbn [map fst]; rewrite H1; reflexivity|split; [reflexivity|]]].
      * intros [|fuel] Hf; [lia|]. rewrite E by lia. rewrite E3 by lia. reflexivity.
      * intros prev0 H0. cbn [linked]. split; [exact (Hlk x l c prev0 T Hc H0)|]. apply H3. rewrite !firstn_firstn_le by lia. split; [symmetry; exact D1|exact (not_eq_sym D2)].
Qed.
End Agg.
