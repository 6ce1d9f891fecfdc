(* Evaluation of operation trees. *)
From Coq Require Import List ZArith Bool Lia Arith Permutation Sorted.
From Verif Require Import ColumnModel ColumnSpec ScanModel ScanSpec TrieModel TrieSpec TrieScanSpec TrieProofs8 TrieProofs9 TrieProofs12 TrieProofs13 TrieProofs14 OpModel OpSpec OpProofs1 OpProofs2 OpProofs3 OpProofs4 OpProofs5 OpProofs6 OpProofs7 OpProofs8 ProjModel ProjSpec.
Import ListNotations.
Local Open Scope nat_scope.

Lemma subsequence_incl : forall xs ys, subsequence xs ys -> incl xs ys.
Proof. induction 1; intros x Hx; [destruct Hx|right; auto|]. destruct Hx as [<-|Hx]; [left; reflexivity|right; auto]. Qed.
Lemma subsequence_NoDup : forall xs ys, subsequence xs ys -> NoDup ys -> NoDup xs.
Proof.
  induction 1 as [|xs y ys H IH|xs y ys H IH]; intros Hn; [constructor| |]; apply NoDup_cons_iff in Hn; destruct Hn as [Hy Hn]; [auto|].
  constructor; [|auto]. intros Hx. apply Hy, (subsequence_incl _ _ H), Hx.
Qed.
Lemma position_In : forall x l, In x l -> exists p, position_of x l = Some p.
Proof.
  induction l as [|y l IH]; intros H; [destruct H|]. cbn [position_of]. destruct (Nat.eqb_spec x y) as [->|N]; [eauto|]. destruct H as [->|H]; [congruence|].
  destruct (IH H) as [p ->]. cbn. eauto.
Qed.
Lemma ordered_subsequence : forall ms out, subsequence ms out -> NoDup out -> ordered_in out ms = true.
Proof.
  induction 1 as [ys|xs y ys H IH|xs y ys H IH]; intros Hn; [reflexivity| |]; apply NoDup_cons_iff in Hn; destruct Hn as [Hy Hn]; specialize (IH Hn).
  - rewrite ordered_shift; [exact IH|]. intros Hx. apply Hy, (subsequence_incl _ _ H), Hx.
  - destruct xs as [|z xs]; [reflexivity|]. rewrite ordered_cons2. cbn [position_of]. rewrite Nat.eqb_refl.
    assert (Hz : In z ys) by (apply (subsequence_incl _ _ H); left; reflexivity). destruct (Nat.eqb_spec z y) as [->|N]; [contradiction|].
    destruct (position_In z ys Hz) as [p ->]. cbn [option_map]. rewrite ordered_shift; [exact IH|]. intros Hx. apply Hy, (subsequence_incl _ _ H), Hx.
Qed.
Lemma bindings_exist : forall inputs output seen, NoDup output -> (forall x, In x output -> ~ In x seen) ->
  (forall x, In x output -> exists ms, In ms inputs /\ In x ms) -> exists bs, bindings_of inputs seen output = Ok bs.
Proof.
  intros inputs. induction output as [|x output IH]; intros seen Hn Hs Hx; cbn [bindings_of]; [eauto|].
  apply NoDup_cons_iff in Hn. destruct Hn as [Hnx Hn]. destruct (existsb (Nat.eqb x) seen) eqn:Ee.
  { apply existsb_exists in Ee. destruct Ee as (y & Hy & E). apply Nat.eqb_eq in E. subst y. exfalso. apply (Hs x); [left; reflexivity|exact Hy]. }
  destruct (Hx x (or_introl eq_refl)) as (ms & Hms & Hin). destruct (In_nth_error _ _ Hms) as [i Hi]. destruct (In_nth_error _ _ Hin) as [c Hc].
  assert (H : In (i, c) (binding_of inputs x)) by (apply binding_In; exists ms; auto).
  destruct (binding_of inputs x) as [|b l] eqn:Eb; [destruct H|]. destruct (IH (x :: seen) Hn) as [bs ->]; [|intros y Hy; apply Hx; right; exact Hy|cbn; eauto].
  intros y Hy [->|Hy']; [contradiction|]. apply (Hs y); [right; exact Hy|exact Hy'].
Qed.
Lemma join_bindings_exist : forall output inputs, NoDup output -> (forall ms, In ms inputs -> subsequence ms output) ->
  (forall x, In x output -> exists ms, In ms inputs /\ In x ms) -> exists bs, join_bindings output inputs = Ok bs.
Proof.
  intros output inputs Hn Hs Hx. unfold join_bindings. assert (H : forallb (ordered_in output) inputs = true).
  { apply forallb_forall. intros ms Hms. apply ordered_subsequence; auto. }
  rewrite H. cbn [negb]. apply bindings_exist; auto.
Qed.
Lemma sorted_le_S : forall l, sorted_le (map S l) = sorted_le l.
Proof. induction l as [|x [|y l] IH]; [reflexivity|reflexivity|]. cbn [map sorted_le] in *. rewrite IH. reflexivity. Qed.
Lemma layer_map_exists : forall ms out, subsequence ms out -> NoDup out -> exists mp, layer_map out ms = Ok mp.
Proof.
  intros ms out H Hn. assert (G : exists mp, map_res (fun x => match position_of x out with Some p => Ok p | None => Panicked end) ms = Ok mp /\ sorted_le mp = true).
  2:{ destruct G as (mp & E & Es). exists mp. unfold layer_map. rewrite E. cbn [bind]. rewrite Es. reflexivity. }
  assert (Sh : forall y ys xs mp, ~ In y xs -> map_res (fun x => match position_of x ys with Some p => Ok p | None => Panicked end) xs = Ok mp ->
    map_res (fun x => match position_of x (y :: ys) with Some p => Ok p | None => Panicked end) xs = Ok (map S mp)).
  { intros y ys. induction xs as [|x xs IHx]; intros mp Hx E; cbn [map_res] in *; [injection E as <-; reflexivity|].
    destruct (position_of x ys) as [p|] eqn:Ep; [|discriminate]. cbn [bind] in E.
    destruct (map_res (fun x => match position_of x ys with Some p => Ok p | None => Panicked end) xs) as [m| |]; try discriminate.
    cbn [bind] in E. injection E as <-.
    assert (Eq : position_of x (y :: ys) = Some (S p)).
    { cbn [position_of]. destruct (Nat.eqb_spec x y) as [->|N]; [exfalso; apply Hx; left; reflexivity|]. rewrite Ep. reflexivity. }
    rewrite Eq. cbn [bind]. rewrite (IHx m); [reflexivity| |reflexivity]. intros Hy. apply Hx. right. exact Hy. }
  induction H as [ys|xs y ys H IH|xs y ys H IH]; [exists []; auto| |]; apply NoDup_cons_iff in Hn; destruct Hn as [Hy Hn]; destruct (IH Hn) as (mp & E & Es);
    (assert (Hnx : ~ In y xs) by (intros Hx; apply Hy, (subsequence_incl _ _ H), Hx)); pose proof (Sh y ys xs mp Hnx E) as E'.
  - exists (map S mp). split; [exact E'|]. rewrite sorted_le_S. exact Es.
  - exists (0 :: map S mp). split.
    + assert (Eq : position_of y (y :: ys) = Some 0) by (cbn [position_of]; rewrite Nat.eqb_refl; reflexivity).
      cbn [map_res]. rewrite Eq. cbn [bind]. rewrite E'. reflexivity.
    + rewrite <- sorted_le_S in Es. destruct (map S mp) as [|z l] eqn:Em; [reflexivity|]. change ((0 <=? z) && sorted_le (z :: l) = true). rewrite Es. reflexivity.
Qed.

Lemma reads_iff : forall n P Q sc b o, (forall r, length r = n -> (P r <-> Q r)) -> reads n P sc b o -> reads n Q sc b o.
Proof.
  intros n P Q sc b [s|] H HR; cbn [reads] in *.
  - destruct HR as (types & tau & Hx & Hr). exists types, tau. split; [exact Hx|]. intros r Hl. rewrite <- (H r Hl). apply Hr, Hl.
  - intros r Hl HQ. apply (HR r Hl), (H r Hl), HQ.
Qed.
Lemma reads_inl : forall n P A B b o, reads n P A b o -> reads n P (either_trie A B) b (option_map inl o).
Proof. intros n P A B b [s|] HR; cbn [reads option_map] in *; [|exact HR]. destruct HR as (types & tau & Hx & Hr). exists types, tau. split; [apply explores_inl, Hx|exact Hr]. Qed.
Lemma reads_inr : forall n P A B b o, reads n P B b o -> reads n P (either_trie A B) b (option_map inr o).
Proof. intros n P A B b [s|] HR; cbn [reads option_map] in *; [|exact HR]. destruct HR as (types & tau & Hx & Hr). exists types, tau. split; [apply explores_inr, Hx|exact Hr]. Qed.

Section Trees.
Variable content : trie -> row -> Prop.
Notation meaning := (meaning content).
Notation formed := (formed content).

Lemma meaning_join : forall ms subs r, meaning (Join ms subs) r <-> forall s, In s subs -> exists q, part_of ms r (markers s) q /\ meaning s q.
Proof.
  intros ms subs r. cbn [ProjSpec.meaning]. induction subs as [|s subs IH]; [split; [intros _ s []|auto]|]. rewrite IH. split.
  - intros [H1 H2] s' [<-|Hs]; auto.
  - intros H. split; [apply H; left; reflexivity|]. intros s' Hs. apply H. right. exact Hs.
Qed.
Lemma meaning_union : forall ms subs r, meaning (Union ms subs) r <-> exists s, In s subs /\ meaning s r.
Proof.
  intros ms subs r. cbn [ProjSpec.meaning]. induction subs as [|s subs IH]; [split; [intros []|intros (s & [] & _)]|]. rewrite IH. split.
  - intros [H|(s' & Hs & H)]; [exists s|exists s']; split; auto; [left; reflexivity|right; exact Hs].
  - intros (s' & [<-|Hs] & H); [left; exact H|right; exists s'; auto].
Qed.
Lemma meaning_subtract : forall main subs r, meaning (Subtract main subs) r <->
  meaning main r /\ forall s, In s subs -> ~ exists q, part_of (markers main) r (markers s) q /\ meaning s q.
Proof.
  intros main subs r. cbn [ProjSpec.meaning]. apply and_iff_compat_l. induction subs as [|s subs IH]; [split; [intros _ s []|auto]|]. rewrite IH. split.
  - intros [H1 H2] s' [<-|Hs]; auto.
  - intros H. split; [apply H; left; reflexivity|]. intros s' Hs. apply H. right. exact Hs.
Qed.
Lemma formed_all : forall (P : operation -> Prop) subs,
  (fix all (l : list operation) : Prop := match l with [] => True | s :: l' => P s /\ all l' end) subs <-> forall s, In s subs -> P s.
Proof.
  intros P. induction subs as [|s subs IH]; [split; [intros _ s []|auto]|]. rewrite IH. split.
  - intros [H1 H2] s' [<-|Hs]; auto.
  - intros H. split; [apply H; left; reflexivity|]. intros s' Hs. apply H. right. exact Hs.
Qed.
Lemma depth_le : forall subs d, list_max (map depth subs) <= d -> forall s, In s subs -> depth s <= d.
Proof. intros subs d H s Hs. apply list_max_le in H. apply (proj1 (Forall_forall _ _) H). apply in_map, Hs. Qed.

(* the inputs of an operation *)
Lemma input_tables : forall d subs,
  (forall s, In s subs -> exists o, evaluate d s = Ok o /\ reads (length (markers s)) (meaning s) (scans d) true o) ->
  exists Ts : list (table (scans d)), map_res (evaluate d) subs = Ok (map input Ts) /\ map cols Ts = map markers subs /\
    (forall T, In T Ts -> table_ok true T) /\ Forall2 (fun s T => cols T = markers s /\ rows T = meaning s) subs Ts.
Proof.
  intros d. induction subs as [|s subs IH]; intros H; [exists []; split; [reflexivity|]; split; [reflexivity|]; split; [intros T []|constructor]|].
  destruct (H s (or_introl eq_refl)) as (o & Eo & Ho). destruct IH as (Ts & E1 & E2 & E3 & E4); [intros s' Hs; apply H; right; exact Hs|].
  exists (mk_table (scans d) (markers s) (meaning s) o :: Ts). split; [|split; [|split]].
  - cbn [map_res]. rewrite Eo. cbn [bind]. rewrite E1. reflexivity.
  - cbn [map cols]. rewrite E2. reflexivity.
  - intros T [<-|HT]; [exact Ho|apply E3, HT].
  - constructor; [split; reflexivity|exact E4].
Qed.
Lemma Forall2_in_l : forall A B (P : A -> B -> Prop) l k a, Forall2 P l k -> In a l -> exists b, In b k /\ P a b.
Proof. intros A B P l k a H. induction H as [|x y l k Hxy _ IH]; intros Ha; [destruct Ha|]. destruct Ha as [<-|Ha]; [exists y; split; [left; reflexivity|exact Hxy]|]. destruct (IH Ha) as (b & Hb & Hp). exists b. split; [right; exact Hb|exact Hp]. Qed.
Lemma Forall2_in_r : forall A B (P : A -> B -> Prop) l k b, Forall2 P l k -> In b k -> exists a, In a l /\ P a b.
Proof. intros A B P l k b H. induction H as [|x y l k Hxy _ IH]; intros Hb; [destruct Hb|]. destruct Hb as [<-|Hb]; [exists x; split; [left; reflexivity|exact Hxy]|]. destruct (IH Hb) as (a & Ha & Hp). exists a. split; [right; exact Ha|exact Hp]. Qed.

Theorem evaluate_reads : forall d o, depth o <= d -> formed o ->
  exists s, evaluate d o = Ok s /\ reads (length (markers o)) (meaning o) (scans d) true s.
Proof.
  induction d as [|d IH]; intros o Hd Hf.
  { destruct o as [ms tr|ms subs|ms subs|main subs]; cbn [depth] in Hd; try lia. exists (leaf tr). split; [reflexivity|]. apply Hf. }
  destruct o as [ms tr|ms subs|ms subs|main subs]; cbn [depth] in Hd.
  - destruct (IH (Leaf ms tr) (Nat.le_0_l _) Hf) as (s & E & HR). exists (option_map inl s). split; [cbn [evaluate]; rewrite E; reflexivity|]. apply reads_inl, HR.
  - destruct Hf as (Hne & Hn & Hcov & Hs). rewrite (formed_all (fun s => formed s /\ subsequence (markers s) ms)) in Hs.
    destruct (input_tables d subs) as (Ts & E1 & E2 & E3 & E4).
    { intros s Hin. apply IH; [apply (depth_le subs); [lia|exact Hin]|apply Hs, Hin]. }
    destruct (join_bindings_exist ms (map markers subs) Hn) as (bs & Eb).
    { intros m Hm. apply in_map_iff in Hm. destruct Hm as (s & <- & Hin). apply Hs, Hin. }
    { intros x Hx. destruct (Hcov x Hx) as (s & Hin & Hxs). exists (markers s). split; [apply in_map, Hin|exact Hxs]. }
    destruct (join_generate_reads (scans d) true ms Ts bs) as (s & Es & HR).
    { intros ->. destruct subs; [congruence|]. inversion E4. }
    { exact E3. }
    { rewrite E2. exact Eb. }
    { intros T HT. destruct (Forall2_in_r _ _ _ _ _ _ E4 HT) as (s & Hin & Ec & _). rewrite Ec. apply subsequence_incl, Hs, Hin. }
    exists (option_map (fun s => inr (inl s)) s). split; [cbn [evaluate]; rewrite Eb; cbn [bind]; rewrite E1; cbn [bind]; rewrite Es; reflexivity|].
    cbn [markers]. apply (reads_iff _ (joined ms Ts)).
    { intros r Hr. rewrite meaning_join. unfold joined. split.
      - intros H s' Hin. destruct (Forall2_in_l _ _ _ _ _ _ E4 Hin) as (T & HT & Ec & Er). destruct (H T HT) as (q & Hq1 & Hq2). exists q. rewrite <- Ec, <- Er. auto.
      - intros H T HT. destruct (Forall2_in_r _ _ _ _ _ _ E4 HT) as (s' & Hin & Ec & Er). destruct (H s' Hin) as (q & Hq1 & Hq2). exists q. rewrite Ec, Er. auto. }
    pose proof (reads_inr _ _ (scans d) _ _ _ (reads_inl _ _ _ (either_trie (either_trie (scans d) (union_trie (scans d))) (either_trie (scans d) (subtract_trie (scans d)))) _ _ HR)) as G.
    destruct s as [s|]; exact G.
  - cbn [formed] in Hf. rewrite (formed_all (fun s => formed s /\ length (markers s) = length ms)) in Hf. rename Hf into Hs.
    destruct (input_tables d subs) as (Ts & E1 & E2 & E3 & E4).
    { intros s Hin. apply IH; [apply (depth_le subs); [lia|exact Hin]|apply Hs, Hin]. }
    destruct (union_generate_reads (scans d) (length ms) Ts) as (s & Es & HR).
    { intros T HT. split; [apply E3, HT|]. destruct (Forall2_in_r _ _ _ _ _ _ E4 HT) as (s & Hin & Ec & _). rewrite Ec. apply Hs, Hin. }
    exists (option_map (fun s => inr (inr (inl s))) s). split; [cbn [evaluate]; rewrite E1; cbn [bind]; rewrite Es; reflexivity|].
    cbn [markers]. apply (reads_iff _ (fun r => exists T, In T Ts /\ rows T r)).
    { intros r Hr. rewrite meaning_union. split.
      - intros (T & HT & H). destruct (Forall2_in_r _ _ _ _ _ _ E4 HT) as (s' & Hin & Ec & Er). exists s'. rewrite <- Er. auto.
      - intros (s' & Hin & H). destruct (Forall2_in_l _ _ _ _ _ _ E4 Hin) as (T & HT & Ec & Er). exists T. rewrite Er. auto. }
    pose proof (reads_inr _ _ (scans d) _ _ _ (reads_inr _ _ (either_trie (scans d) (join_trie (scans d))) _ _ _ (reads_inl _ _ _ (either_trie (scans d) (subtract_trie (scans d))) _ _ HR))) as G.
    destruct s as [s|]; exact G.
  - destruct Hf as (Hfm & Hn & Hs). rewrite (formed_all (fun s => formed s /\ subsequence (markers s) (markers main))) in Hs.
    destruct (input_tables d (main :: subs)) as (Ts0 & E1 & E2 & E3 & E4).
    { intros s [<-|Hin]; [apply IH; [lia|exact Hfm]|]. apply IH; [apply (depth_le subs); [lia|exact Hin]|apply Hs, Hin]. }
    destruct Ts0 as [|T0 Ts]; [inversion E4|]. cbn [map] in E2. injection E2 as Ec0 E2.
    assert (Er0 : rows T0 = meaning main) by (inversion E4; tauto). assert (E5 : Forall2 (fun s T => cols T = markers s /\ rows T = meaning s) subs Ts) by (inversion E4; assumption).
    assert (Em : exists maps, map_res (layer_map (markers main)) (map markers subs) = Ok maps).
    { clear - Hs Hn. induction subs as [|s subs IH]; [exists []; reflexivity|]. cbn [map map_res].
      destruct (layer_map_exists (markers s) (markers main)) as (mp & ->); [apply Hs; left; reflexivity|exact Hn|]. cbn [bind].
      destruct IH as (maps & ->); [intros s' Hin; apply Hs; right; exact Hin|]. cbn. eauto. }
    destruct Em as (maps & Em).
    destruct (subtract_generate_reads (scans d) true (markers main) T0 Ts maps) as (s & Es & HR).
    { exact Ec0. }
    { rewrite E2. exact Em. }
    { intros T HT. destruct (Forall2_in_r _ _ _ _ _ _ E5 HT) as (s & Hin & Ec & _). rewrite Ec. apply (subsequence_NoDup _ (markers main)); [apply Hs, Hin|exact Hn]. }
    { exact E3. }
    exists (option_map (fun s => inr (inr (inr s))) s). split; [cbn [evaluate]; rewrite Em; cbn [bind]; rewrite E1; cbn [bind]; rewrite Es; reflexivity|].
    cbn [markers]. apply (reads_iff _ (fun r => rows T0 r /\ forall T, In T Ts -> ~ exists q, part_of (markers main) r (cols T) q /\ rows T q)).
    { intros r Hr. rewrite meaning_subtract, Er0. apply and_iff_compat_l. split.
      - intros H s' Hin. destruct (Forall2_in_l _ _ _ _ _ _ E5 Hin) as (T & HT & Ec & Er). rewrite <- Ec, <- Er. apply H, HT.
      - intros H T HT. destruct (Forall2_in_r _ _ _ _ _ _ E5 HT) as (s' & Hin & Ec & Er). rewrite Ec, Er. apply H, Hin. }
    pose proof (reads_inr _ _ (scans d) _ _ _ (reads_inr _ _ (either_trie (scans d) (join_trie (scans d))) _ _ _ (reads_inr _ _ (either_trie (scans d) (union_trie (scans d))) _ _ _ HR))) as G.
    destruct s as [s|]; exact G.
Qed.
End Trees.
