(* The table computed by an aggregation. *)
From Coq Require Import List ZArith Bool Lia Arith Sorted.
From Verif Require Import ColumnModel ScanModel ScanSpec TrieModel TrieSpec TrieScanSpec TrieProofs1 TrieProofs3 TrieProofs8 TrieProofs10 TrieProofs12 TrieProofs13 TrieProofs14 OpModel OpSpec ProjModel ProjSpec ProjProofs1 ProjProofs2 AggModel AggSpec AggProofs1 AggProofs2 AggProofs3 AggProofs4.
Import ListNotations.
Local Open Scope nat_scope.

Lemma aggregated_unique : forall F a vs v w, vs <> [] -> aggregated F a vs v -> aggregated F a vs w -> v = w.
Proof.
  intros F a vs v w Hne Hv Hw. destruct (processor_ok F a vs v Hne Hv) as (p & E1 & E2). destruct (processor_ok F a vs w Hne Hw) as (p' & E1' & E2'). congruence.
Qed.
Lemma row_lt_ext : forall a b v w, row_lt a b -> row_lt (a ++ v) (b ++ w).
Proof. induction a as [|x a IH]; intros [|y b] v w H; cbn [row_lt app] in *; try tauto. destruct H as [H|[-> H]]; [auto|right; split; [reflexivity|apply IH, H]]. Qed.
Lemma combinations_iff : forall m P P' grp C, (forall r, P r <-> P' r) -> combinations m P grp C -> combinations m P' grp C.
Proof.
  intros m P P' grp C H [H1 H2]. split; [exact H1|]. intros c. rewrite H2. split; intros (Ha & Hb & r & Hc & Hd); (split; [exact Ha|]); (split; [exact Hb|]); exists r; (split; [apply H, Hc|exact Hd]).
Qed.

Section Result.
Variable F : floats.
Variable n : nat.
Variable sc : fullscan.
Variable Q : fstate sc -> option row -> list row -> Prop.
Hypothesis HQ : enumerates n sc Q.
Variable i : instructions.
Notation g := (in_groups i).
Notation A := (in_column i).
Notation m := (S (in_last i)).
Hypothesis HgA : in_groups i <= in_column i.
Hypothesis HAm : in_column i <= in_last i.
Hypothesis Hmn : in_last i < n.
Notation col := (fun r : row => nth A r (Id32, 0%Z)).
Variable x : row.
Variable l : list row.
Hypothesis T : table n (x :: l).
Variable P : row -> Prop.
Hypothesis HP : forall r, P r <-> In r (x :: l).
Hypothesis Hcomp : computable F (in_op i) (in_groups i) (in_column i) (S (in_last i)) P.
Variable s : fstate sc.
Hypothesis Hs : Q s None (x :: l).

Lemma col_firstn : forall reps, (forall r, In r reps -> length r = n) -> map col (map (firstn m) reps) = map col reps.
Proof.
  intros reps H. rewrite map_map. apply map_ext_in. intros r Hr. specialize (H r Hr). rewrite <- (firstn_skipn m r) at 2. rewrite app_nth1; [reflexivity|]. rewrite firstn_length. unfold row in *. lia.
Qed.
Definition agg_of (q : row * list row) (v : value) : Prop := aggregated F (in_op i) (map col (map (firstn m) (snd q))) v.

Theorem result_rows : exists gs vs, groups m g x l gs /\ Forall2 (value_of F i) gs vs /\
  table_of (S g) (aggregation F (in_op i) g A m P) (map (fun q => fst (fst q) ++ [snd q]) (combine gs vs)).
Proof.
  destruct (groups_exists n m g Hmn ltac:(lia) _ x l (Nat.lt_succ_diag_r _)) as (gs & Hg). destruct (groups_spec n m g Hmn ltac:(lia) x l gs Hg T) as (G1 & G2 & G3).
  assert (G1' : forall grp reps, In (grp, reps) gs -> length grp = g /\ reps <> [] /\ combinations m P grp (map (firstn m) reps)).
  { intros grp reps H. destruct (G1 _ _ H) as (H1 & H2 & H3). split; [exact H1|]. split; [exact H2|]. refine (combinations_iff _ _ _ _ _ _ H3). intros r. symmetry. apply HP. }
  assert (Hvs : exists vs, Forall2 agg_of gs vs).
  { clear Hg G2 G3 G1. induction gs as [|[grp reps] gs IH]; [exists []; constructor|]. destruct IH as (vs & IH); [intros; apply G1'; right; assumption|].
    destruct (G1' grp reps (or_introl eq_refl)) as (H1 & H2 & H3). destruct (Hcomp grp (map (firstn m) reps) H1) as (v & Hv); [destruct reps; [congruence|discriminate]|exact H3|].
    exists (v :: vs). constructor; assumption. }
  destruct Hvs as (vs & Hvs). exists gs, vs. split; [exact Hg|].
  assert (Hreps : forall grp reps, In (grp, reps) gs -> map col (map (firstn m) reps) = map col reps).
  { intros grp reps H. rewrite map_map. apply map_ext_in. intros r Hr. destruct (G1' _ _ H) as (_ & _ & _ & Hc). destruct (proj1 (Hc (firstn m r)) (in_map _ _ _ Hr)) as (Hl & _). 
    rewrite <- (firstn_skipn m r) at 2. rewrite app_nth1; [reflexivity|]. rewrite Hl. lia. }
  split.
  { clear Hg G1 G2 G3. revert G1' Hreps. induction Hvs as [|[grp reps] v gs vs Hv Hvs IH]; intros G1' Hreps; constructor.
    - destruct (G1' grp reps (or_introl eq_refl)) as (_ & H2 & _). unfold agg_of in Hv. cbn [snd] in Hv. rewrite (Hreps grp reps (or_introl eq_refl)) in Hv.
      apply processor_ok in Hv; [exact Hv|]. destruct reps; [congruence|discriminate].
    - apply IH; intros; [apply G1'|eapply Hreps]; right; eassumption. }
  split.
  - clear Hg G1 G3 Hreps. induction Hvs as [|[grp reps] v gs vs Hv Hvs IH]; cbn [combine map fst snd] in *; [constructor|]. inversion G2 as [|? ? G2' G4]; subst. constructor.
    + apply IH; [exact G2'|]. intros; apply G1'; right; assumption.
    + apply Forall_forall. intros r Hr. apply in_map_iff in Hr. destruct Hr as ([[grp' reps'] v'] & <- & Hin). apply in_combine_l in Hin. cbn [fst snd].
      apply row_lt_ext. apply (proj1 (Forall_forall _ _) G4). apply in_map_iff. exists (grp', reps'). auto.
  - intros r. split.
    + intros Hr. apply in_map_iff in Hr. destruct Hr as ([[grp reps] v] & <- & Hin). cbn [fst snd].
      assert (Hv : agg_of (grp, reps) v).
      { clear - Hvs Hin. induction Hvs as [|q w gs vs Hw Hvs IH]; cbn [combine] in Hin; [destruct Hin|]. destruct Hin as [E|Hin]; [injection E as -> ->; exact Hw|apply IH, Hin]. }
      apply in_combine_l in Hin. destruct (G1' _ _ Hin) as (H1 & H2 & H3). split; [rewrite app_length, H1; cbn; lia|]. exists grp, v, (map (firstn m) reps).
      split; [reflexivity|]. split; [exact H1|]. split; [destruct reps; [congruence|discriminate]|]. split; [exact H3|exact Hv].
    + intros (Hl & grp & v & C & -> & H1 & HC & H3 & Hv). destruct C as [|c C]; [congruence|]. destruct (proj1 (proj2 H3 c) (or_introl eq_refl)) as (Lc & Ec & r & Hr & Er).
      apply HP in Hr. pose proof (G3 r Hr) as Hgr. assert (Eg : firstn g r = grp). { rewrite H1 in Ec. rewrite <- Er in Ec. rewrite firstn_firstn_le in Ec by lia. exact Ec. }
      rewrite Eg in Hgr. apply in_map_iff in Hgr. destruct Hgr as ([grp' reps] & Egrp & Hin). cbn [fst] in Egrp. subst grp'.
      destruct (G1' _ _ Hin) as (_ & H2 & H4). assert (EC : c :: C = map (firstn m) reps).
      { apply sorted_same; [apply H3|apply H4|]. intros q. rewrite (proj2 H3 q), (proj2 H4 q). reflexivity. }
      rewrite EC in Hv. apply in_map_iff. exists ((grp, reps), v). split; [reflexivity|].
      clear - Hvs Hin Hv H2. induction Hvs as [|q w gs vs Hw Hvs IH]; [destruct Hin|]. cbn [combine]. destruct Hin as [->|Hin]; [|right; apply IH, Hin]. left. f_equal.
      unfold agg_of in Hw. cbn [snd] in Hw. eapply aggregated_unique; [|exact Hw|exact Hv]. destruct reps; [congruence|discriminate].
Qed.

Theorem result_table : forall e, e <= S g -> exists enough tr, (forall fuel, enough <= fuel -> from_full_trie_scan (agg_scan F sc) fuel (mk_tagg sc s i NoValue None) e = Ok tr) /\
  holds (S g - e) (fun p => exists q, length q = e /\ aggregation F (in_op i) g A m P (p ++ q)) tr.
Proof.
  intros e He. destruct result_rows as (gs & vs & Hg & Hvs & [RS1 RS2]).
  assert (Hhead : In (hd [] (map (fun q => fst (fst q) ++ [snd q]) (combine gs vs))) (map (fun q => fst (fst q) ++ [snd q]) (combine gs vs))).
  { destruct Hg; inversion Hvs; subst; cbn [combine map hd]; left; reflexivity. }
  unfold from_full_trie_scan. cbn [fu_columns agg_scan ag_instr]. destruct (Nat.ltb_spec (g + 1) e) as [|_]; [lia|]. destruct (Nat.eqb_spec (g + 1 - e) 0) as [E0|E0].
  - (* everything is cut *)
    exists 0, (zero_arity true). split; [reflexivity|]. replace (S g - e) with 0 by lia. refine (holds_iff 0 (fun _ => true = true) _ _ _ (zero_holds true)).
    intros [|v r] Hr; [|discriminate]. split; [|auto]. intros _. apply RS2 in Hhead. destruct Hhead as [Hl Ha]. exists (hd [] (map (fun q => fst (fst q) ++ [snd q]) (combine gs vs))). split; [lia|exact Ha].
  - destruct (Nat.eq_dec e 0) as [->|Ne].
    + (* groups and values *)
      replace (g + 1 - 0) with (S g) by lia. destruct (q_advance _ _ _ HQ s None (x :: l) A Hs ltac:(lia)) as (e1 & s1 & E1 & Hs1). cbn [next_rows hd_error tl changed] in E1, Hs1.
      destruct (collect_ok F n sc Q HQ i HgA HAm Hmn x l gs Hg T vs Hvs [] (mk_tagg sc s i NoValue None) s1 0 Hs1 ltac:(lia) eq_refl) as (en & out & E & H1 & H2 & H3).
      { exists e1. intros fuel Hf. unfold agg_advance. cbn [ag_instr ag_peeked ag_input]. rewrite Nat.ltb_irrefl, E1 by exact Hf. cbn [bind fst snd option_map].
        destruct (Nat.ltb_spec 0 g); [reflexivity|]. replace g with 0 by lia. reflexivity. }
      assert (Hin : forall r : row, In r (map fst out) <-> length r = S g /\ aggregation F (in_op i) g A m P r) by (intros r; pose proof (RS2 r) as R; rewrite <- H1 in R; exact R).
      assert (Hso : StronglySorted row_lt (map fst out)) by (pose proof RS1 as R; rewrite <- H1 in R; exact R).
      exists en, (build_rows (S g) out). split.
      * intros fuel Hf. rewrite E by exact Hf. cbn [bind]. destruct out as [|[r c] out]; [discriminate|]. cbn [map snd hd_error] in H2. injection H2 as ->. reflexivity.
      * rewrite Nat.sub_0_r. refine (holds_iff _ (fun r => In r (map fst out)) _ _ _ _).
        -- intros r Hr. rewrite Hin. split; [intros [_ H]; exists []; rewrite app_nil_r; auto|]. intros (q & Hq & H). destruct q; [|discriminate]. rewrite app_nil_r in H. auto.
        -- apply stores_holds; [lia|]. apply build_rows_stores; [lia| |exact Hso|exact (H3 None I)].
           apply Forall_forall. intros r Hr. apply Hin in Hr. apply Hr.
    + (* some group columns *)
      set (k := g + 1 - e) in *. assert (Hk : 0 < k) by lia. assert (Hkg : k <= g) by lia.
      destruct (groups_exists n k k ltac:(lia) ltac:(lia) _ x l (Nat.lt_succ_diag_r _)) as (ks & HK). destruct (groups_spec n k k ltac:(lia) ltac:(lia) x l ks HK T) as (K1 & K2 & K3).
      destruct (q_advance _ _ _ HQ s None (x :: l) (k - 1) Hs ltac:(lia)) as (e1 & s1 & E1 & Hs1). cbn [next_rows hd_error tl changed] in E1, Hs1.
      destruct (prefix_ok F n sc Q HQ i HgA HAm Hmn k x l ks Hk Hkg HK T [] (mk_tagg sc s i NoValue None) s1 0 Hs1 Hk eq_refl) as (en & out & E & H1 & H2 & H3).
      { exists e1. intros fuel Hf. unfold agg_advance. cbn [ag_instr ag_peeked ag_input]. destruct (Nat.ltb_spec (k - 1) g); [|lia]. rewrite E1 by exact Hf. cbn [bind fst snd option_map].
        destruct (Nat.ltb_spec 0 g); [reflexivity|lia]. }
      assert (HKin : forall p, In p (map fst ks) <-> length p = k /\ exists r, In r (x :: l) /\ firstn k r = p).
      { intros p. split.
        - intros Hp. apply in_map_iff in Hp. destruct Hp as ([p' reps] & Ep & Hin). cbn [fst] in Ep. subst p'. destruct (K1 _ _ Hin) as (L1 & Hne & _ & Hc). split; [exact L1|].
          destruct reps as [|c reps]; [congruence|]. destruct (proj1 (Hc (firstn k c)) (or_introl eq_refl)) as (_ & Ep & r & Hr & Er). exists r. split; [exact Hr|].
          rewrite <- Er in Ep. rewrite L1, firstn_firstn_le in Ep by lia. exact Ep.
        - intros (_ & r & Hr & <-). apply K3, Hr. }
      assert (Hso : StronglySorted row_lt (map fst out)) by (pose proof K2 as R; rewrite <- H1 in R; exact R).
      assert (Hin' : forall r : row, In r (map fst out) <-> In r (map fst ks)) by (intros r; apply (f_equal (In r)) in H1; rewrite <- H1; reflexivity).
      exists en, (build_rows k out). split.
      * intros fuel Hf. rewrite E by exact Hf. cbn [bind]. destruct out as [|[r c] out]; [|].
        -- discriminate.
        -- cbn [map snd hd_error] in H2. injection H2 as ->. reflexivity.
      * replace (S g - e) with k by lia. refine (holds_iff _ (fun r => In r (map fst out)) _ _ _ _).
        -- intros p Lp. rewrite Hin', HKin. split.
           ++ intros (_ & r & Hr & Ep).
              destruct (groups_spec n m g Hmn ltac:(lia) x l gs Hg T) as (G1 & _ & G3). pose proof (G3 r Hr) as Hgr. apply in_map_iff in Hgr. destruct Hgr as ([grp reps] & Eg & Hin). cbn [fst] in Eg.
              assert (Hv : exists v, In ((grp, reps), v) (combine gs vs)).
              { clear - Hvs Hin. induction Hvs as [|q w gs vs Hw Hvs IH]; [destruct Hin|]. cbn [combine]. destruct Hin as [->|Hin]; [exists w; left; reflexivity|]. destruct (IH Hin) as (v & H). exists v. right. exact H. }
              destruct Hv as (v & Hv). assert (Ho : In (grp ++ [v]) (map (fun q => fst (fst q) ++ [snd q]) (combine gs vs))) by (apply in_map_iff; exists ((grp, reps), v); auto).
              apply RS2 in Ho. destruct Ho as [Lo Ho]. exists (skipn k (grp ++ [v])). split; [rewrite skipn_length; unfold row in *; lia|].
              assert (Ek : p = firstn k (grp ++ [v])).
              { rewrite firstn_app. subst grp. rewrite firstn_firstn_le by exact Hkg. rewrite Ep. rewrite app_length in Lo. cbn [length] in Lo. replace (k - length (firstn g r)) with 0 by (unfold row in *; lia). cbn [firstn]. rewrite app_nil_r. reflexivity. }
              rewrite Ek, firstn_skipn. exact Ho.
           ++ intros (q & Lq & Ha). split; [exact Lp|]. destruct Ha as (grp & v & C & Eo & Lg & HC & [_ Hc] & _). destruct C as [|c C]; [congruence|].
              destruct (proj1 (Hc c) (or_introl eq_refl)) as (Lc & Ec & r & Hr & Er). exists r. split; [apply HP, Hr|].
              assert (Ep : p = firstn k grp).
              { assert (E1' : firstn k (p ++ q) = firstn k (grp ++ [v])) by congruence. rewrite !firstn_app in E1'. replace (k - length p) with 0 in E1' by lia. replace (k - length grp) with 0 in E1' by lia.
                cbn [firstn] in E1'. rewrite !app_nil_r in E1'. rewrite <- E1'. symmetry. apply firstn_all2. lia. }
              rewrite Ep, <- Ec, <- Er, Lg. rewrite !firstn_firstn_le by lia. reflexivity.
        -- apply stores_holds; [exact Hk|]. apply build_rows_stores; [exact Hk| |exact Hso|exact (H3 None I)].
           apply Forall_forall. intros r Hr. apply Hin', HKin in Hr. apply Hr.
Qed.
End Result.
