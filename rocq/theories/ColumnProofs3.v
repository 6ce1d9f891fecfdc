(* Scans of run-length encoded columns refine the cursor of ColumnSpec.v. *)
From Coq Require Import List ZArith Bool Lia Sorted.
From Verif Require Import ColumnModel ColumnSpec ColumnProofs ColumnProofs2.
Import ListNotations.
Local Open Scope nat_scope.

(* a column made by the builder *)
Record good (k : kind) (es : list element) : Prop := {
  g_filled : filled es;
  g_steps : steps k es;
  g_typed : typed k (expand es);
  g_fits : fits k (total es);
  g_maximal : maximal k es;
  g_zero : (smin k <= 0 <= smax k)%Z }.

Definition rrep (es : list element) (s : rscan) (c : cursor) : Prop :=
  col s = from_elements es /\ ca c <= cb c <= total es /\
  loc es (ca c) (fst (lower s)) (snd (lower s)) /\ loc es (cb c) (fst (upper s)) (snd (upper s)) /\
  match cat c with
  | None => init s = false /\ cur s = None
  | Some p =>
      ca c <= p <= cb c /\
      (p < cb c -> init s = true /\ loc es p (el s) (inc s) /\ cur s = nth_error (expand es) p) /\
      (p = cb c -> cur s = None /\ self_in_range (initialize s) = false)
  end.

Lemma in_range_loc : forall es s a b p e i, filled es ->
  loc es a (fst (lower s)) (snd (lower s)) -> loc es b (fst (upper s)) (snd (upper s)) -> loc es p e i ->
  in_range s e i = (a <=? p) && (p <? b).
Proof.
  intros es s a b p e i Hf Ha Hb Hp. unfold in_range. f_equal.
  - pose proof (loc_order es p e i a _ _ Hf Hp Ha) as H1. pose proof (loc_order es a _ _ p e i Hf Ha Hp) as H2.
    apply Bool.eq_true_iff_eq. rewrite orb_true_iff, andb_true_iff, !Nat.ltb_lt, Nat.eqb_eq, !Nat.leb_le. lia.
  - pose proof (loc_order es p e i b _ _ Hf Hp Hb) as H1.
    apply Bool.eq_true_iff_eq. rewrite orb_true_iff, andb_true_iff, !Nat.ltb_lt, Nat.eqb_eq. lia.
Qed.

Lemma expand_lt : forall es p, p < total es -> exists v, nth_error (expand es) p = Some v.
Proof.
  intros es p H. destruct (nth_error (expand es) p) as [v|] eqn:E; [eauto|]. apply nth_error_None in E. rewrite expand_length in E. lia.
Qed.

Lemma robserve : forall es s c, filled es -> rrep es s c ->
  rcurrent s = value (expand es) c /\ rposition s = Ok (position c).
Proof.
  intros es s c Hf (Hc & Hb & Hlo & Hup & Hp). unfold rcurrent, rposition, value, position.
  destruct (cat c) as [p|].
  - destruct Hp as (Hr & H1 & H2). destruct (Nat.ltb_spec p (cb c)) as [Hlt|Hge].
    + destruct (H1 Hlt) as (Hi & Hl & Hcur). split; [exact Hcur|]. unfold self_in_range. rewrite Hi. cbn [andb].
      rewrite (in_range_loc es s _ _ p _ _ Hf Hlo Hup Hl). destruct (Nat.leb_spec (ca c) p); [|lia]. destruct (Nat.ltb_spec p (cb c)); [|lia].
      cbn [andb]. rewrite Hc, block_start_ok by (eapply loc_le; exact Hl). cbn [bind]. f_equal. f_equal. symmetry. apply Hl.
    + destruct (H2 ltac:(lia)) as (Hcur & Hr'). split; [exact Hcur|]. unfold self_in_range in *. unfold initialize in Hr'.
      destruct (init s) eqn:Hi; [|reflexivity]. rewrite Hi in Hr'. rewrite Hr'. reflexivity.
  - destruct Hp as (Hi & Hcur). split; [exact Hcur|]. unfold self_in_range. rewrite Hi. reflexivity.
Qed.

(* a state at a location, with no value yet *)
Definition at_loc (es : list element) (s : rscan) (a b p : nat) : Prop :=
  col s = from_elements es /\ a <= b <= total es /\ a <= p /\
  loc es a (fst (lower s)) (snd (lower s)) /\ loc es b (fst (upper s)) (snd (upper s)) /\
  init s = true /\ loc es p (el s) (inc s).

Lemma at_loc_range : forall es s a b p, filled es -> at_loc es s a b p -> self_in_range s = (p <? b).
Proof.
  intros es s a b p Hf (Hc & Hb & Ha & Hlo & Hup & Hi & Hl). unfold self_in_range. rewrite Hi. cbn [andb].
  rewrite (in_range_loc es s _ _ p _ _ Hf Hlo Hup Hl). destruct (Nat.leb_spec a p); [reflexivity|lia].
Qed.

Lemma initialize_at : forall es s c, rrep es s c -> cat c = None ->
  at_loc es (initialize s) (ca c) (cb c) (ca c) /\ cur (initialize s) = None.
Proof.
  intros es s c (Hc & Hb & Hlo & Hup & Hp) E. rewrite E in Hp. destruct Hp as (Hi & Hcur). unfold initialize. rewrite Hi.
  split; [|exact Hcur]. unfold at_loc. cbn. repeat (split; [assumption || lia || reflexivity|]). exact Hlo.
Qed.

Lemma at_loc_rep_end : forall es s a b p, filled es -> at_loc es s a b p -> b <= p -> cur s = None ->
  rrep es s (mk_cursor a b (Some b)).
Proof.
  intros es s a b p Hf H Hp Hcur. pose proof (at_loc_range _ _ _ _ _ Hf H) as Hr.
  destruct H as (Hc & Hb & Ha & Hlo & Hup & Hi & Hl). unfold rrep. cbn [ca cb cat].
  do 6 (split; [assumption || lia|]). intros _. split; [exact Hcur|].
  unfold initialize. rewrite Hi, Hr. apply Nat.ltb_ge. exact Hp.
Qed.

Lemma at_loc_rep : forall es s a b p v, at_loc es s a b p -> p < b -> nth_error (expand es) p = Some v ->
  rrep es (set_cur s (Some v)) (mk_cursor a b (Some p)).
Proof.
  intros es s a b p v (Hc & Hb & Ha & Hlo & Hup & Hi & Hl) Hp Hv. unfold rrep, set_cur. cbn.
  do 5 (split; [assumption || lia|]). split; [|lia]. intros _. rewrite Hv. auto.
Qed.

Lemma at_loc_cur : forall es s a b p o, at_loc es s a b p -> at_loc es (set_cur s o) a b p.
Proof. intros es s a b p o H. exact H. Qed.

Lemma advance_in : forall k es s a b p, good k es -> at_loc es s a b p -> p < b ->
  exists s', advance s = Ok s' /\ at_loc es s' a b (S p) /\ cur s' = cur s /\ (inc s' = 0 \/ (inc s' <> 0 /\ el s' = el s /\ inc s' = S (inc s))).
Proof.
  intros k es s a b p Hg H Hp. pose proof (at_loc_range _ _ _ _ _ (g_filled _ _ Hg) H) as Hr.
  destruct H as (Hc & Hb & Ha & Hlo & Hup & Hi & Hl). unfold advance. rewrite Hi, Hr. destruct (Nat.ltb_spec p b); [|lia]. cbn [andb].
  destruct (loc_inside _ _ _ _ (g_filled _ _ Hg) Hl ltac:(lia)) as (x & Hx & Hix).
  assert (Hel : el s < length es) by (apply nth_error_Some; congruence).
  rewrite Hc, block_start_ok by lia. cbn [bind]. rewrite ends_index by exact Hel. cbn [bind].
  pose proof (start_S _ _ _ Hx) as Hst. destruct Hl as [Hpl _].
  eexists. split; [reflexivity|]. destruct (Nat.leb_spec (start es (S (el s))) (S (inc s) + start es (el s))) as [He|He].
  - split; [|split; [reflexivity|left; reflexivity]]. unfold at_loc, set_pos. cbn. do 6 (split; [assumption || lia|]).
    replace (S p) with (start es (S (el s))) by lia. apply loc_start; [apply Hg|lia].
  - split; [|split; [reflexivity|right; cbn; auto]]. unfold at_loc, set_pos. cbn. do 6 (split; [assumption || lia|]).
    split; [lia|]. left. exists x. split; [exact Hx|]. lia.
Qed.

Lemma rnext_rep : forall k es s c, good k es -> rrep es s c ->
  exists s', rnext k s = Ok (s', value (expand es) (step (expand es) Next c)) /\ rrep es s' (step (expand es) Next c).
Proof.
  intros k es s c Hg Hrep. pose proof (g_filled _ _ Hg) as Hf.
  (* when the new location is known *)
  assert (Hfin : forall s1 a b p, advance s = Ok s1 -> at_loc es s1 a b p -> a <= b ->
     (cur s1 = None \/ inc s1 = 0 \/ (cur s1 = nth_error (expand es) (p - 1) /\ el s1 = el s /\ inc s1 = S (inc s) /\ p <> 0)) -> 
     exists s', rnext k s = Ok (s', value (expand es) (mk_cursor a b (Some (Nat.min p b)))) /\ rrep es s' (mk_cursor a b (Some (Nat.min p b)))).
  { intros s1 a b p Ha Hat Hab Hcur. unfold rnext. rewrite Ha. cbn [bind]. rewrite (at_loc_range _ _ _ _ _ Hf Hat).
    destruct (Nat.ltb_spec p b) as [Hp|Hp].
    - rewrite Nat.min_l by lia. pose proof Hat as (Hc & Hb & Hap & Hlo & Hup & Hi & Hl).
      destruct (expand_lt es p ltac:(lia)) as (v & Hv).
      destruct (loc_inside _ _ _ _ Hf Hl ltac:(lia)) as (x & Hx & Hix).
      pose proof (loc_value _ _ _ _ _ Hx Hix Hl) as Hvx. assert (Ev : v = (evalue x + eincrement x * Z.of_nat (inc s1))%Z) by congruence.
      assert (Hval : (if inc s1 =? 0 then index (values (col s1)) (el s1)
          else match cur s1 with
               | Some c => bind (index (increments (col s1)) (el s1)) (fun i => offset k c i 1)
               | None => get_internal k (col s1) (el s1) (inc s1)
               end) = Ok v).
      { rewrite Hc. destruct (Nat.eqb_spec (inc s1) 0) as [E0|E0].
        - apply index_Ok. cbn. rewrite (map_nth_error _ _ _ Hx). f_equal. rewrite Ev, E0. cbn. lia.
        - destruct Hcur as [Hn|[Hn|(Hn & Hel & Hinc & Hp0)]]; [|lia|].
          + rewrite Hn. destruct (get_internal_ok k es p (el s1) (inc s1)) as (v' & Hv' & Hn'); try apply Hg; [exact Hl|lia|]. congruence.
          + assert (Hl' : loc es (p - 1) (el s1) (inc s)) .
            { destruct Hl as [Hl1 _]. split; [lia|left]. exists x. split; [exact Hx|lia]. }
            pose proof (loc_value es (p - 1) (el s1) (inc s) x Hx ltac:(lia) Hl') as Hprev. rewrite Hn, Hprev.
            assert (E2 : index (increments (from_elements es)) (el s1) = Ok (eincrement x)) by (apply index_Ok; cbn; apply map_nth_error, Hx).
            rewrite E2. cbn [bind]. replace v with ((evalue x + eincrement x * Z.of_nat (inc s)) + eincrement x * Z.of_nat 1)%Z by (rewrite Ev, Hinc; lia).
            apply (offset_ok k (total es)); [apply Hg|lia| | |].
            * pose proof (g_steps _ _ Hg) as Hs. unfold steps in Hs. rewrite Forall_forall in Hs. apply Hs. eapply nth_error_In; eassumption.
            * apply in_kind_iff. eapply typed_nth; [apply Hg|exact Hprev].
            * replace ((evalue x + eincrement x * Z.of_nat (inc s)) + eincrement x * Z.of_nat 1)%Z with v by (rewrite Ev, Hinc; lia).
              apply in_kind_iff. eapply typed_nth; [apply Hg|exact Hv]. }
      rewrite Hval. cbn [bind]. exists (set_cur s1 (Some v)). rewrite (value_at _ _ _ _ v) by (lia || exact Hv). split; [reflexivity|].
      apply (at_loc_rep es s1 a b p v Hat Hp Hv).
    - rewrite Nat.min_r by lia. exists (set_cur s1 None). rewrite value_end. split; [reflexivity|].
      apply (at_loc_rep_end es _ a b p Hf); [exact Hat|exact Hp|reflexivity]. }
  cbn [step]. destruct (cat c) as [p|] eqn:Ec.
  - pose proof Hrep as (Hc & Hb & Hlo & Hup & Hp). rewrite Ec in Hp. destruct Hp as (Hr & H1 & H2).
    destruct (Nat.eq_dec p (cb c)) as [E|Hn].
    + destruct (H2 E) as (Hcur & Hout). rewrite Nat.min_r by lia. exists (set_cur (initialize s) None).
      assert (Ead : advance s = Ok (initialize s)).
      { unfold advance. unfold initialize in *. destruct (init s) eqn:Ei; [|reflexivity]. rewrite Hout. reflexivity. }
      unfold rnext. rewrite Ead. cbn [bind]. rewrite Hout, value_end. split; [reflexivity|].
      assert (Hi : init (initialize s) = true) by (unfold initialize; destruct (init s) eqn:Ei; [exact Ei|reflexivity]).
      assert (Hk : col (initialize s) = col s /\ lower (initialize s) = lower s /\ upper (initialize s) = upper s)
        by (unfold initialize; destruct (init s); auto).
      destruct Hk as (Hk1 & Hk2 & Hk3).
      unfold rrep. cbn [ca cb cat set_cur col lower upper cur]. rewrite Hk1, Hk2, Hk3.
      do 6 (split; [assumption || lia|]). intros _. split; [reflexivity|].
      set (s1 := initialize s) in *. unfold initialize at 1. change (init (set_cur s1 None)) with (init s1). rewrite Hi. exact Hout.
    + destruct (H1 ltac:(lia)) as (Hi & Hl & Hcur).
      assert (Hat : at_loc es s (ca c) (cb c) p) by (unfold at_loc; auto 10 with arith; repeat (split; [assumption || lia|]); assumption).
      destruct (advance_in k es s _ _ _ Hg Hat ltac:(lia)) as (s1 & E1 & Hat1 & Hc1 & Hinc).
      rewrite Nat.add_1_r. apply (Hfin s1 (ca c) (cb c) (S p) E1 Hat1); [lia|]. right.
      destruct Hinc as [H0|(_ & Hel & Hinc)]; [left; exact H0|right]. replace (S p - 1) with p by lia. rewrite Hc1. auto.
  - destruct (initialize_at es s c Hrep Ec) as (Hat & Hcur). pose proof Hrep as (Hc & Hb & Hlo & Hup & Hp). rewrite Ec in Hp.
    assert (Ead : advance s = Ok (initialize s)) by (unfold advance; destruct Hp as [-> _]; reflexivity).
    destruct (Hfin (initialize s) (ca c) (cb c) (ca c) Ead Hat ltac:(lia) ltac:(left; exact Hcur)) as (s' & E & Hr').
    rewrite Nat.min_l in E, Hr' by lia. eauto.
Qed.
