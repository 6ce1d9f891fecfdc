(** Executing one rule. *)
From Coq Require Import List Arith ZArith Bool Lia Permutation.
From Verif Require Import TableModel EngineModel EngineSpec EngineProofs1 EngineProofs2 EngineProofs3 EngineProofs4 EngineProofs5 EngineProofs6.
Import ListNotations.

Definition new_in (results : list (tag * list row)) (p : tag) (r : row) : Prop :=
  exists rows, In (p, rows) results /\ In r rows.

Lemma head_results_spec rd r nb na nn cur hs : forall k0 l, head_results rd r k0 hs nb na nn cur = Some l ->
  (forall j a, nth_error hs j = Some a -> exists rows, head_atom_rows rd r (k0 + j) a nb na nn cur = Some rows /\ In (fst a, rows) l) /\
  (forall p rows, In (p, rows) l -> exists j a, nth_error hs j = Some a /\ p = fst a /\ head_atom_rows rd r (k0 + j) a nb na nn cur = Some rows).
Proof.
  induction hs as [|a hs IH]; simpl; intros k0 l H.
  - injection H as <-. split; [intros [|j] a; discriminate|intros p rows []].
  - destruct (head_atom_rows rd r k0 a nb na nn cur) as [rows|] eqn:E; [|discriminate].
    destruct (head_results rd r (S k0) hs nb na nn cur) as [l'|] eqn:E'; [|discriminate]. injection H as <-.
    destruct (IH _ _ E') as [H1 H2]. split.
    + intros [|j] b Hj; simpl in Hj.
      * injection Hj as <-. exists rows. rewrite Nat.add_0_r. simpl. auto.
      * destruct (H1 j b Hj) as (rows' & Hr & Hi). exists rows'. rewrite Nat.add_succ_r. simpl. auto.
    + intros p rows' [Heq|Hi].
      * injection Heq as <- <-. exists 0, a. rewrite Nat.add_0_r. simpl. auto.
      * destruct (H2 p rows' Hi) as (j & b & Hj & -> & Hr). exists (S j), b. rewrite Nat.add_succ_r. simpl. auto.
Qed.

Lemma group_results_tags l : map fst (group_results l) = nodup Nat.eq_dec (map fst l).
Proof. unfold group_results. rewrite map_map. simpl. apply map_id. Qed.
Lemma group_results_nodup l p rows : In (p, rows) (group_results l) -> NoDup rows.
Proof. unfold group_results. intros H. apply in_map_iff in H. destruct H as (q & Hq & _). injection Hq as <- <-. apply NoDup_nodup. Qed.
Lemma group_results_new l p r : new_in (group_results l) p r <-> new_in l p r.
Proof.
  unfold new_in, group_results. split.
  - intros (rows & Hi & Hr). apply in_map_iff in Hi. destruct Hi as (q & Hq & _). injection Hq as -> <-.
    apply nodup_In, in_flat_map in Hr. destruct Hr as ([q rows'] & Hf & Hr). apply filter_In in Hf.
    destruct Hf as [Hf Heq]. apply Nat.eqb_eq in Heq. simpl in *. subst. eauto.
  - intros (rows & Hi & Hr). eexists. split.
    + apply in_map_iff. exists p. split; [reflexivity|]. apply nodup_In, in_map_iff. exists (p, rows). auto.
    + apply nodup_In, in_flat_map. exists (p, rows). split; auto. apply filter_In. split; auto. apply Nat.eqb_refl.
Qed.

Lemma hatom_ex_vars a v : In v (hatom_ex a) <-> In (HEx v) (snd a).
Proof.
  unfold hatom_ex. rewrite in_flat_map. split.
  - intros (t & Ht & Hv). destruct t; simpl in Hv; try tauto. destruct Hv as [->|[]]. auto.
  - intros H. exists (HEx v). simpl. auto.
Qed.

Lemma hatom_vars_cases a v : In v (hatom_vars a) <-> In (HVar v) (snd a) \/ In (HEx v) (snd a).
Proof.
  unfold hatom_vars. rewrite in_flat_map. split.
  - intros (t & Ht & Hv). destruct t; simpl in Hv; try tauto; destruct Hv as [->|[]]; auto.
  - intros [H|H]; eexists; split; eauto; simpl; auto.
Qed.

Lemma nth_error_In' {A} (l : list A) k a : nth_error l k = Some a -> In a l.
Proof. apply nth_error_In. Qed.

Section Exec.
Context (rd : reader) (D : tag -> nat -> row -> Prop) (Hrd : rd_ok rd D).

Definition new_match (r : rule) (cur last : nat) (nu : var -> Z) : Prop :=
  matches r (upto D cur) (upto D cur) nu /\
  (r_pos r = [] \/ exists p xs s, In (p, xs) (r_pos r) /\ last <= s < cur /\ D p s (map nu xs)).

Definition agg_new (r : rule) (ag : aggregate) (cur last : nat) (mu : var -> Z) : Prop :=
  exists nu z L, new_match r cur last nu /\ NoDup L /\
    (forall t, In t L <-> exists nu', new_match r cur last nu' /\ (forall v, In v (ag_group ag) -> nu' v = nu v) /\
                           t = map nu' (ag_in ag :: ag_distinct ag)) /\
    ag_val ag (map (hd 0%Z) L) = Some z /\
    (forall v, In v (ag_group ag) -> mu v = nu v) /\ mu (ag_out ag) = z /\
    (forall o, agg_op r o -> holds mu o).

Definition sat_ok (r : rule) (i : nat) (I : tag -> row -> Prop) (f : row) : Prop :=
  exists mu, f = map mu (frontier_list r) /\
    forall a, In a (r_head r) -> hatom_ex a <> [] -> I (fst a) (map (hterm_val mu) (snd a)).

(** The choice of nulls for the new existential head instances: the nulls have numbers in [ctr, ctr'),
    different variables and different matches have different nulls, and a match has one null per
    variable. *)
Record null_choice (r : rule) (ctr ctr' : nat) (W : (var -> Z) -> Prop) : Prop := {
  nc_range : forall mu v, W mu -> In v (ex_vars r) -> exists n, ctr <= n < ctr' /\ mu v = null_val n;
  nc_inj : forall mu mu' v v', W mu -> W mu' -> In v (ex_vars r) -> In v' (ex_vars r) -> mu v = mu' v' ->
     v = v' /\ forall w, In w (frontier_list r) -> mu w = mu' w;
  nc_fun : forall mu mu', W mu -> W mu' -> (forall w, In w (frontier_list r) -> mu w = mu' w) ->
     forall v, In v (ex_vars r) -> mu v = mu' v }.

Record exec_ok (r : rule) (i : nat) (hf : bool) (cur last ctr : nat) (results : list (tag * list row)) (ctr' : nat) : Prop := {
  x_tags : NoDup (map fst results);
  x_rows : forall p rows, In (p, rows) results -> NoDup rows;
  x_heads : forall p rows, In (p, rows) results ->
     (p = sat_tag i /\ is_existential r = true) \/ exists a, In a (r_head r) /\ p = fst a;
  x_ctr : ctr <= ctr';
  x_sound : exists W, null_choice r ctr ctr' W /\ forall p row, new_in results p row -> p <> sat_tag i ->
    (exists nu mu k a, new_match r cur last nu /\ nth_error (r_head r) k = Some a /\ agg_index r <> Some k /\
       (forall v, ~ is_ex r v -> mu v = nu v) /\ p = fst a /\ row = map (hterm_val mu) (snd a) /\
       (hatom_ex a = [] -> ~ upto D cur p row) /\
       (hatom_ex a <> [] -> W mu /\
           (forall v, In v (hatom_vars a) -> In v (frontier_list r ++ ex_vars r)) /\
           ~ sat_new D r cur (new_start (negb (exclusive r hf)) last) nu /\
           ~ upto D cur (sat_tag i) (map nu (frontier_list r)))) \/
    (exists ag mu k a, r_agg r = Some (ag, k) /\ nth_error (r_head r) k = Some a /\ agg_new r ag cur last mu /\
       p = fst a /\ row = map (hterm_val mu) (snd a) /\ ~ upto D cur p row /\
       (forall v, In v (hatom_vars a) -> In v (ag_out ag :: ag_group ag) \/ exists e, agg_op r (OEq v e) /\ incl (e_vars e) (ag_out ag :: ag_group ag)));
  x_complete : (forall f, upto D cur (sat_tag i) f -> sat_ok r i (upto D cur) f) ->
    forall nu, new_match r cur last nu -> exists mu, (forall v, ~ is_ex r v -> mu v = nu v) /\
      forall k a, nth_error (r_head r) k = Some a -> agg_index r <> Some k ->
        upto D cur (fst a) (map (hterm_val mu) (snd a)) \/ new_in results (fst a) (map (hterm_val mu) (snd a));
  x_agg : forall ag k a mu, r_agg r = Some (ag, k) -> nth_error (r_head r) k = Some a -> agg_new r ag cur last mu ->
      upto D cur (fst a) (map (hterm_val mu) (snd a)) \/ new_in results (fst a) (map (hterm_val mu) (snd a));
  x_sat : forall f, new_in results (sat_tag i) f -> ~ upto D cur (sat_tag i) f /\
      sat_ok r i (fun p x => upto D cur p x \/ new_in results p x) f;
  x_satc : is_existential r = true -> (exists nu, new_match r cur last nu) ->
      forall nu, sat_new D r cur (new_start (negb (exclusive r hf)) last) nu ->
        upto D cur (sat_tag i) (map nu (frontier_list r)) \/ new_in results (sat_tag i) (map nu (frontier_list r));
  x_empty : (forall nu, ~ new_match r cur last nu) -> results = [] }.

Lemma upto_dec cur p r : {upto D cur p r} + {~ upto D cur p r}.
Proof.
  destruct (rd_dec rd D Hrd p 0 cur r) as [H|H]; [left|right].
  - destruct H as (s & ? & ?). exists s. split; auto. lia.
  - intros (s & ? & ?). apply H. exists s. split; auto. lia.
Qed.

Theorem execute_rule_spec r i hf cur last ctr results ctr' : wf_rule r -> last < cur ->
  (forall a, In a (r_head r) -> user_tag (fst a)) ->
  execute_rule rd i r hf cur last ctr = Some (results, ctr') ->
  exec_ok r i hf cur last ctr results ctr'.
Proof.
  intros Hwf Hlt Hut H. unfold execute_rule in H.
  destruct (body_node rd r cur last) as [[nb ops]|] eqn:Eb; [|discriminate].
  destruct (body_node_spec rd D Hrd r cur last nb ops Hwf (Nat.lt_le_incl _ _ Hlt) Eb) as (B1 & B2 & B3 & B4 & B5).
  fold (new_match r cur last) in B5.
  assert (Hmatch : forall nu, msat nu nb <-> new_match r cur last nu) by exact B5. clear B5.
  destruct (nrows nb) as [|row0 rows0] eqn:Er.
  { injection H as <- <-.
    assert (Hno : forall nu, ~ new_match r cur last nu).
    { intros nu Hm. apply Hmatch in Hm. unfold msat in Hm. rewrite Er in Hm. destruct Hm. }
    constructor; simpl; auto; try (intros; tauto).
    - constructor.
    - exists (fun _ => False). split; [constructor; tauto|]. intros p row (rows & [] & _).
    - intros Hs nu Hm. exfalso. now apply (Hno nu).
    - intros ag k a mu _ _ (nu & z & L & Hm & _). exfalso. now apply (Hno nu).
    - intros f (rows & [] & _).
    - intros _ (nu & Hm). exfalso. now apply (Hno nu). }
  assert (Hne : exists nu, new_match r cur last nu).
  { exists (val_of (nvars nb) row0). apply Hmatch. apply row_val; auto. rewrite Er. simpl. auto. }
  clear Er.
  destruct (match r_agg r with None => Some None | Some (a, _) => option_map Some (agg_node nb a ops) end) as [na|] eqn:Ea; [|discriminate].
  destruct (if is_existential r then option_map Some (restricted_nodes rd i r hf nb cur last ctr) else Some None) as [rn|] eqn:Ex; [|discriminate].
  destruct (head_results rd r 0 (r_head r) nb na (option_map (fun x => fst (fst x)) rn) cur) as [l|] eqn:Eh; [|discriminate].
  simpl in H. injection H as <- <-.
  destruct (head_results_spec _ _ _ _ _ _ _ _ _ Eh) as [Hh1 Hh2]. simpl in Hh1, Hh2.
  set (satr := match rn with Some x => [(sat_tag i, snd (fst x))] | None => [] end).
  set (res := satr ++ group_results l).
  assert (Hltags : forall p rows, In (p, rows) l -> exists a, In a (r_head r) /\ p = fst a).
  { intros p rows Hi. destruct (Hh2 p rows Hi) as (j & a & Hj & -> & _). exists a. split; auto. eapply nth_error_In; eauto. }
  assert (Huser : forall p, p <> sat_tag i -> forall row, new_in res p row <-> new_in l p row).
  { intros p Hp row. unfold res. rewrite <- (group_results_new l). unfold new_in. split.
    - intros (rows & Hi & Hr). apply in_app_iff in Hi. destruct Hi as [Hi|Hi]; eauto.
      exfalso. unfold satr in Hi. destruct rn; simpl in Hi; [|tauto]. destruct Hi as [Hi|[]]. injection Hi as <- _. auto.
    - intros (rows & Hi & Hr). exists rows. rewrite in_app_iff. auto. }
  assert (Hheaduser : forall a, In a (r_head r) -> fst a <> sat_tag i) by (intros a Ha; apply (Hut a Ha)).
  assert (Hsatl : forall row, new_in res (sat_tag i) row <-> exists x, rn = Some x /\ In row (snd (fst x))).
  { intros row. unfold res, new_in. split.
    - intros (rows & Hi & Hr). apply in_app_iff in Hi. destruct Hi as [Hi|Hi].
      + unfold satr in Hi. destruct rn as [x|]; simpl in Hi; [|tauto]. destruct Hi as [Hi|[]]. injection Hi as <-. eauto.
      + exfalso. assert (Hn : new_in (group_results l) (sat_tag i) row) by (exists rows; auto).
        apply (proj1 (group_results_new l _ _)) in Hn. destruct Hn as (rows' & Hi' & _). destruct (Hltags _ _ Hi') as (a & Ha & He).
        apply (Hheaduser a Ha). auto.
    - intros (x & -> & Hr). exists (snd (fst x)). unfold satr. simpl. auto. }
  (* rows of a head atom which is neither aggregate nor existential *)
  assert (Hplain : forall k a, nth_error (r_head r) k = Some a -> agg_index r <> Some k -> hatom_ex a = [] ->
     (forall nu, new_match r cur last nu -> upto D cur (fst a) (map (hterm_val nu) (snd a)) \/ new_in l (fst a) (map (hterm_val nu) (snd a)))).
  { intros k a Hk Hag Hex nu Hm. destruct (Hh1 k a Hk) as (rows & Hr & Hi). unfold head_atom_rows in Hr.
    assert (Hna : match r_agg r with Some (_, j) => k =? j | None => false end = false).
    { unfold agg_index in Hag. destruct (r_agg r) as [[ag j]|]; auto. simpl in Hag. apply Nat.eqb_neq. congruence. }
    rewrite Hna, Hex in Hr. simpl in Hr. destruct (head_rows a nb) as [rows1|] eqn:Ehr; [|discriminate].
    destruct (head_rows_spec _ _ _ B1 Ehr) as (_ & _ & Hrows).
    destruct (eliminate_spec rd D Hrd (fst a) rows1 cur) as (rows2 & Ee & _ & He). rewrite Ee in Hr. injection Hr as <-.
    destruct (upto_dec cur (fst a) (map (hterm_val nu) (snd a))) as [Hu|Hu]; [left; auto|right]. exists rows2. split; auto.
    apply He. split; auto. apply Hrows. exists nu. split; auto. now apply Hmatch. }
  (* the existential part *)
  assert (Hexn : forall x, rn = Some x -> is_existential r = true /\ restricted_nodes rd i r hf nb cur last ctr = Some x).
  { intros x ->. destruct (is_existential r); [|discriminate]. destruct (restricted_nodes _ _ _ _ _ _ _ _); [|discriminate].
    simpl in Ex. injection Ex as ->. auto. }
  assert (Hexat : forall k a, nth_error (r_head r) k = Some a -> hatom_ex a <> [] -> agg_index r <> Some k ->
     exists x rows, rn = Some x /\ head_rows a (fst (fst x)) = Some rows /\ In (fst a, rows) l).
  { intros k a Hk Hex Hag. destruct (Hh1 k a Hk) as (rows & Hr & Hi). unfold head_atom_rows in Hr.
    assert (Hna : match r_agg r with Some (_, j) => k =? j | None => false end = false).
    { unfold agg_index in Hag. destruct (r_agg r) as [[ag j]|]; auto. simpl in Hag. apply Nat.eqb_neq. congruence. }
    rewrite Hna in Hr. destruct (hatom_ex a) as [|e l'] eqn:Hx; [congruence|]. simpl in Hr. destruct rn as [x|]; [|discriminate]. simpl in Hr.
    exists x, rows. auto. }
  assert (Hexagg : forall k a, nth_error (r_head r) k = Some a -> hatom_ex a <> [] -> agg_index r <> Some k).
  { intros k a Hk Hex Hag. unfold agg_index in Hag. destruct (r_agg r) as [[ag j]|] eqn:Hra; [|discriminate].
    destruct (wf_agg r Hwf ag j Hra) as (_ & _ & _ & _ & _ & Hnx).
    destruct (hatom_ex a) as [|v l'] eqn:Hx; [congruence|]. apply (Hnx v). exists a. split; [eapply nth_error_In; eauto|]. rewrite Hx. simpl. auto. }
  (* a satisfied or instantiated frontier match has its existential head atoms *)
  assert (Hsat : forall x f, rn = Some x -> In f (snd (fst x)) -> ~ upto D cur (sat_tag i) f /\
            sat_ok r i (fun p y => upto D cur p y \/ new_in res p y) f).
  { intros x f Hx Hf. destruct (Hexn x Hx) as [Hise Hrn]. destruct x as [[nn sat] c']. simpl in Hf.
    pose proof (restricted_nodes_spec rd D Hrd i r hf nb cur last ctr nn sat c' Hwf Hise Hlt B1 B2 Hrn) as R. cbv zeta in R.
    destruct R as (R1 & R2 & R3 & R4 & R5 & R6 & R7 & R8).
    apply R8 in Hf. destruct Hf as (nu & -> & Hc). destruct Hc as [Hu|[Hs Hno]].
    - split; [tauto|]. destruct (R5 nu Hu) as (mu & Hag & Hm). exists mu. split.
      { symmetry. apply map_ext_in. auto. }
      intros a Ha Hex. right. destruct (In_nth_error _ _ Ha) as (k & Hk).
      destruct (Hexat k a Hk Hex (Hexagg k a Hk Hex)) as (x & rows & Hx' & Hr & Hi). rewrite Hx in Hx'. injection Hx' as <-. simpl in Hr.
      apply Huser; auto. exists rows. split; auto. destruct (head_rows_spec _ _ _ R1 Hr) as (_ & _ & Hrows). apply Hrows. eauto.
    - split; auto. destruct Hs as (mu & Hag & Hhs & _). exists mu. split.
      { symmetry. apply map_ext_in. auto. }
      intros a Ha Hex. left. apply Hhs. auto. }
  constructor.
  - (* x_tags *) unfold res. rewrite map_app, group_results_tags. apply NoDup_app'.
    + unfold satr. destruct rn; simpl; repeat constructor. tauto.
    + apply NoDup_nodup.
    + intros p Hp Hq. apply nodup_In, in_map_iff in Hq. destruct Hq as ([q rows] & <- & Hi). simpl in Hp.
      destruct (Hltags _ _ Hi) as (a & Ha & ->). apply (Hheaduser a Ha). unfold satr in Hp. destruct rn; simpl in Hp; [|tauto].
      destruct Hp as [Hp|[]]. auto.
  - (* x_rows *) intros p rows Hi. unfold res in Hi. apply in_app_iff in Hi. destruct Hi as [Hi|Hi]; [|eapply group_results_nodup; eauto].
    unfold satr in Hi. destruct rn as [x|]; simpl in Hi; [|tauto]. destruct Hi as [Hi|[]]. injection Hi as <- <-.
    destruct (Hexn x eq_refl) as [Hise Hrn]. destruct x as [[nn sat] c'].
    pose proof (restricted_nodes_spec rd D Hrd i r hf nb cur last ctr nn sat c' Hwf Hise Hlt B1 B2 Hrn) as R. cbv zeta in R. simpl. tauto.
  - (* x_heads *) intros p rows Hi. unfold res in Hi. apply in_app_iff in Hi. destruct Hi as [Hi|Hi].
    + left. unfold satr in Hi. destruct rn as [x|]; simpl in Hi; [|tauto]. destruct Hi as [Hi|[]]. injection Hi as <- <-.
      split; auto. apply (Hexn x eq_refl).
    + right. assert (Ht : In p (map fst (group_results l))) by (apply in_map_iff; exists (p, rows); auto).
      rewrite group_results_tags in Ht. apply nodup_In, in_map_iff in Ht. destruct Ht as ([q rows'] & <- & Hi'). eapply Hltags; eauto.
  - (* x_ctr *) destruct rn as [x|]; auto. destruct (Hexn x eq_refl) as [Hise Hrn]. destruct x as [[nn sat] c'].
    pose proof (restricted_nodes_spec rd D Hrd i r hf nb cur last ctr nn sat c' Hwf Hise Hlt B1 B2 Hrn) as R. cbv zeta in R. simpl. tauto.
  - (* x_sound *)
    exists (fun mu => match rn with Some x => exists mu', msat mu' (fst (fst x)) /\ forall v, In v (frontier_list r ++ ex_vars r) -> mu' v = mu v | None => False end).
    split.
    { destruct rn as [x|]; [|constructor; tauto]. destruct (Hexn x eq_refl) as [Hise Hrn]. destruct x as [[nn sat] c'].
      pose proof (restricted_nodes_spec rd D Hrd i r hf nb cur last ctr nn sat c' Hwf Hise Hlt B1 B2 Hrn) as R. cbv zeta in R.
      destruct R as (R1 & R2 & R3 & R4 & R5 & [R6 R6'] & R7 & R8). simpl. constructor.
      - intros mu v (mu' & Hm & Hag) Hv. destruct (R4 mu' Hm) as [_ (base & Hb1 & Hb2 & Hb3)].
        assert (Hin : In (mu' v) (map mu' (ex_vars r))) by now apply in_map. rewrite Hb3 in Hin. apply in_map_iff in Hin.
        destruct Hin as (n & Hn & Hs). apply in_seq in Hs. exists n. split; [lia|]. rewrite Hn. symmetry. apply Hag. apply in_app_iff. auto.
      - intros mu1 mu2 v v' (m1 & Hm1 & Ha1) (m2 & Hm2 & Ha2) Hv Hv' Heq. destruct (R6 m1 m2 v v' Hm1 Hm2 Hv Hv') as [? Hw].
        + rewrite Ha1, Ha2; auto; apply in_app_iff; auto.
        + split; auto. intros w Hf. rewrite <- Ha1, <- Ha2; auto; apply in_app_iff; auto.
      - intros mu1 mu2 (m1 & Hm1 & Ha1) (m2 & Hm2 & Ha2) Hw v Hv. rewrite <- Ha1, <- Ha2 by (apply in_app_iff; auto).
        apply (R6' m1 m2 Hm1 Hm2); auto. intros w Hf. rewrite Ha1, Ha2 by (apply in_app_iff; auto). auto. }
    intros p row Hn Hp. apply Huser in Hn; auto. destruct Hn as (rows & Hi & Hr).
    destruct (Hh2 p rows Hi) as (k & a & Hk & -> & Har). unfold head_atom_rows in Har.
    destruct (match r_agg r with Some (_, j) => k =? j | None => false end) eqn:Hag.
    + right. destruct (r_agg r) as [[ag j]|] eqn:Hra; [|discriminate]. apply Nat.eqb_eq in Hag. subst j.
      destruct (agg_node nb ag ops) as [n'|] eqn:Ean; [|discriminate]. simpl in Ea. injection Ea as <-.
      destruct (head_rows a n') as [rows1|] eqn:Ehr; [|discriminate].
      destruct (eliminate_spec rd D Hrd (fst a) rows1 cur) as (rows2 & Ee & _ & He). rewrite Ee in Har. injection Har as <-.
      apply He in Hr. destruct Hr as [Hr Hnu].
      destruct (wf_agg r Hwf ag k Hra) as (W1 & W2 & W3 & W4 & W5 & W6).
      assert (Hops : forall o, In o ops -> exists v e, o = OEq v e /\ ~ In v (nvars nb) /\ v <> ag_out ag /\
         incl (e_vars e) (ag_out ag :: ag_group ag) /\ length (filter (assigns v) ops) <= 1).
      { intros o Ho. apply B3 in Ho. destruct Ho as (Ho & Hnb & Hnn). destruct (wf_ops r Hwf o Ho) as [Hall|[(ag' & k' & v & e & Hra' & -> & Hv & Hvo & Hev & Hvn)|(p' & xs' & Hp' & Hxs')]];
          [exfalso; apply Hnb; split; auto| |exfalso; apply (Hnn p' xs' Hp'); split; auto].
        - rewrite Hra in Hra'. injection Hra' as <- <-. exists v, e. split; auto. rewrite B2. repeat split; auto.
          destruct B4 as (l0 & HP). pose proof (wf_ops_once r Hwf v Hv Hvn) as Hl.
          assert (Hf : forall a b, Permutation a b -> length (filter (assigns v) a) = length (filter (assigns v) b)).
          { clear. induction 1; simpl; auto; try congruence.
            - destruct (assigns v x); simpl; congruence.
            - destruct (assigns v x), (assigns v y); simpl; congruence. }
          rewrite (Hf _ _ HP), filter_app, app_length in Hl. lia. }
      destruct (agg_node_spec nb ag ops n' B1 W2) as [An1 An2]; auto.
      { apply B2, W1. simpl. auto. } { intros v Hv. apply B2, W1. simpl. right. apply in_app_iff. auto. }
      { intros v Hv. apply B2, W1. simpl. right. apply in_app_iff. auto. } { rewrite B2. auto. }
      destruct (head_rows_spec _ _ _ An1 Ehr) as (Hinc & _ & Hrows). apply Hrows in Hr. destruct Hr as (mu & Hm & ->).
      pose proof Hm as Hm0. apply An2 in Hm. destruct Hm as (nu & z & Hnm & (L & L1 & L2 & L3) & Hg & Hz & Ho).
      exists ag, mu, k, a. split; auto. split; auto. split.
      { exists nu, z, L. split; [now apply Hmatch|]. split; auto. split.
        { intros t. rewrite L2. split; intros (nu' & Q1 & Q2 & Q3); exists nu'; (split; [now apply Hmatch|auto]). }
        repeat split; auto. intros o Ho1. apply Ho. apply B3. auto. }
      repeat split; auto. intros v Hv. apply Hinc in Hv.
      (* columns of the aggregate node *)
      unfold agg_node in Ean. destruct (project _ nb) as [ip|]; [|discriminate].
      destruct (gen_function_spec (agg_output_vars (nvars nb) ag) ops) as (vs & fns & rest & Eg & G1 & G2 & G3 & _).
      rewrite Eg in Ean. injection Ean as <-.
      assert (Hov : forall w, In w (agg_output_vars (nvars nb) ag) -> In w (ag_out ag :: ag_group ag)).
      { intros w Hw. unfold agg_output_vars, dedup in Hw.
        destruct (dedup_acc (filter (fun v0 => memv v0 (ag_group ag)) (nvars nb) ++ [ag_out ag]) []) as (t & Et & T1 & _).
        rewrite Et in Hw. simpl in Hw. apply T1, in_app_iff in Hw. destruct Hw as [Hw|[<-|[]]]; simpl; auto.
        apply filter_In in Hw. right. now apply memv_in. }
      assert (Hfv : nvars (fun_node (agg_output_vars (nvars nb) ag) fns
            (agg_rows (length (filter (fun v0 => memv v0 (ag_group ag)) (nvars nb))) (ag_val ag) (nrows ip))) = agg_output_vars (nvars nb) ag ++ map fst fns).
      { clear. generalize (agg_rows (length (filter (fun v0 => memv v0 (ag_group ag)) (nvars nb))) (ag_val ag) (nrows ip)).
        generalize (agg_output_vars (nvars nb) ag). induction fns as [|ve fns IH]; simpl; intros; [now rewrite app_nil_r|].
        rewrite IH, <- app_assoc. reflexivity. }
      rewrite Hfv in Hv. apply in_app_iff in Hv. destruct Hv as [Hv|Hv]; auto. right.
      apply in_map_iff in Hv. destruct Hv as ([v' e] & Hve & Hin). simpl in Hve. subst v'.
      assert (Ho1 : In (OEq v e) ops). { apply (Permutation_in _ (Permutation_sym G3)), in_app_iff. left. apply in_map_iff. exists (v, e). auto. }
      exists e. split; [now apply B3|]. destruct (Hops _ Ho1) as (v1 & e1 & He1 & _ & _ & Hi1 & _). injection He1 as <- <-. auto.
    + left. assert (Hagi : agg_index r <> Some k).
      { unfold agg_index. destruct (r_agg r) as [[ag j]|]; simpl; [|discriminate]. apply Nat.eqb_neq in Hag. congruence. }
      destruct (hatom_ex a) as [|e0 l0] eqn:Hex.
      * simpl in Har. destruct (head_rows a nb) as [rows1|] eqn:Ehr; [|discriminate].
        destruct (head_rows_spec _ _ _ B1 Ehr) as (_ & _ & Hrows).
        destruct (eliminate_spec rd D Hrd (fst a) rows1 cur) as (rows2 & Ee & _ & He). rewrite Ee in Har. injection Har as <-.
        apply He in Hr. destruct Hr as [Hr Hnu]. apply Hrows in Hr. destruct Hr as (nu & Hm & ->).
        exists nu, nu, k, a. split; [now apply Hmatch|]. repeat split; auto; congruence.
      * simpl in Har. destruct rn as [x|]; [|discriminate]. simpl in Har. destruct (Hexn x eq_refl) as [Hise Hrn]. destruct x as [[nn sat] c'].
        pose proof (restricted_nodes_spec rd D Hrd i r hf nb cur last ctr nn sat c' Hwf Hise Hlt B1 B2 Hrn) as R. cbv zeta in R.
        destruct R as (R1 & R2 & R3 & R4 & R5 & R6 & R7 & R8). simpl in Har.
        destruct (head_rows_spec _ _ _ R1 Har) as (Hinc & _ & Hrows). apply Hrows in Hr. destruct Hr as (mu & Hm & ->).
        destruct (R4 mu Hm) as [((nu & Hnm & Hag2) & Hns & Hnu) (base & Hb1 & Hb2 & Hb3)].
        destruct (ex_vars_spec r) as [En Ei].
        exists nu, (fun v => if in_dec Nat.eq_dec v (ex_vars r) then mu v else nu v), k, a.
        split; [now apply Hmatch|]. repeat split; auto; try congruence.
        -- intros v Hv. destruct (in_dec Nat.eq_dec v (ex_vars r)) as [Hi'|]; auto. exfalso. apply Hv. now apply Ei.
        -- apply hterm_val_ext. intros v Hv. destruct (in_dec Nat.eq_dec v (ex_vars r)) as [Hi'|Hni]; auto.
           specialize (Hinc v Hv). rewrite R2 in Hinc. apply in_app_iff in Hinc. destruct Hinc as [Hf|]; [|tauto]. symmetry. auto.
        -- exists mu. split; auto. intros v Hv. destruct (in_dec Nat.eq_dec v (ex_vars r)) as [|Hne']; auto.
           apply in_app_iff in Hv. destruct Hv as [Hv|]; [|tauto]. symmetry. auto.
        -- intros v Hv. rewrite <- R2. now apply Hinc.
        -- intros (m & Q1 & Q2). apply Hns. exists m. split; auto. intros v Hv. rewrite Q1; auto.
        -- erewrite map_ext_in; [exact Hnu|]. auto.
  - (* x_complete *) intros HS nu Hm. destruct (is_existential r) eqn:Hise.
    + destruct (restricted_nodes rd i r hf nb cur last ctr) as [[[nn sat] c']|] eqn:Hrn; [|discriminate]. simpl in Ex. injection Ex as <-.
      pose proof (restricted_nodes_spec rd D Hrd i r hf nb cur last ctr nn sat c' Hwf Hise Hlt B1 B2 Hrn) as R. cbv zeta in R.
      destruct R as (R1 & R2 & R3 & R4 & R5 & R6 & R7 & R8).
      destruct (ex_vars_spec r) as [En Ei].
      assert (Hok : sat_ok r i (fun p y => upto D cur p y \/ new_in res p y) (map nu (frontier_list r))).
      { destruct (upto_dec cur (sat_tag i) (map nu (frontier_list r))) as [Hu|Hu].
        - destruct (HS _ Hu) as (mu & He & Hh). exists mu. split; auto.
        - destruct (in_dec row_eq_dec (map nu (frontier_list r)) sat) as [Hi|Hi].
          + apply (Hsat (nn, sat, c')); auto.
          + exfalso. apply Hi. apply R8. exists nu. split; auto. left. split; [exists nu; split; [now apply Hmatch|auto]|]. split; auto.
            intros Hs. apply Hi. apply R8. exists nu. split; auto. }
      destruct Hok as (mu0 & Hf & Hh0).
      set (mu := fun v => if in_dec Nat.eq_dec v (ex_vars r) then mu0 v else nu v).
      exists mu. split.
      { intros v Hv. unfold mu. destruct (in_dec Nat.eq_dec v (ex_vars r)) as [Hi'|]; auto. exfalso. apply Hv. now apply Ei. }
      intros k a Hk Hag. assert (Ha : In a (r_head r)) by (eapply nth_error_In; eauto).
      destruct (hatom_ex a) as [|e0 l0] eqn:Hex.
      * assert (Heq : map (hterm_val mu) (snd a) = map (hterm_val nu) (snd a)).
        { apply hterm_val_ext. intros v Hv. unfold mu. destruct (in_dec Nat.eq_dec v (ex_vars r)) as [Hi'|]; auto. exfalso. apply Ei in Hi'.
          apply hatom_vars_cases in Hv. destruct Hv as [Hv|Hv].
          - destruct (wf_ex r Hwf v Hi') as (_ & Hno & _). now apply (Hno a Ha).
          - apply hatom_ex_vars in Hv. rewrite Hex in Hv. destruct Hv. }
        rewrite Heq. destruct (Hplain k a Hk Hag Hex nu Hm) as [?|Hn]; [auto|right]. apply Huser; auto.
      * assert (Hex' : hatom_ex a <> []) by congruence.
        destruct (Hexat k a Hk Hex' Hag) as (x & rows & Hx & Hr & _). injection Hx as <-. simpl in Hr.
        destruct (head_rows_spec _ _ _ R1 Hr) as (Hinc & _ & _).
        assert (Heq : map (hterm_val mu) (snd a) = map (hterm_val mu0) (snd a)).
        { apply hterm_val_ext. intros v Hv. unfold mu. destruct (in_dec Nat.eq_dec v (ex_vars r)) as [Hi'|Hni]; auto.
          specialize (Hinc v Hv). rewrite R2 in Hinc. apply in_app_iff in Hinc. destruct Hinc as [Hfv|]; [|tauto].
          apply (proj1 (map_eq_in nu mu0 (frontier_list r)) Hf v Hfv). }
        rewrite Heq. apply Hh0; auto.
    + exists nu. split; auto. intros k a Hk Hag. assert (Ha : In a (r_head r)) by (eapply nth_error_In; eauto).
      assert (Hex : hatom_ex a = []).
      { destruct (hatom_ex a) eqn:Hx; auto. exfalso. assert (is_existential r = true); [|congruence].
        apply is_existential_spec. exists a. split; auto. congruence. }
      destruct (Hplain k a Hk Hag Hex nu Hm) as [?|Hn]; [auto|right]. apply Huser; auto.
  - (* x_agg *) intros ag k a mu Hra Hk Hnew. rewrite Hra in Ea.
    destruct (agg_node nb ag ops) as [n'|] eqn:Ean; [|discriminate]. simpl in Ea. injection Ea as <-.
    destruct (Hh1 k a Hk) as (rows & Har & Hi). unfold head_atom_rows in Har. rewrite Hra, Nat.eqb_refl in Har.
    destruct (head_rows a n') as [rows1|] eqn:Ehr; [|discriminate].
    destruct (eliminate_spec rd D Hrd (fst a) rows1 cur) as (rows2 & Ee & _ & He). rewrite Ee in Har. injection Har as <-.
    destruct (wf_agg r Hwf ag k Hra) as (W1 & W2 & W3 & W4 & W5 & W6).
    assert (Hops : forall o, In o ops -> exists v e, o = OEq v e /\ ~ In v (nvars nb) /\ v <> ag_out ag /\
       incl (e_vars e) (ag_out ag :: ag_group ag) /\ length (filter (assigns v) ops) <= 1).
    { intros o Ho. apply B3 in Ho. destruct Ho as (Ho & Hnb & Hnn). destruct (wf_ops r Hwf o Ho) as [Hall|[(ag' & k' & v & e & Hra' & -> & Hv & Hvo & Hev & Hvn)|(p' & xs' & Hp' & Hxs')]];
          [exfalso; apply Hnb; split; auto| |exfalso; apply (Hnn p' xs' Hp'); split; auto].
      - rewrite Hra in Hra'. injection Hra' as <- <-. exists v, e. split; auto. rewrite B2. repeat split; auto.
        destruct B4 as (l0 & HP). pose proof (wf_ops_once r Hwf v Hv Hvn) as Hl.
        assert (Hf : forall a b, Permutation a b -> length (filter (assigns v) a) = length (filter (assigns v) b)).
        { clear. induction 1; simpl; auto; try congruence.
          - destruct (assigns v x); simpl; congruence.
          - destruct (assigns v x), (assigns v y); simpl; congruence. }
        rewrite (Hf _ _ HP), filter_app, app_length in Hl. lia. }
    destruct (agg_node_spec nb ag ops n' B1 W2) as [An1 An2]; auto.
    { apply B2, W1. simpl. auto. } { intros v Hv. apply B2, W1. simpl. right. apply in_app_iff. auto. }
    { intros v Hv. apply B2, W1. simpl. right. apply in_app_iff. auto. } { rewrite B2. auto. }
    destruct (upto_dec cur (fst a) (map (hterm_val mu) (snd a))) as [Hu|Hu]; [left; auto|right].
    apply Huser. { apply Hheaduser. eapply nth_error_In; eauto. }
    exists rows2. split; auto. apply He. split; auto.
    destruct (head_rows_spec _ _ _ An1 Ehr) as (_ & _ & Hrows). apply Hrows. exists mu. split; auto. apply An2.
    destruct Hnew as (nu & z & L & N1 & N2 & N3 & N4 & N5 & N6 & N7). exists nu, z. split; [now apply Hmatch|]. split.
    { exists L. split; auto. split; auto. intros t. rewrite N3. split; intros (nu' & Q1 & Q2 & Q3); exists nu'; (split; [now apply Hmatch|auto]). }
    repeat split; auto. intros o Ho. apply B3 in Ho. apply N7. exact Ho.
  - (* x_sat *) intros f Hn. apply Hsatl in Hn. destruct Hn as (x & Hx & Hf). apply (Hsat x f Hx Hf).
  - (* x_satc *) intros Hise _ nu Hs. rewrite Hise in Ex.
    destruct (restricted_nodes rd i r hf nb cur last ctr) as [[[nn sat] c']|] eqn:Hrn; [|discriminate]. simpl in Ex. injection Ex as <-.
    pose proof (restricted_nodes_spec rd D Hrd i r hf nb cur last ctr nn sat c' Hwf Hise Hlt B1 B2 Hrn) as R. cbv zeta in R.
    destruct R as (R1 & R2 & R3 & R4 & R5 & R6 & R7 & R8).
    destruct (upto_dec cur (sat_tag i) (map nu (frontier_list r))) as [Hu|Hu]; [auto|right].
    apply Hsatl. exists (nn, sat, c'). split; auto. simpl. apply R8. exists nu. split; auto.
  - (* x_empty *) intros Hno. exfalso. destruct Hne as (nu & Hm). now apply (Hno nu).
Qed.
End Exec.
