(** Stratification, and the schedules of the default strategy. *)
From Coq Require Import List Arith Bool Lia Permutation Relations.
From Verif Require Import TableModel EngineModel StrategyModel StrategySpec StrategyProofs.
Import ListNotations.

(** ** Edges *)

Lemma in_indexed {A} (l : list A) i x : In (i, x) (indexed l) <-> nth_error l i = Some x.
Proof.
  unfold indexed. assert (Hg : forall s, In (i, x) (combine (seq s (length l)) l) <-> s <= i /\ nth_error l (i - s) = Some x).
  { induction l as [|y l IH]; intros s; simpl.
    - split; [tauto|]. intros [_ Hx]. destruct (i - s); discriminate.
    - rewrite IH. split.
      + intros [E|[Hle Hx]].
        * injection E as -> ->. split; auto. now rewrite Nat.sub_diag.
        * split; [lia|]. replace (i - s) with (S (i - S s)) by lia. exact Hx.
      + intros [Hle Hx]. destruct (i - s) as [|k] eqn:Ek.
        * left. injection Hx as ->. f_equal. lia.
        * right. split; [lia|]. replace (i - S s) with k by lia. exact Hx. }
  rewrite Hg. rewrite Nat.sub_0_r. split; [tauto|]. intros; split; auto. lia.
Qed.

Lemma positive_edges_spec rules j i : In (j, i) (positive_edges rules) <-> feeds rules j i.
Proof.
  unfold positive_edges, feeds. rewrite in_flat_map. split.
  - intros ([j0 rj] & Hj & Hx). apply in_flat_map in Hx. destruct Hx as (h & Hh & Hx). apply in_flat_map in Hx. destruct Hx as ([i0 ri] & Hi & Hx).
    apply in_flat_map in Hx. destruct Hx as (a & Ha & Hx). simpl in *. destruct (fst a =? fst h) eqn:E; [|destruct Hx]. destruct Hx as [Hx|[]]. injection Hx as <- <-.
    apply in_indexed in Hj, Hi. apply Nat.eqb_eq in E. exists rj, ri, h, a. auto 10.
  - intros (rj & ri & h & a & Hj & Hi & Hh & Ha & E). exists (j, rj). split; [now apply in_indexed|]. apply in_flat_map. exists h. split; auto.
    apply in_flat_map. exists (i, ri). split; [now apply in_indexed|]. apply in_flat_map. exists a. split; auto. simpl. assert (E' : (fst a =? fst h) = true) by (apply Nat.eqb_eq; auto). match goal with |- context[if ?c then _ else _] => replace c with true end. simpl. auto.
Qed.

Lemma body_literals_spec r p neg : In (p, neg) (body_literals r) <->
  (exists a, In a (r_pos r) /\ fst a = p /\ neg = has_agg r) \/ (exists a, In a (r_neg r) /\ fst a = p /\ neg = true).
Proof.
  unfold body_literals. rewrite in_app_iff, !in_map_iff. split.
  - intros [(a & E & Ha)|(a & E & Ha)]; injection E as <- <-; [left|right]; exists a; auto.
  - intros [(a & Ha & <- & ->)|(a & Ha & <- & ->)]; [left|right]; exists a; auto.
Qed.

Lemma negation_edges_spec rules j i neg : In (j, i, neg) (negation_edges rules) <->
  if neg then feeds_neg rules j i else feeds rules j i /\ exists ri, nth_error rules i = Some ri /\ r_agg ri = None.
Proof.
  assert (Hgen : In (j, i, neg) (negation_edges rules) <-> exists rj ri h, nth_error rules j = Some rj /\ nth_error rules i = Some ri /\ In h (r_head rj) /\ In (fst h, neg) (body_literals ri)).
  { unfold negation_edges. rewrite in_flat_map. split.
    - intros ([j0 rj] & Hj & Hx). apply in_flat_map in Hx. destruct Hx as (h & Hh & Hx). apply in_flat_map in Hx. destruct Hx as ([i0 ri] & Hi & Hx).
      apply in_flat_map in Hx. destruct Hx as ([p b] & Ha & Hx). simpl in *. destruct (p =? fst h) eqn:E; [|destruct Hx]. destruct Hx as [Hx|[]]. injection Hx as <- <- <-.
      apply in_indexed in Hj, Hi. apply Nat.eqb_eq in E. subst p. exists rj, ri, h. auto 10.
    - intros (rj & ri & h & Hj & Hi & Hh & Ha). exists (j, rj). split; [now apply in_indexed|]. apply in_flat_map. exists h. split; auto.
      apply in_flat_map. exists (i, ri). split; [now apply in_indexed|]. apply in_flat_map. exists (fst h, neg). split; auto. simpl. rewrite Nat.eqb_refl. simpl. auto. }
  rewrite Hgen. clear Hgen. destruct neg.
  - unfold feeds_neg. split.
    + intros (rj & ri & h & Hj & Hi & Hh & Hb). apply body_literals_spec in Hb. destruct Hb as [(a & Ha & E & Hg)|(a & Ha & E & _)]; exists rj, ri, h, a; repeat split; auto.
      right. split; auto. unfold has_agg in Hg. destruct (r_agg ri); congruence.
    + intros (rj & ri & h & a & Hj & Hi & Hh & Hb & E). exists rj, ri, h. repeat split; auto. apply body_literals_spec.
      destruct Hb as [Hb|[Hg Hb]]; [right|left]; exists a; repeat split; auto. unfold has_agg. destruct (r_agg ri); congruence.
  - unfold feeds. split.
    + intros (rj & ri & h & Hj & Hi & Hh & Hb). apply body_literals_spec in Hb. destruct Hb as [(a & Ha & E & Hg)|(a & Ha & E & ?)]; [|discriminate]. split.
      * exists rj, ri, h, a. auto 10.
      * exists ri. split; auto. unfold has_agg in Hg. destruct (r_agg ri); congruence.
    + intros [(rj & ri & h & a & Hj & Hi & Hh & Hb & E) (ri' & Hi' & Hg)]. rewrite Hi in Hi'. injection Hi' as <-. exists rj, ri, h. repeat split; auto. apply body_literals_spec.
      left. exists a. repeat split; auto. unfold has_agg. now rewrite Hg.
Qed.

Lemma plain_edges_spec rules j i : In (j, i) (map fst (negation_edges rules)) <-> feeds rules j i \/ feeds_neg rules j i.
Proof.
  rewrite in_map_iff. split.
  - intros ([[j0 i0] neg] & E & Hin). simpl in E. injection E as -> ->. apply negation_edges_spec in Hin. destruct neg; tauto.
  - intros Hf. assert (Hc : feeds_neg rules j i \/ (feeds rules j i /\ exists ri, nth_error rules i = Some ri /\ r_agg ri = None)).
    { destruct Hf as [Hf|Hf]; auto. destruct Hf as (rj & ri & a & b & Hj & Hi & Ha & Hb & E). destruct (r_agg ri) eqn:Eg.
      - left. exists rj, ri, a, b. repeat split; auto. right. split; auto. congruence.
      - right. split; [exists rj, ri, a, b; auto 10|]. exists ri. auto. }
    destruct Hc as [Hc|Hc]; [exists (j, i, true)|exists (j, i, false)]; (split; [reflexivity|]); apply negation_edges_spec; auto.
Qed.

Lemma edges_bound rules j i : feeds rules j i \/ feeds_neg rules j i -> j < length rules /\ i < length rules.
Proof. intros [(rj & ri & a & b & Hj & Hi & _)|(rj & ri & a & b & Hj & Hi & _)]; split; apply nth_error_Some; congruence. Qed.

(** ** Levels *)

Lemma memn_spec v l : memn v l = true <-> In v l.
Proof. unfold memn. rewrite existsb_exists. split; [intros (x & Hx & E); apply Nat.eqb_eq in E; now subst|]. intros; exists v; split; auto. apply Nat.eqb_refl. Qed.
Lemma memn_false v l : memn v l = false <-> ~ In v l.
Proof. rewrite <- memn_spec. destruct (memn v l); intuition congruence. Qed.

Lemma level_of_app d e u l : level_of d u = Some l -> level_of (d ++ e) u = Some l.
Proof.
  unfold level_of. induction d as [|x d IH]; simpl; [discriminate|]. destruct (memn u (fst x)); auto.
Qed.
Lemma level_of_some d u l : level_of d u = Some l -> exists c k, nth_error d k = Some (c, l) /\ In u c.
Proof.
  unfold level_of. induction d as [|[c0 l0] d IH]; simpl; [discriminate|]. destruct (memn u c0) eqn:E.
  - intros E'. injection E' as <-. exists c0, 0. split; auto. now apply memn_spec.
  - intros E'. destruct (IH E') as (c & k & Hk & Hu). exists c, (S k). auto.
Qed.
Lemma level_of_in d u c k l : NoDup (concat (map fst d)) -> nth_error d k = Some (c, l) -> In u c -> level_of d u = Some l.
Proof.
  unfold level_of. revert k. induction d as [|[c0 l0] d IH]; intros k Hnd Hk Hu; simpl in *; [destruct k; discriminate|].
  destruct k as [|k]; simpl in Hk.
  - injection Hk as <- <-. apply memn_spec in Hu. now rewrite Hu.
  - destruct (memn u c0) eqn:E.
    + exfalso. apply memn_spec in E. assert (Hin : In u (concat (map fst d))).
      { apply in_concat. exists c. split; auto. apply in_map_iff. exists (c, l). split; auto. eapply nth_error_In; eauto. }
      clear - Hnd E Hin. induction c0 as [|x c0 IH]; [destruct E|]. simpl in Hnd. apply NoDup_cons_iff in Hnd. destruct Hnd as [Hx Hnd].
      destruct E as [->|E]; auto. apply Hx, in_app_iff. auto.
    + apply (IH k); auto. clear - Hnd. induction c0 as [|x c0 IH]; auto. simpl in Hnd. apply NoDup_cons_iff in Hnd. tauto.
Qed.

Lemma comp_level_spec d c edges m : comp_level d c edges = Some m ->
  (forall u v neg, In (u, v, neg) edges -> In v c -> ~ In u c -> exists l, level_of d u = Some l /\ l + (if neg then 1 else 0) <= m) /\
  (m = 0 \/ exists u v (neg : bool) l, In (u, v, neg) edges /\ In v c /\ ~ In u c /\ level_of d u = Some l /\ m = l + (if neg then 1 else 0)).
Proof.
  revert m. induction edges as [|[[u v] neg] edges IH]; intros m; simpl.
  - intros E. injection E as <-. split; [intros ? ? ? []|auto].
  - destruct (comp_level d c edges) as [m0|]; [|discriminate]. specialize (IH m0 eq_refl). destruct IH as [IH1 IH2].
    destruct (memn v c && negb (memn u c)) eqn:Ec.
    + apply andb_true_iff in Ec. destruct Ec as [Ev Eu]. apply negb_true_iff in Eu. apply memn_spec in Ev. apply memn_false in Eu.
      destruct (level_of d u) as [l|] eqn:El; [|discriminate]. intros E. injection E as <-. split.
      * intros u0 v0 neg0 [E|Hin] Hv Hu.
        -- injection E as <- <- <-. exists l. split; auto. destruct neg; lia.
        -- destruct (IH1 u0 v0 neg0 Hin Hv Hu) as (l0 & H1 & H2). exists l0. split; auto. lia.
      * destruct (le_lt_dec (if neg then S l else l) m0) as [Hle|Hgt].
        -- rewrite Nat.max_l by auto. destruct IH2 as [IH2|(u0 & v0 & n0 & l0 & Hin & Hr)]; auto. right. exists u0, v0, n0, l0. split; auto.
        -- rewrite Nat.max_r by lia. right. exists u, v, neg, l. repeat split; auto. destruct neg; lia.
    + intros E. injection E as <-. split.
      * intros u0 v0 neg0 [E|Hin] Hv Hu; [|eauto]. injection E as <- <- <-. exfalso. apply andb_false_iff in Ec. destruct Ec as [Ec|Ec].
        -- apply memn_false in Ec. auto.
        -- apply negb_false_iff, memn_spec in Ec. auto.
      * destruct IH2 as [IH2|(u0 & v0 & n0 & l0 & Hin & Hr)]; auto. right. exists u0, v0, n0, l0. split; auto.
Qed.

Lemma comp_level_total d c edges : (forall u v neg, In (u, v, neg) edges -> In v c -> ~ In u c -> level_of d u <> None) -> comp_level d c edges <> None.
Proof.
  induction edges as [|[[u v] neg] edges IH]; intros Hd; simpl; [discriminate|].
  destruct (comp_level d c edges) as [m0|]; [|apply IH; intros; eapply Hd; simpl; eauto].
  destruct (memn v c && negb (memn u c)) eqn:Ec; [|discriminate].
  apply andb_true_iff in Ec. destruct Ec as [Ev Eu]. apply negb_true_iff in Eu. apply memn_spec in Ev. apply memn_false in Eu.
  specialize (Hd u v neg (or_introl eq_refl) Ev Eu). destruct (level_of d u); congruence.
Qed.

Lemma comp_levels_spec edges comps : forall d lv, comp_levels d edges comps = Some lv ->
  exists tl, lv = d ++ tl /\ map fst tl = comps /\
    forall k c l, nth_error tl k = Some (c, l) -> comp_level (d ++ firstn k tl) c edges = Some l.
Proof.
  induction comps as [|c comps IH]; intros d lv; simpl.
  - intros E. injection E as <-. exists []. rewrite app_nil_r. split; auto. split; auto. intros [|k]; discriminate.
  - destruct (comp_level d c edges) as [l|] eqn:El; [|discriminate]. intros E. destruct (IH _ _ E) as (tl & -> & Ht & Hk).
    exists ((c, l) :: tl). rewrite <- app_assoc. split; auto. split; [simpl; now rewrite Ht|].
    intros [|k] c0 l0 Hn; simpl in *.
    + injection Hn as <- <-. now rewrite app_nil_r.
    + specialize (Hk k c0 l0 Hn). now rewrite <- app_assoc in Hk.
Qed.

Lemma comp_levels_total edges comps : forall d,
  (forall k c u v neg, nth_error comps k = Some c -> In (u, v, neg) edges -> In v c -> ~ In u c ->
      level_of d u <> None \/ exists k' c', k' < k /\ nth_error comps k' = Some c' /\ In u c') ->
  comp_levels d edges comps <> None.
Proof.
  induction comps as [|c comps IH]; intros d Hd; simpl; [discriminate|].
  destruct (comp_level d c edges) as [l|] eqn:El.
  - apply IH. intros k c0 u v neg Hk Hin Hv Hu. destruct (Hd (S k) c0 u v neg Hk Hin Hv Hu) as [Hl|(k' & c' & Hlt & Hk' & Hu')].
    + left. destruct (level_of d u) as [l0|] eqn:E0; [|congruence]. rewrite (level_of_app _ _ _ _ E0). discriminate.
    + destruct k' as [|k']; simpl in Hk'.
      * injection Hk' as <-. left. unfold level_of. clear - Hu'. induction d as [|[c1 l1] d IHd]; simpl.
        -- apply memn_spec in Hu'. now rewrite Hu'.
        -- destruct (memn u c1); auto. simpl. discriminate.
      * right. exists k', c'. split; [lia|auto].
  - exfalso. revert El. apply comp_level_total. intros u v neg Hin Hv Hu. destruct (Hd 0 c u v neg eq_refl Hin Hv Hu) as [?|(k' & ? & ? & _)]; [auto|lia].
Qed.

Lemma concat_unique (comps : list (list nat)) k k' c c' u : NoDup (concat comps) ->
  nth_error comps k = Some c -> nth_error comps k' = Some c' -> In u c -> In u c' -> k = k'.
Proof.
  revert k k'. induction comps as [|c0 cs IH]; intros k k' Hnd Hk Hk' Hu Hu'; [destruct k; discriminate|].
  simpl in Hnd. assert (Hdis : In u c0 -> In u (concat cs) -> False).
  { clear - Hnd. induction c0 as [|x c0 IH]; [intros []|]. simpl in Hnd. apply NoDup_cons_iff in Hnd. destruct Hnd as [Hx Hnd].
    intros [->|Hi]; auto. intros Hc. apply Hx, in_app_iff. auto. }
  assert (Hnd' : NoDup (concat cs)). { clear - Hnd. induction c0 as [|x c0 IH]; auto. simpl in Hnd. apply NoDup_cons_iff in Hnd. tauto. }
  destruct k as [|k], k' as [|k']; simpl in *; auto.
  - exfalso. injection Hk as <-. apply Hdis; auto. apply in_concat. exists c'. split; auto. eapply nth_error_In; eauto.
  - exfalso. injection Hk' as <-. apply Hdis; auto. apply in_concat. exists c. split; auto. eapply nth_error_In; eauto.
Qed.

Section Stratify.
Context (n : nat) (edges : list (nat * nat * bool)) (comps : list (list nat)).
Context (Hco : condensation n (map fst edges) comps).
Context (Hbd : forall u v neg, In (u, v, neg) edges -> u < n /\ v < n).

Lemma comp_exists u : u < n -> exists k c, nth_error comps k = Some c /\ In u c.
Proof.
  intros Hu. assert (Hin : In u (concat comps)). { eapply Permutation_in; [symmetry; apply (co_part _ _ _ Hco)|]. apply in_seq. lia. }
  apply in_concat in Hin. destruct Hin as (c & Hc & Hu'). apply In_nth_error in Hc. destruct Hc as (k & Hk). eauto.
Qed.
Lemma comps_nodup : NoDup (concat comps).
Proof. eapply Permutation_NoDup; [symmetry; apply (co_part _ _ _ Hco)|apply seq_NoDup]. Qed.
Lemma comp_unique k k' c c' u : nth_error comps k = Some c -> nth_error comps k' = Some c' -> In u c -> In u c' -> k = k'.
Proof. apply concat_unique, comps_nodup. Qed.

Lemma edge_in u v neg : In (u, v, neg) edges -> In (u, v) (map fst edges).
Proof. intros Hi. apply in_map_iff. exists (u, v, neg). auto. Qed.

Lemma levels_total : comp_levels [] edges comps <> None.
Proof.
  apply comp_levels_total. intros k c u v neg Hk Hin Hv Hu. right.
  destruct (Hbd u v neg Hin) as [Hun _]. destruct (comp_exists u Hun) as (k' & c' & Hk' & Hu').
  exists k', c'. split; auto. assert (k' <= k). { eapply (co_topo _ _ _ Hco k' k); eauto. eapply edge_in; eauto. }
  assert (k' <> k) by (intros ->; congruence). lia.
Qed.

Lemma neg_self_cycle_spec : neg_self_cycle edges comps = true <-> exists u v, In (u, v, true) edges /\ reach (map fst edges) v u.
Proof.
  unfold neg_self_cycle. rewrite existsb_exists. split.
  - intros (c & Hc & Hx). apply existsb_exists in Hx. destruct Hx as ([[u v] neg] & Hin & Hx). apply andb_true_iff in Hx. destruct Hx as [Hx Hneg].
    apply andb_true_iff in Hx. destruct Hx as [Hu Hv]. apply memn_spec in Hu, Hv. subst neg. exists u, v. split; auto.
    apply (co_scc _ _ _ Hco c u v Hc Hu). auto.
  - intros (u & v & Hin & Hr). destruct (Hbd u v true Hin) as [Hu _]. destruct (comp_exists u Hu) as (k & c & Hk & Huc).
    assert (Hc : In c comps) by (eapply nth_error_In; eauto). exists c. split; auto. apply existsb_exists. exists (u, v, true). split; auto.
    assert (Hv : In v c). { apply (co_scc _ _ _ Hco c u v Hc Huc). split; auto. apply rt_step. eapply edge_in; eauto. }
    apply memn_spec in Huc, Hv. now rewrite Huc, Hv.
Qed.

Context (lv : list (list nat * nat)) (Hlv : comp_levels [] edges comps = Some lv).

Lemma lv_fst : map fst lv = comps.
Proof. destruct (comp_levels_spec _ _ _ _ Hlv) as (tl & -> & Ht & _). exact Ht. Qed.
Lemma lv_nth k c l : nth_error lv k = Some (c, l) -> nth_error comps k = Some c.
Proof. intros E. rewrite <- lv_fst. now rewrite (map_nth_error fst _ _ E). Qed.
Lemma comps_nth k c : nth_error comps k = Some c -> exists l, nth_error lv k = Some (c, l).
Proof.
  rewrite <- lv_fst, nth_error_map. destruct (nth_error lv k) as [[c' l]|]; [|discriminate]. simpl. intros E. injection E as <-. eauto.
Qed.
Lemma lv_level k c l : nth_error lv k = Some (c, l) -> comp_level (firstn k lv) c edges = Some l.
Proof. destruct (comp_levels_spec _ _ _ _ Hlv) as (tl & -> & Ht & Hk). apply Hk. Qed.

Definition rank (u : nat) : nat := match level_of lv u with Some l => l | None => 0 end.

Lemma rank_comp k c l u : nth_error lv k = Some (c, l) -> In u c -> rank u = l.
Proof.
  intros Hk Hu. unfold rank. erewrite level_of_in; eauto. rewrite lv_fst. apply comps_nodup.
Qed.
Lemma firstn_level k u l : level_of (firstn k lv) u = Some l -> rank u = l.
Proof. intros E. unfold rank. rewrite <- (firstn_skipn k lv). now rewrite (level_of_app _ _ _ _ E). Qed.

Lemma rank_edge u v neg : neg_self_cycle edges comps = false -> In (u, v, neg) edges -> rank u + (if neg then 1 else 0) <= rank v.
Proof.
  intros Hns Hin. destruct (Hbd u v neg Hin) as [Hu Hv]. destruct (comp_exists v Hv) as (k & c & Hk & Hvc). destruct (comps_nth k c Hk) as (l & Hl).
  rewrite (rank_comp k c l v Hl Hvc). destruct (in_dec Nat.eq_dec u c) as [Huc|Huc].
  - rewrite (rank_comp k c l u Hl Huc). destruct neg; [|lia]. exfalso.
    assert (neg_self_cycle edges comps = true); [|congruence]. unfold neg_self_cycle. apply existsb_exists. exists c. split; [eapply nth_error_In; eauto|].
    apply existsb_exists. exists (u, v, true). split; auto. apply memn_spec in Huc, Hvc. now rewrite Huc, Hvc.
  - destruct (comp_level_spec _ _ _ _ (lv_level k c l Hl)) as [Hle _]. destruct (Hle u v neg Hin Hvc Huc) as (l0 & E & Hl0).
    rewrite (firstn_level _ _ _ E). exact Hl0.
Qed.

Lemma nth_firstn {A} (l : list A) m k x : nth_error (firstn m l) k = Some x -> k < m /\ nth_error l k = Some x.
Proof.
  revert m k. induction l as [|y l IH]; intros [|m] [|k] E; simpl in *; try discriminate.
  - split; [lia|auto].
  - apply IH in E. destruct E. split; [lia|auto].
Qed.

Lemma levels_down m : (exists k c, nth_error lv k = Some (c, S m)) -> exists k c, nth_error lv k = Some (c, m).
Proof.
  intros (k & c & Hk). revert c Hk. induction k as [k IH] using lt_wf_ind. intros c Hk.
  destruct (comp_level_spec _ _ _ _ (lv_level k c _ Hk)) as [_ [?|(u & v & neg & l & Hin & Hv & Hu & Hl & Em)]]; [discriminate|].
  destruct (level_of_some _ _ _ Hl) as (c' & k' & Hk' & Hu'). apply nth_firstn in Hk'. destruct Hk' as [Hlt Hk'].
  destruct neg.
  - exists k', c'. assert (l = m) by lia. now subst l.
  - apply (IH k' Hlt c'). rewrite Hk'. f_equal. f_equal. lia.
Qed.
Lemma levels_all m j : (exists k c, nth_error lv k = Some (c, m)) -> j <= m -> exists k c, nth_error lv k = Some (c, j).
Proof.
  intros Hm Hj. assert (Hx : forall d, j + d <= m -> j + d = m \/ True) by auto. clear Hx.
  induction m as [|m IH]; [assert (j = 0) by lia; now subst|]. destruct (Nat.eq_dec j (S m)) as [->|Hne]; auto. apply IH; [now apply levels_down|lia].
Qed.
Lemma level_bound m : (exists k c, nth_error lv k = Some (c, m)) -> m < length comps.
Proof.
  intros Hm. rewrite <- lv_fst, map_length.
  assert (Hl : length (seq 0 (S m)) <= length (map snd lv)).
  { apply NoDup_incl_length; [apply seq_NoDup|]. intros j Hj. apply in_seq in Hj. destruct (levels_all m j Hm) as (k & c & Hk); [lia|].
    apply in_map_iff. exists (c, j). split; auto. eapply nth_error_In; eauto. }
  rewrite seq_length, map_length in Hl. lia.
Qed.

Definition stratum (k : nat) : list nat := filter (fun v => existsb (fun cl => (snd cl =? k) && memn v (fst cl)) lv) (seq 0 n).

Lemma in_stratum k v : In v (stratum k) <-> v < n /\ rank v = k.
Proof.
  unfold stratum. rewrite filter_In, in_seq, existsb_exists. split.
  - intros [Hv ([c l] & Hin & Hx)]. apply andb_true_iff in Hx. destruct Hx as [Hl Hm]. simpl in *. apply Nat.eqb_eq in Hl. apply memn_spec in Hm. subst l.
    split; [lia|]. apply In_nth_error in Hin. destruct Hin as (i & Hi). eapply rank_comp; eauto.
  - intros [Hv Hr]. split; [lia|]. destruct (comp_exists v Hv) as (i & c & Hi & Hvc). destruct (comps_nth i c Hi) as (l & Hl).
    exists (c, l). split; [eapply nth_error_In; eauto|]. simpl. apply andb_true_iff. split; [|now apply memn_spec]. apply Nat.eqb_eq. rewrite <- Hr. symmetry. eapply rank_comp; eauto.
Qed.

Lemma take_strata_nth fuel : forall k j g, nth_error (take_strata n lv k fuel) j = Some g -> g = stratum (k + j).
Proof.
  induction fuel as [|f IH]; intros k j g; simpl; [destruct j; discriminate|]. destruct (existsb _ lv); [|destruct j; discriminate].
  destruct j as [|j]; simpl.
  - intros E. injection E as <-. now rewrite Nat.add_0_r.
  - intros E. apply IH in E. rewrite E. f_equal. lia.
Qed.
Lemma take_strata_has fuel : forall k j, j < fuel -> (forall i, k <= i <= k + j -> exists q c, nth_error lv q = Some (c, i)) -> exists g, nth_error (take_strata n lv k fuel) j = Some g.
Proof.
  induction fuel as [|f IH]; intros k j Hj Hall; [lia|]. simpl.
  assert (Ee : existsb (fun cl => snd cl =? k) lv = true).
  { apply existsb_exists. destruct (Hall k) as (q & c & Hq); [lia|]. exists (c, k). split; [eapply nth_error_In; eauto|]. simpl. apply Nat.eqb_refl. }
  rewrite Ee. destruct j as [|j]; simpl; [eauto|]. apply IH; [lia|]. intros i Hi. apply Hall. lia.
Qed.

Lemma strata_spec strata : stratify n edges comps = Some (Some strata) ->
  (forall k g, nth_error strata k = Some g -> g = stratum k) /\ (forall v, v < n -> exists g, nth_error strata (rank v) = Some g /\ In v g).
Proof.
  unfold stratify. destruct (neg_self_cycle edges comps); [discriminate|]. rewrite Hlv. simpl. intros E. injection E as <-. split.
  - intros k g Hk. apply take_strata_nth in Hk. exact Hk.
  - intros v Hv. destruct (comp_exists v Hv) as (i & c & Hi & Hvc). destruct (comps_nth i c Hi) as (l & Hl).
    assert (Hr : rank v = l) by (eapply rank_comp; eauto).
    destruct (take_strata_has (length comps) 0 (rank v)) as (g & Hg).
    + apply level_bound. rewrite Hr. eauto.
    + intros j Hj. apply (levels_all (rank v)); [rewrite Hr; eauto|lia].
    + exists g. split; auto. apply take_strata_nth in Hg. simpl in Hg. subst g. apply in_stratum. auto.
Qed.
End Stratify.

(** ** Groups *)

Lemma select_spec {A} (l : list A) ids rs : select l ids = Some rs ->
  length rs = length ids /\ forall t i, nth_error ids t = Some i -> exists x, nth_error l i = Some x /\ nth_error rs t = Some x.
Proof.
  revert rs. induction ids as [|i ids IH]; intros rs; simpl.
  - intros E. injection E as <-. split; auto. intros [|t]; discriminate.
  - destruct (nth_error l i) as [x|] eqn:Ex; [|discriminate]. destruct (select l ids) as [xs|]; [|discriminate].
    intros E. injection E as <-. destruct (IH xs eq_refl) as [Hl Hn]. split; [simpl; auto|]. intros [|t] j Hj; simpl in *.
    + injection Hj as <-. exists x. auto.
    + auto.
Qed.
Lemma select_total {A} (l : list A) ids : (forall i, In i ids -> i < length l) -> exists rs, select l ids = Some rs.
Proof.
  induction ids as [|i ids IH]; intros Hi; simpl; [eauto|]. destruct IH as (rs & E); [intros; apply Hi; simpl; auto|].
  destruct (nth_error l i) as [x|] eqn:Ex; [rewrite E; eauto|]. apply nth_error_None in Ex. specialize (Hi i (or_introl eq_refl)). lia.
Qed.
Lemma groups_spec {T} (new : nat -> list rule -> option T) rules groups : forall k subs, groups_new new rules k groups = Some subs ->
  map fst subs = groups /\ forall j g t, nth_error subs j = Some (g, t) -> exists rs, select rules g = Some rs /\ new (k + j) rs = Some t.
Proof.
  induction groups as [|g groups IH]; intros k subs; simpl.
  - intros E. injection E as <-. split; auto. intros [|j]; discriminate.
  - destruct (select rules g) as [rs|] eqn:Er; [|discriminate]. destruct (new k rs) as [t|] eqn:Et; [|discriminate].
    destruct (groups_new new rules (S k) groups) as [l|] eqn:El; [|discriminate]. intros E. injection E as <-.
    destruct (IH (S k) l El) as [H1 H2]. split; [simpl; now rewrite H1|]. intros [|j] g0 t0 Hj; simpl in *.
    + injection Hj as <- <-. exists rs. rewrite Nat.add_0_r. auto.
    + destruct (H2 j g0 t0 Hj) as (rs' & H3 & H4). exists rs'. split; auto. now rewrite Nat.add_succ_r.
Qed.
Lemma groups_total {T} (new : nat -> list rule -> option T) rules groups : forall k,
  (forall g i, In g groups -> In i g -> i < length rules) ->
  (forall j g rs, nth_error groups j = Some g -> select rules g = Some rs -> new (k + j) rs <> None) -> groups_new new rules k groups <> None.
Proof.
  induction groups as [|g groups IH]; intros k Hb Hn; simpl; [discriminate|].
  destruct (select_total rules g) as (rs & Er); [intros; eapply Hb; simpl; eauto|]. rewrite Er.
  pose proof (Hn 0 g rs eq_refl Er) as Hn0. rewrite Nat.add_0_r in Hn0. destruct (new k rs) as [t|]; [|congruence].
  assert (Hrec : groups_new new rules (S k) groups <> None).
  { apply IH; [intros; eapply Hb; simpl; eauto|]. intros j g' rs' Hj Hr. specialize (Hn (S j) g' rs' Hj Hr). now rewrite Nat.add_succ_r in Hn. }
  destruct (groups_new new rules (S k) groups); congruence.
Qed.

Lemma feeds_select rules g rs a b : select rules g = Some rs -> a < length g -> b < length g ->
  feeds rs a b <-> feeds rules (nth a g 0) (nth b g 0).
Proof.
  intros Hs Ha Hb. destruct (select_spec _ _ _ Hs) as [Hl Hn].
  destruct (Hn a _ (nth_error_nth' g 0 Ha)) as (ra & Ra & Ra'). destruct (Hn b _ (nth_error_nth' g 0 Hb)) as (rb & Rb & Rb').
  unfold feeds. rewrite Ra, Rb, Ra', Rb'. tauto.
Qed.

(** ** The dependency-graph strategy *)

Section DG.
Context (rules : list rule) (comps : list (list nat)) (Hco : condensation (length rules) (positive_edges rules) comps).

Lemma dg_bound c i : In c comps -> In i c -> i < length rules.
Proof.
  intros Hc Hi. assert (Hin : In i (concat comps)) by (apply in_concat; eauto).
  apply (Permutation_in _ (co_part _ _ _ Hco)) in Hin. apply in_seq in Hin. lia.
Qed.
Lemma dg_total : dg_new comps rules <> None.
Proof. apply groups_total; [apply dg_bound|discriminate]. Qed.

Context (st : dg_state) (Hst : dg_new comps rules = Some st).

Lemma dg_sub j g t : nth_error st j = Some (g, t) -> nth_error comps j = Some g /\ exists rs, select rules g = Some rs /\ t = rr_new rs /\ length rs = length g.
Proof.
  intros Hj. destruct (groups_spec _ _ _ _ _ Hst) as [H1 H2]. split.
  - rewrite <- H1. now rewrite (map_nth_error fst _ _ Hj).
  - destruct (H2 j g t Hj) as (rs & Hs & Hn). injection Hn as <-. exists rs. repeat split; auto. now apply select_spec in Hs.
Qed.

Lemma dg_safe : safe dg_next st (length rules).
Proof.
  apply seq_safe. intros ids s Hin. apply In_nth_error in Hin. destruct Hin as (j & Hj). destruct (dg_sub j ids s Hj) as [Hc (rs & Hs & -> & Hl)]. split.
  - rewrite <- Hl. apply rr_safe.
  - intros i Hi. eapply dg_bound; eauto. eapply nth_error_In; eauto.
Qed.

Lemma dg_quiet H : stops dg_next st H -> quiet (length rules) (feeds rules) H.
Proof.
  intros Hs. destruct (seq_stops _ _ _ Hs) as (Hs' & HF & ->).
  destruct (groups_spec _ _ _ _ _ Hst) as [Hfst _].
  apply (seq_quiet _ _ comps).
  - rewrite <- Hfst. assert (Hj : forall j g t, nth_error st j = Some (g, t) -> exists rs, t = rr_new rs /\ length rs = length g).
    { intros j g t Hj. destruct (dg_sub j g t Hj) as [_ (rs & _ & E & El)]. eauto. }
    clear - HF Hj. induction HF as [|[g t] h' st hs (h & Hst' & Hv & ->) HF IH]; simpl; constructor.
    + exists h. split; auto. split; auto. destruct (Hj 0 g t eq_refl) as (rs & -> & El). rewrite <- El. apply (rr_quiet rs h _ Hst').
    + apply IH. intros j. apply (Hj (S j)).
  - intros i Hi. assert (Hin : In i (concat comps)). { eapply Permutation_in; [symmetry; apply (co_part _ _ _ Hco)|apply in_seq; lia]. }
    apply in_concat in Hin. destruct Hin as (c & Hc & Hic). apply In_nth_error in Hc. destruct Hc as (k & Hk). eauto.
  - intros c c' g g' u v Hg Hg' Hu Hv He. apply positive_edges_spec in He. eapply (co_topo _ _ _ Hco); eauto.
Qed.

(** Components are executed in order. *)
Lemma dg_order H s r : history dg_next st H s r -> forall k k' i j b b', k <= k' -> nth_error H k = Some (i, b) -> nth_error H k' = Some (j, b') ->
  exists c c' gi gj, c <= c' /\ nth_error comps c = Some gi /\ In i gi /\ nth_error comps c' = Some gj /\ In j gj.
Proof.
  intros Hh k k' i j b b' Hle Hi Hj. destruct (seq_running _ _ _ _ _ Hh) as (pre & rest & Hs & Est & HF & ->).
  assert (Hcomp : forall c L j0 i0 b0, nth_error Hs c = Some L -> nth_error L j0 = Some (i0, b0) -> exists g, nth_error comps c = Some g /\ In i0 g).
  { intros c L j0 i0 b0 Hc Hj0. destruct (groups_spec _ _ _ _ _ Hst) as [Hfst _]. 
    assert (Hx : exists g t, nth_error pre c = Some (g, t) /\ ran rr_next (g, t) L).
    { clear - HF Hc. revert c Hc. induction HF as [|[g t] h' st hs Hr HF IH]; intros [|c] Hc; simpl in *; try discriminate; [injection Hc as <-; eauto|auto]. }
    destruct Hx as (g & t & Hg & (h & s0 & r0 & _ & Hv & ->)). exists g. split.
    - rewrite <- Hfst, Est, nth_error_map, nth_error_app1, Hg; auto. apply nth_error_Some. congruence.
    - simpl in *. rewrite nth_relabel in Hj0. destruct (nth_error h j0) as [[t0 b1]|] eqn:Et; [|discriminate]. simpl in Hj0. injection Hj0 as <- <-.
      apply nth_In. apply (Hv t0 b1). eapply nth_error_In; eauto. }
  destruct (concat_pos _ _ _ Hi) as (c & L & q & Hc & Hq & ->). destruct (concat_pos _ _ _ Hj) as (c' & L' & q' & Hc' & Hq' & ->).
  destruct (Hcomp _ _ _ _ _ Hc Hq) as (g & Hg & Hig). destruct (Hcomp _ _ _ _ _ Hc' Hq') as (g' & Hg' & Hjg).
  exists c, c', g, g'. repeat split; auto. destruct (off_order Hs c c' L L' q q') as [?|[-> _]]; auto; try lia; apply nth_error_Some; congruence.
Qed.
End DG.

(** ** The default strategy *)

Section SN.
Context (rules : list rule) (ncomps : list (list nat)) (pcomps : nat -> list (list nat)).
Context (Hn : condensation (length rules) (map fst (negation_edges rules)) ncomps).
Context (Hp : forall strata k g rs, stratify (length rules) (negation_edges rules) ncomps = Some (Some strata) -> nth_error strata k = Some g ->
   select rules g = Some rs -> condensation (length rs) (positive_edges rs) (pcomps k)).

Lemma nb u v neg : In (u, v, neg) (negation_edges rules) -> u < length rules /\ v < length rules.
Proof.
  intros Hi. apply edges_bound with (rules := rules). apply plain_edges_spec. apply in_map_iff. exists (u, v, neg). auto.
Qed.

Lemma sn_levels : exists lv, comp_levels [] (negation_edges rules) ncomps = Some lv.
Proof. pose proof (levels_total _ _ _ Hn nb). destruct (comp_levels _ _ _); [eauto|congruence]. Qed.

Lemma negative_cycle_spec : neg_self_cycle (negation_edges rules) ncomps = true <-> negative_cycle rules.
Proof.
  rewrite (neg_self_cycle_spec _ _ _ Hn nb). unfold negative_cycle, depends, reach.
  assert (Hiff : forall a b, clos_refl_trans nat (fun u v => In (u, v) (map fst (negation_edges rules))) a b <-> clos_refl_trans nat (fun j i => feeds rules j i \/ feeds_neg rules j i) a b).
  { intros a b. split; (induction 1 as [x y Hxy|x|x y z _ IH1 _ IH2]; [apply rt_step; now apply plain_edges_spec|apply rt_refl|eapply rt_trans; eauto]). }
  split.
  - intros (u & v & Hin & Hr). apply negation_edges_spec in Hin. exists v, u. split; auto. now apply Hiff.
  - intros (i & j & Hf & Hr). exists j, i. split; [now apply negation_edges_spec|now apply Hiff].
Qed.

Lemma stratify_total : exists o, stratify (length rules) (negation_edges rules) ncomps = Some o.
Proof. unfold stratify. destruct (neg_self_cycle _ _); [eauto|]. destruct sn_levels as (lv & ->). simpl. eauto. Qed.

Lemma stratify_rejects : stratify (length rules) (negation_edges rules) ncomps = Some None <-> negative_cycle rules.
Proof.
  rewrite <- negative_cycle_spec. unfold stratify. destruct (neg_self_cycle _ _); [tauto|]. destruct sn_levels as (lv & ->). simpl. split; discriminate.
Qed.

(** The strata, with ranks. *)
Lemma stratify_ranks strata : stratify (length rules) (negation_edges rules) ncomps = Some (Some strata) ->
  exists rk, (forall k g v, nth_error strata k = Some g -> (In v g <-> v < length rules /\ rk v = k)) /\
    (forall k g, nth_error strata k = Some g -> NoDup g) /\
    (forall v, v < length rules -> exists g, nth_error strata (rk v) = Some g) /\
    (forall j i, feeds rules j i -> rk j <= rk i) /\ (forall j i, feeds_neg rules j i -> rk j < rk i).
Proof.
  intros Hs. destruct sn_levels as (lv & Hlv). exists (rank lv).
  destruct (strata_spec _ _ _ Hn lv Hlv strata Hs) as [H1 H2].
  assert (Hns : neg_self_cycle (negation_edges rules) ncomps = false). { unfold stratify in Hs. destruct (neg_self_cycle _ _); [discriminate|auto]. }
  split; [|split; [|split; [|split]]].
  - intros k g v Hk. rewrite (H1 k g Hk). apply (in_stratum _ _ _ Hn lv Hlv).
  - intros k g Hk. rewrite (H1 k g Hk). apply NoDup_filter, seq_NoDup.
  - intros v Hv. destruct (H2 v Hv) as (g & Hg & _). eauto.
  - intros j i Hf. assert (Hc : feeds rules j i \/ feeds_neg rules j i) by auto. apply plain_edges_spec in Hc. apply in_map_iff in Hc. destruct Hc as ([[j0 i0] neg] & E & Hin). simpl in E. injection E as -> ->.
    pose proof (rank_edge _ _ _ Hn nb lv Hlv j i neg Hns Hin). destruct neg; lia.
  - intros j i Hf. pose proof (rank_edge _ _ _ Hn nb lv Hlv j i true Hns). rewrite negation_edges_spec in H. specialize (H Hf). lia.
Qed.

Lemma sn_total : exists o, sn_new ncomps pcomps rules = Some o /\ (o = None <-> negative_cycle rules).
Proof.
  unfold sn_new. destruct stratify_total as (o & Ho). rewrite Ho. destruct o as [strata|].
  - destruct (stratify_ranks strata Ho) as (rk & R1 & _ & _).
    assert (Hg : groups_new (fun k rs => dg_new (pcomps k) rs) rules 0 strata <> None).
    { apply groups_total.
      - intros g i Hg Hi. apply In_nth_error in Hg. destruct Hg as (k & Hk). now apply (R1 k g i Hk) in Hi.
      - intros j g rs Hj Hr. apply dg_total. simpl. eapply Hp; eauto. }
    destruct (groups_new _ _ _ _) as [st|]; [|congruence]. exists (Some st). split; auto. split; [discriminate|].
    intros Hc. apply stratify_rejects in Hc. congruence.
  - exists None. split; auto. split; auto. intros _. now apply stratify_rejects.
Qed.

Context (st : sn_state) (Hst : sn_new ncomps pcomps rules = Some (Some st)).

Lemma sn_strata : exists strata, stratify (length rules) (negation_edges rules) ncomps = Some (Some strata) /\
  groups_new (fun k rs => dg_new (pcomps k) rs) rules 0 strata = Some st.
Proof.
  unfold sn_new in Hst. destruct (stratify _ _ _) as [[strata|]|]; try discriminate. exists strata. split; auto.
  destruct (groups_new _ _ _ _); [|discriminate]. simpl in Hst. congruence.
Qed.

Lemma sn_safe : safe sn_next st (length rules).
Proof.
  destruct sn_strata as (strata & Hs & Hg). destruct (stratify_ranks strata Hs) as (rk & R1 & _). destruct (groups_spec _ _ _ _ _ Hg) as [G1 G2].
  apply seq_safe. intros ids s Hin. apply In_nth_error in Hin. destruct Hin as (j & Hj). destruct (G2 j ids s Hj) as (rs & Hsel & Hnew). simpl in Hnew.
  assert (Hk : nth_error strata j = Some ids) by (rewrite <- G1; now rewrite (map_nth_error fst _ _ Hj)). split.
  - destruct (select_spec _ _ _ Hsel) as [Hl _]. rewrite <- Hl. eapply dg_safe; eauto.
  - intros i Hi. now apply (R1 j ids i Hk) in Hi.
Qed.

Lemma sn_quiet H : stops sn_next st H -> quiet (length rules) (feeds rules) H.
Proof.
  intros Hs. destruct sn_strata as (strata & Hstr & Hg). destruct (stratify_ranks strata Hstr) as (rk & R1 & _ & R3 & R4 & _). destruct (groups_spec _ _ _ _ _ Hg) as [G1 G2].
  destruct (seq_stops _ _ _ Hs) as (Hs' & HF & ->). apply (seq_quiet _ _ strata).
  - rewrite <- G1.
    assert (Hj : forall j g t, nth_error st j = Some (g, t) -> forall h, stops dg_next t h -> (forall i b, In (i, b) h -> i < length g) -> quiet (length g) (fun a b => feeds rules (nth a g 0) (nth b g 0)) h).
    { intros j g t Hj h Hh Hv. destruct (G2 j g t Hj) as (rs & Hsel & Hnew). simpl in Hnew. destruct (select_spec _ _ _ Hsel) as [Hl _].
      assert (Hk : nth_error strata j = Some g) by (rewrite <- G1; now rewrite (map_nth_error fst _ _ Hj)).
      pose proof (dg_quiet rs (pcomps j) (Hp strata j g rs Hstr Hk Hsel) t Hnew h Hh) as Hq.
      intros i Hi. rewrite <- Hl in Hi. destruct (Hq i Hi) as (l & b & H1 & H2). exists l, b. split; auto. intros k j0 Hle Hj0 Hf. apply (H2 k j0 Hle Hj0).
      apply (feeds_select rules g rs); auto; [|lia]. apply (Hv j0 true). eapply nth_error_In; eauto. }
    clear - HF Hj. induction HF as [|[g t] h' st hs (h & Hst' & Hv & ->) HF IH]; simpl; constructor.
    + exists h. split; auto. split; auto. apply (Hj 0 g t eq_refl h); auto.
    + apply IH. intros j. apply (Hj (S j)).
  - intros i Hi. destruct (R3 i Hi) as (g & Hgi). exists (rk i), g. split; auto. apply (R1 _ _ i Hgi). auto.
  - intros c c' g g' u v Hgc Hgc' Hu Hv Hf. apply (R1 c g u Hgc) in Hu. apply (R1 c' g' v Hgc') in Hv. destruct Hu as [_ <-], Hv as [_ <-]. now apply R4.
Qed.

Lemma sn_rank_order : exists rk, 
  (forall j i, feeds rules j i -> rk j <= rk i) /\ (forall j i, feeds_neg rules j i -> rk j < rk i) /\
  forall H s r, history sn_next st H s r -> forall k k' i j b b', k <= k' -> nth_error H k = Some (i, b) -> nth_error H k' = Some (j, b') -> rk i <= rk j.
Proof.
  destruct sn_strata as (strata & Hstr & Hg). destruct (stratify_ranks strata Hstr) as (rk & R1 & _ & R3 & R4 & R5). destruct (groups_spec _ _ _ _ _ Hg) as [G1 G2].
  exists rk. split; auto. split; auto. intros H s r Hh k k' i j b b' Hle Hi Hj.
  destruct (seq_running _ _ _ _ _ Hh) as (pre & rest & Hs & Est & HF & ->).
  assert (Hcomp : forall c L j0 i0 b0, nth_error Hs c = Some L -> nth_error L j0 = Some (i0, b0) -> rk i0 = c).
  { intros c L j0 i0 b0 Hc Hj0.
    assert (Hx : exists g t, nth_error pre c = Some (g, t) /\ ran dg_next (g, t) L).
    { clear - HF Hc. revert c Hc. induction HF as [|[g t] h' st hs Hr HF IH]; intros [|c] Hc; simpl in *; try discriminate; [injection Hc as <-; eauto|auto]. }
    destruct Hx as (g & t & Hgx & (h & s0 & r0 & _ & Hv & ->)).
    assert (Hk : nth_error strata c = Some g). { rewrite <- G1, Est, nth_error_map, nth_error_app1, Hgx; auto. apply nth_error_Some. congruence. }
    simpl in *. rewrite nth_relabel in Hj0. destruct (nth_error h j0) as [[t0 b1]|] eqn:Et; [|discriminate]. simpl in Hj0. injection Hj0 as <- <-.
    apply (R1 c g (nth t0 g 0) Hk). apply nth_In. apply (Hv t0 b1). eapply nth_error_In; eauto. }
  destruct (concat_pos _ _ _ Hi) as (c & L & q & Hc & Hq & ->). destruct (concat_pos _ _ _ Hj) as (c' & L' & q' & Hc' & Hq' & ->).
  rewrite (Hcomp _ _ _ _ _ Hc Hq), (Hcomp _ _ _ _ _ Hc' Hq').
  destruct (off_order Hs c c' L L' q q') as [?|[-> _]]; auto; try lia; apply nth_error_Some; congruence.
Qed.
End SN.
