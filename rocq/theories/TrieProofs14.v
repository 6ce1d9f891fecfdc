(* The answers of a trie about its rows. *)
From Coq Require Import List ZArith Bool Lia Arith Sorted.
From Verif Require Import ColumnModel ColumnSpec ScanModel ScanSpec ScanProofs3 TrieModel TrieSpec TrieScanSpec TrieProofs1 TrieProofs2 TrieProofs3 TrieProofs4 TrieProofs5 TrieProofs6 TrieProofs7 TrieProofs8 TrieProofs9 TrieProofs10 TrieProofs11 TrieProofs12.
Import ListNotations.
Local Open Scope nat_scope.

Lemma from_hd : forall v l, increasing l -> (hd_error (from v l) = Some v <-> In v l).
Proof.
  intros v. induction l as [|x l IH]; intros Hi; [cbn; split; [discriminate|tauto]|]. inversion Hi as [|? ? Hi' Hf]; subst. cbn [from].
  destruct (Z.ltb_spec x v).
  - rewrite IH by exact Hi'. cbn [In]. intuition lia.
  - cbn [hd_error In]. split; [intros E; injection E as ->; auto|]. intros [->|Hin]; [reflexivity|]. pose proof (proj1 (Forall_forall _ _) Hf v Hin) as H1. cbn beta in H1. lia.
Qed.

Lemma sorted_same : forall L M, StronglySorted row_lt L -> StronglySorted row_lt M -> (forall r, In r L <-> In r M) -> L = M.
Proof.
  induction L as [|x L IH]; intros M HL HM H.
  - destruct M as [|y M]; [reflexivity|]. exfalso. apply (H y). left. reflexivity.
  - destruct M as [|y M]; [exfalso; apply (H x); left; reflexivity|]. inversion HL as [|? ? HL' Fx]; subst. inversion HM as [|? ? HM' Fy]; subst.
    assert (E : x = y).
    { destruct (proj1 (H x) (or_introl eq_refl)) as [E|E]; [symmetry; exact E|]. destruct (proj2 (H y) (or_introl eq_refl)) as [E'|E']; [exact E'|].
      exfalso. apply (row_lt_irrefl x). eapply row_lt_trans; [exact (proj1 (Forall_forall _ _) Fx y E')|exact (proj1 (Forall_forall _ _) Fy x E)]. }
    subst y. f_equal. apply IH; [exact HL'|exact HM'|]. intros r. split; intros Hr.
    + destruct (proj1 (H r) (or_intror Hr)) as [<-|E]; [|exact E]. exfalso. apply (row_lt_irrefl x). exact (proj1 (Forall_forall _ _) Fx x Hr).
    + destruct (proj2 (H r) (or_intror Hr)) as [<-|E]; [|exact E]. exfalso. apply (row_lt_irrefl x). exact (proj1 (Forall_forall _ _) Fy x Hr).
Qed.

Lemma types_sum : forall V : list value, list_sum (map (fun t => length (tvals t V)) all_types) = length V.
Proof.
  induction V as [|[t z] V IH]; [reflexivity|]. cbn [length]. rewrite <- IH. unfold all_types, tvals. cbn [map list_sum fold_right filter fst].
  destruct t; cbn [stype_eqb order Nat.eqb map length]; lia.
Qed.

Section Answers.
Variable n : nat.
Variable tr : trie.
Variable L : list row.
Hypothesis Hn : 0 < n.
Hypothesis HS : stores n tr L.
Let tau := trie_tree L.

Lemma find_ok : forall r fs s, grel n tr L s fs -> on_values fs -> length fs + length r = n ->
  exists o, find_path r (length fs) s = Ok o /\
    match o with
    | Some s' => in_tree tau (path fs) r /\ exists fs', grel n tr L s' fs' /\ on_values fs' /\ path fs' = path fs ++ r /\ length fs' = n
    | None => ~ in_tree tau (path fs) r
    end.
Proof.
  induction r as [|[t v] r IH]; intros fs s G Hv Hl; cbn [find_path in_tree fst snd length] in *.
  - exists (Some s). split; [reflexivity|]. split; [exact I|]. exists fs. rewrite app_nil_r. split; [exact G|]. split; [exact Hv|]. split; [reflexivity|flia].
  - destruct (grel_down n tr L Hn HS s fs t G Hv ltac:(flia)) as (s1 & E1 & G1). rewrite E1. cbn [bind].
    destruct (grel_ask n tr L Hn HS (RSeek v) s1 fs t None _ G1) as (s2 & E2 & G2). cbn [act after ahead] in E2, G2. change (trie_tree L) with tau in E2. rewrite E2. cbn [bind fst snd].
    pose proof (from_hd v (tau (path fs) t) (kids_sorted n L (path fs) t ltac:(rewrite path_length; flia) (st_well _ _ _ HS) (st_sorted _ _ _ HS))) as Hin. fold tau in G2.
    destruct (opt_eqb (hd_error (from v (tau (path fs) t))) (Some v)) eqn:Eo.
    + apply opt_eqb_eq in Eo. rewrite Eo in G2. set (fs2 := fs ++ [(t, Some v, tl (from v (tau (path fs) t)))]) in *.
      assert (Hl2 : length fs2 = length fs + 1) by (unfold fs2; rewrite app_length; reflexivity).
      assert (Hp2 : path fs2 = path fs ++ [(t, v)]) by (unfold fs2; rewrite path_snoc; reflexivity).
      destruct (IH fs2 s2 G2) as (o & E & Ho).
      * intros f Hf. apply in_app_or in Hf. destruct Hf as [Hf|[<-|[]]]; [apply Hv, Hf|discriminate].
      * flia.
      * exists o. split; [exact (eq_ind _ (fun k => find_path r k s2 = Ok o) E _ Hl2)|]. rewrite Hp2 in Ho. destruct o as [s'|].
        -- destruct Ho as (Ht & fs' & H1 & H2 & H3 & H4). split; [split; [apply Hin, Eo|exact Ht]|]. exists fs'. rewrite <- app_assoc in H3. auto.
        -- intros [_ H]. apply Ho, H.
    + exists None. split; [reflexivity|]. intros [H _]. apply Hin in H. assert (Ht : opt_eqb (hd_error (from v (tau (path fs) t))) (Some v) = true) by (apply opt_eqb_eq, H). congruence.
Qed.

Let T := pre n L.
Lemma T_sorted : StronglySorted row_lt T.
Proof. apply pre_sorted, (st_sorted _ _ _ HS). Qed.
Lemma T_length : forall r, In r T -> length r = n.
Proof. intros r H. apply (pre_length n n L r (st_well _ _ _ HS) (le_n _) H). Qed.
Lemma T_tree : forall r, length r = n -> (in_tree tau [] r <-> In r T).
Proof.
  intros r Hl. unfold tau. rewrite (in_tree_pre n L (st_well _ _ _ HS) (st_sorted _ _ _ HS) r []); [reflexivity|exact Hl|]. intros ->. cbn in Hl. lia.
Qed.
Lemma arity_n : arity tr = n.
Proof. unfold arity. apply (st_arity _ _ _ HS). Qed.

Theorem contains_ok : forall r, exists b, contains_row tr r = Ok b /\ (b = true <-> In r T).
Proof.
  intros r. unfold contains_row. rewrite arity_n. destruct (Nat.eqb_spec n (length r)) as [E|N]; cbn [negb].
  - destruct (find_ok r [] (partial_iterator tr) (initial_rel n tr L HS) ltac:(intros f []) (eq_sym E)) as (o & Eo & Ho). cbn [length path map] in Eo, Ho. rewrite Eo. cbn [bind].
    destruct o as [s'|]; eexists; (split; [reflexivity|]).
    + split; [intros _|reflexivity]. apply T_tree; [auto|apply Ho].
    + split; [discriminate|]. intros H. exfalso. apply Ho, T_tree; auto.
  - exists false. split; [reflexivity|]. split; [discriminate|]. intros H. apply T_length in H. congruence.
Qed.

Theorem position_none : forall r, ~ In r T -> row_position tr r = Ok None.
Proof.
  intros r H. unfold row_position. rewrite arity_n. destruct (Nat.eqb_spec n (length r)) as [E|N]; cbn [negb]; [|reflexivity].
  destruct (Nat.eqb_spec n 0); [lia|].
  destruct (find_ok r [] (partial_iterator tr) (initial_rel n tr L HS) ltac:(intros f []) (eq_sym E)) as (o & Eo & Ho). cbn [length path map] in Eo, Ho. rewrite Eo. cbn [bind].
  destruct o as [s'|]; [|reflexivity]. exfalso. apply H, T_tree; [auto|apply Ho].
Qed.

Theorem position_some : forall T1 r T2, T = T1 ++ r :: T2 ->
  row_position tr r = Ok (Some (length (filter (fun x => stype_eqb (last_type x) (last_type r)) T1))).
Proof.
  intros T1 r T2 ET. assert (Hin : In r T) by (rewrite ET; apply in_or_app; right; left; reflexivity). pose proof (T_length r Hin) as Hl.
  unfold row_position. rewrite arity_n, Hl, Nat.eqb_refl. cbn [negb]. destruct (Nat.eqb_spec n 0); [lia|].
  destruct (find_ok r [] (partial_iterator tr) (initial_rel n tr L HS) ltac:(intros f []) Hl) as (o & Eo & Ho). cbn [length path map app] in Eo, Ho. rewrite Eo. cbn [bind].
  destruct o as [s'|]; [|exfalso; apply Ho, T_tree; assumption]. destruct Ho as (_ & fs' & G & Hv & Hp & Hl').
  destruct fs' as [|fr fs _] using rev_ind; [cbn in Hl'; lia|]. destruct fr as [[t c] l]. rewrite path_snoc in Hp.
  assert (Hr : rev r = f_value (t, c, l) :: rev (path fs)) by (rewrite <- Hp, rev_app_distr; reflexivity). rewrite Hr. unfold f_value. cbn [f_type f_current fst snd].
  destruct (gr_frames _ _ _ _ _ G (length fs) _ (nth_snoc _ _ _)) as (f & W1 & vs & W3 & Hf & Hnode & _ & Hat). rewrite firstn_snoc_le, firstn_all in Hnode by flia.
  rewrite app_length in Hl'. cbn [length] in Hl'. assert (Ek : n - 1 = length fs) by flia. rewrite Ek.
  rewrite (get_ok n tr L HS s' (length fs) f t (gr_trie _ _ _ _ _ G) ltac:(flia) Hf). cbn [bind snd]. f_equal.
  cbn [f_type f_current fst snd] in Hat. destruct c as [v|]; [|exfalso; apply (Hv (t, None, l)); [apply in_or_app; right; left; reflexivity|reflexivity]].
  destruct Hat as [(A1 & A2 & A3)|(_ & A & _)]; [|discriminate]. unfold position. destruct (cat (f t)) as [q|]; [|destruct A3; discriminate].
  destruct A3 as (Q1 & Q2 & _). cbn [ahead] in Q2.
  assert (Hq : nth_error (tvals t vs) (q - length (tvals t W1)) = Some v) by (rewrite skipn_nth_error, Q2; reflexivity).
  pose proof (nth_Some_lt _ _ _ _ Hq) as Hqlt. rewrite A2. destruct (Nat.ltb_spec q (length (tvals t W1) + length (tvals t vs))) as [_|H]; [|flia].
  f_equal. apply nth_tvals in Hq. destruct Hq as (j & Hj & Hc). destruct Hnode as [HW (P1 & P3 & HP & Hlen)].
  assert (En : S (length fs) = n) by flia. rewrite En in HP. change (pre n L) with T in HP.
  assert (Hrow : r = path fs ++ [(t, v)]) by (rewrite <- Hp; reflexivity).
  assert (Hidx : nth_error T (length W1 + j) = Some r).
  { rewrite HP, nth_error_app2 by lia. replace (length W1 + j - length P1) with j by lia. rewrite nth_error_app1 by (rewrite map_length; eapply nth_Some_lt, Hj).
    rewrite nth_error_map, Hj, Hrow. reflexivity. }
  assert (HT1 : length T1 = length W1 + j).
  { assert (Hnd : NoDup T) by (apply sorted_nodup, T_sorted). rewrite NoDup_nth_error in Hnd. apply Hnd.
    - rewrite ET, app_length. cbn. lia.
    - rewrite Hidx, ET, nth_error_app2, Nat.sub_diag by lia. reflexivity. }
  assert (HT1' : T1 = firstn (length W1 + j) T).
  { rewrite <- HT1, ET, firstn_app, firstn_all, Nat.sub_diag, firstn_O, app_nil_r. reflexivity. }
  assert (Hty : last_type r = t) by (unfold last_type; rewrite Hrow, last_last; reflexivity). rewrite Hty.
  assert (Hcnt : forall M : list row, length (filter (fun x => stype_eqb (last_type x) t) M) = length (filter (fun s => stype_eqb s t) (map ptype M))).
  { induction M as [|x M IHM]; [reflexivity|]. cbn [filter map]. change (last_type x) with (ptype x). destruct (stype_eqb (ptype x) t); cbn [length]; lia. }
  rewrite Hcnt, HT1'. unfold T. rewrite <- En at 1. rewrite <- (groups_flat n (length fs) L ltac:(flia) (st_well _ _ _ HS)), <- firstn_map, flat_types, firstn_map, <- count_types, HW.
  rewrite firstn_app_2, firstn_app. replace (j - length vs) with 0 by (pose proof (nth_Some_lt _ _ _ _ Hj); lia).
  rewrite firstn_O, app_nil_r, tvals_app, app_length, Hc. lia.
Qed.

Theorem rows_number : num_rows tr = length T.
Proof.
  unfold num_rows. destruct (rev (tr_columns tr)) as [|c cs] eqn:E.
  - apply (f_equal (@rev _)) in E. rewrite rev_involutive in E. pose proof (st_arity _ _ _ HS) as H. rewrite E in H. cbn in H. lia.
  - apply (f_equal (@rev _)) in E. rewrite rev_involutive in E. cbn [rev] in E. pose proof (st_arity _ _ _ HS) as H. rewrite E, app_length in H. cbn [length] in H.
    assert (Hc : nth_error (tr_columns tr) (n - 1) = Some c) by (rewrite E; replace (n - 1) with (length (rev cs)) by lia; apply nth_snoc).
    pose proof (lo_data _ _ _ (st_layers _ _ _ HS _ _ Hc)) as Hd. unfold num_data. rewrite (map_ext _ _ (fun t => f_equal (@length Z) (Hd t))), types_sum.
    rewrite <- flat_length, (groups_flat n) by (try apply HS; lia). unfold T. f_equal. f_equal. lia.
Qed.

Theorem iterator_ok : exists enough, forall fuel, enough <= fuel -> row_iterator fuel tr = Ok T.
Proof.
  destruct (generic_explores n tr L Hn HS) as (Hp & R & Hsim & HR).
  destruct (collect_rows n (trie_types L) (trie_tree L) Hp generic true R Hsim 0 Hn _ HR) as (en & out & E & [T1 T2] & _).
  exists en. intros fuel Hf. unfold row_iterator. rewrite (E fuel Hf). cbn [bind]. f_equal. apply sorted_same; [exact T1|exact T_sorted|]. intros r. rewrite T2, Nat.sub_0_r.
  split.
  - intros (Hl & q & Hq & Hin). destruct q; [|discriminate]. rewrite app_nil_r in Hin. apply T_tree; assumption.
  - intros Hin. pose proof (T_length r Hin) as Hl. split; [exact Hl|]. exists []. rewrite app_nil_r. split; [reflexivity|]. apply T_tree; assumption.
Qed.

Theorem stores_presents : presents n (fun r => In r L) tr.
Proof.
  split; [exact arity_n|]. exists T. split; [split; [exact T_sorted|]|].
  - intros r. unfold T. split.
    + intros H. split; [apply T_length, H|]. apply (pre_all n L r (st_well _ _ _ HS)), H.
    + intros [_ H]. apply (pre_all n L r (st_well _ _ _ HS)), H.
  - split; [exact iterator_ok|]. split; [exact rows_number|]. split; [exact contains_ok|]. split; [exact position_some|exact position_none].
Qed.
End Answers.

Lemma presents_iff : forall n P Q tr, (forall r, length r = n -> (P r <-> Q r)) -> presents n P tr -> presents n Q tr.
Proof.
  intros n P Q tr H (Ha & T & [T1 T2] & HT). split; [exact Ha|]. exists T. split; [split; [exact T1|]|exact HT]. intros r. rewrite T2.
  split; intros [Hl Hr]; (split; [exact Hl|]); apply (H r Hl); exact Hr.
Qed.
