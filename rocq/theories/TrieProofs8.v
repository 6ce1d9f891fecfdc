(* The partial iterator of a trie explores its rows (continued). *)
From Coq Require Import List ZArith Bool Lia Arith Permutation Sorted.
From Verif Require Import ColumnModel ColumnSpec ScanModel ScanSpec TrieModel TrieSpec TrieScanSpec TrieProofs1 TrieProofs2 TrieProofs3 TrieProofs4 TrieProofs5 TrieProofs6 TrieProofs7.
Import ListNotations.
Local Open Scope nat_scope.
Ltac flia := unfold frame in *; lia.

(* what is needed of the column of a layer *)
Record layer_ok (k : nat) (L : list row) (c : icolT) : Prop := {
  lo_data : forall s, ic_data (c s) = tvals s (values (groups k L));
  lo_bounds : forall s g1 p vs g2, 0 < k -> groups k L = g1 ++ (p, vs) :: g2 ->
    interval_bounds (c s) (ptype p) (length (filter (fun g : group => stype_eqb (ptype (fst g)) (ptype p)) g1)) =
      Ok (match tvals s vs with [] => None | _ => Some (length (tvals s (values g1)), length (tvals s (values g1)) + length (tvals s vs)) end) }.
(* the trie stores the rows in L *)
Record stores (n : nat) (tr : trie) (L : list row) : Prop := {
  st_arity : length (tr_columns tr) = n;
  st_well : well n L;
  st_sorted : StronglySorted row_le L;
  st_layers : forall k c, nth_error (tr_columns tr) k = Some c -> layer_ok k L c }.

Lemma layer_column_ok : forall k L, layer_ok k L (layer_column k L).
Proof. intros k L. constructor; [intros s; apply layer_data|]. intros s g1 p vs g2 Hk E. destruct k as [|k]; [flia|]. eapply layer_bounds, E. Qed.

Lemma path_snoc : forall fs f, path (fs ++ [f]) = path fs ++ [f_value f].
Proof. intros. unfold path. apply map_app. Qed.
Lemma nth_snoc : forall A (l : list A) x, nth_error (l ++ [x]) (length l) = Some x.
Proof. intros. rewrite nth_error_app2, Nat.sub_diag by flia. reflexivity. Qed.
Lemma firstn_snoc_le : forall A (l : list A) x k, k <= length l -> firstn k (l ++ [x]) = firstn k l.
Proof. intros. rewrite firstn_app. replace (k - length l) with 0 by flia. rewrite firstn_O, app_nil_r. reflexivity. Qed.

Section Generic.
Variable n : nat.
Variable tr : trie.
Variable L : list row.
Hypothesis Hn : 0 < n.
Hypothesis HS : stores n tr L.

Definition root_bounds (s : gscan) : Prop :=
  forall f t, nth_error (g_scans s) 0 = Some f -> ca (f t) = 0 /\ cb (f t) = length (tvals t (values (groups 0 L))).
Definition frame_rel (s : gscan) (k : nat) (p : row) (fr : frame) : Prop :=
  exists f W1 vs W3, nth_error (g_scans s) k = Some f /\ node k L p W1 vs W3 /\ kids L p = vs /\
    at_frame (f (f_type fr)) (length (tvals (f_type fr) W1)) (tvals (f_type fr) vs) (f_current fr) (snd fr).
Record grel (s : gscan) (fs : list frame) : Prop := {
  gr_trie : g_trie s = tr;
  gr_path : g_path s = map f_type fs;
  gr_len : length (g_scans s) = n;
  gr_le : length fs <= n;
  gr_root : root_bounds s;
  gr_frames : forall k fr, nth_error fs k = Some fr -> frame_rel s k (path (firstn k fs)) fr }.

Lemma get_ok : forall s k f t, g_trie s = tr -> k < n -> nth_error (g_scans s) k = Some f ->
  g_get s k t = Ok (tvals t (values (groups k L)), f t).
Proof.
  intros s k f t Et Hk Hf. unfold g_get. rewrite Et. destruct (nth_lt _ (tr_columns tr) k) as [c Hc]; [rewrite (st_arity _ _ _ HS); exact Hk|].
  rewrite (index_some _ _ _ _ Hc), (index_some _ _ _ _ Hf). cbn [bind]. rewrite (lo_data _ _ _ (st_layers _ _ _ HS k c Hc)). reflexivity.
Qed.
Lemma move_ok : forall s k f t x, g_trie s = tr -> k < n -> nth_error (g_scans s) k = Some f ->
  let data := tvals t (values (groups k L)) in
  g_move s k t x = Ok (mk_gscan tr (g_path s) (set_nth k (upd t (step data x (f t)) f) (g_scans s)), ColumnSpec.value data (step data x (f t))).
Proof.
  intros s k f t x Et Hk Hf data. unfold g_move. rewrite (get_ok s k f t Et Hk Hf). cbn [bind fst snd]. unfold g_set.
  rewrite (index_some _ _ _ _ Hf). cbn [bind]. rewrite Et. reflexivity.
Qed.

Lemma node_data : forall k p W1 vs W3 t, node k L p W1 vs W3 -> tvals t (values (groups k L)) = tvals t W1 ++ tvals t vs ++ tvals t W3.
Proof. intros k p W1 vs W3 t [H _]. rewrite H, !tvals_app. reflexivity. Qed.

(* changing the scans of a layer does not affect the frames of other layers *)
Lemma frame_rel_other : forall s s' k j p fr, k <> j -> (forall f, nth_error (g_scans s) j = Some f -> nth_error (g_scans s') j = Some f) ->
  frame_rel s j p fr -> frame_rel s' j p fr.
Proof. intros s s' k j p fr Hne Hsc (f & W1 & vs & W3 & Hf & H). exists f, W1, vs, W3. split; [apply Hsc, Hf|exact H]. Qed.

Lemma grel_ask : forall q s (fs : list frame) t c l, grel s (fs ++ [(t, c, l)]) ->
  exists s', g_move s (length fs) t (act q) = Ok (s', hd_error (after q c l)) /\ grel s' (fs ++ [(t, hd_error (after q c l), tl (after q c l))]).
Proof.
  intros q s fs t c l G. pose proof (gr_le _ _ G) as Hl. rewrite app_length in Hl. cbn in Hl.
  destruct (gr_frames _ _ G (length fs) (t, c, l) (nth_snoc _ _ _)) as (f & W1 & vs & W3 & Hf & Hnode & Hkids & Hat).
  rewrite firstn_snoc_le, firstn_all in Hnode, Hkids by flia. cbn [f_type f_current fst snd] in Hat.
  rewrite (move_ok s (length fs) f t (act q) (gr_trie _ _ G) ltac:(flia) Hf). rewrite (node_data _ _ _ _ _ t Hnode).
  pose proof (step_frame _ _ (tvals t W3) _ _ _ q Hat) as Hst. rewrite (value_frame _ _ (tvals t W3) _ _ _ Hst).
  eexists. split; [reflexivity|]. constructor; cbn [g_trie g_path g_scans].
  - reflexivity.
  - rewrite (gr_path _ _ G), !map_app. reflexivity.
  - rewrite set_nth_length. apply (gr_len _ _ G).
  - rewrite app_length. cbn. exact Hl.
  - intros f0 t0 H0. cbn [g_scans] in H0. destruct (Nat.eq_dec (length fs) 0) as [E0|N0].
    + rewrite E0 in *. rewrite set_nth_same in H0 by (eapply nth_Some_lt, Hf). injection H0 as <-. destruct (gr_root _ _ G f t0 Hf) as [R1 R2].
      unfold upd. destruct (stype_eqb_spec t0 t) as [->|_]; [|auto]. rewrite <- R2. destruct q; cbn [act step ca cb]; auto.
    + rewrite set_nth_other in H0 by flia. apply (gr_root _ _ G f0 t0 H0).
  - intros k fr Hk. destruct (Nat.lt_ge_cases k (length fs)) as [Hlt|Hge].
    + rewrite nth_error_app1 in Hk by exact Hlt.
      assert (Hk' : nth_error (fs ++ [(t, c, l)]) k = Some fr) by (rewrite nth_error_app1 by exact Hlt; exact Hk).
      pose proof (gr_frames _ _ G k fr Hk') as Hr. rewrite firstn_snoc_le in Hr |- * by flia.
      eapply (frame_rel_other s _ (length fs)); [flia| |exact Hr]. intros f0 H0. cbn [g_scans]. rewrite set_nth_other by flia. exact H0.
    + pose proof (nth_Some_lt _ _ _ _ Hk) as Hlk. rewrite app_length in Hlk. cbn in Hlk. assert (k = length fs) by flia. subst k.
      rewrite nth_snoc in Hk. injection Hk as <-. rewrite firstn_snoc_le, firstn_all by flia. cbn [frame_rel].
      exists (upd t (step (tvals t W1 ++ tvals t vs ++ tvals t W3) (act q) (f t)) f), W1, vs, W3. cbn [g_scans f_type f_current fst snd].
      split; [apply set_nth_same; eapply nth_Some_lt, Hf|]. split; [exact Hnode|]. split; [exact Hkids|]. rewrite upd_same. exact Hst.
Qed.

Lemma grel_up : forall s fs f, grel s (fs ++ [f]) -> exists s', g_up s = Ok s' /\ grel s' fs.
Proof.
  intros s fs f G. unfold g_up. pose proof (gr_path _ _ G) as Hp. rewrite map_app in Hp. cbn in Hp.
  destruct (g_path s) as [|t0 p0] eqn:Ep; [destruct (map f_type fs); discriminate|].
  eexists. split; [reflexivity|]. rewrite Hp, removelast_last. constructor; cbn [g_trie g_path g_scans].
  - apply (gr_trie _ _ G).
  - reflexivity.
  - apply (gr_len _ _ G).
  - pose proof (gr_le _ _ G) as H. rewrite app_length in H. cbn in H. flia.
  - exact (gr_root _ _ G).
  - intros k fr Hk. pose proof (nth_Some_lt _ _ _ _ Hk) as Hlt.
    pose proof (gr_frames _ _ G k fr) as Hr. rewrite nth_error_app1, firstn_snoc_le in Hr by flia. apply Hr in Hk. exact Hk.
Qed.

Lemma tree_path : forall p t, trie_tree L p t = tvals t (kids L p).
Proof. reflexivity. Qed.

Lemma grel_extend : forall s fs t f W1 vs W3, grel s fs -> length fs < n -> nth_error (g_scans s) (length fs) = Some f ->
  node (length fs) L (path fs) W1 vs W3 -> kids L (path fs) = vs ->
  forall cur, at_frame cur (length (tvals t W1)) (tvals t vs) None (tvals t vs) ->
  (length fs = 0 -> ca cur = 0 /\ cb cur = length (tvals t (values (groups 0 L)))) ->
  grel (mk_gscan tr (g_path s ++ [t]) (set_nth (length fs) (upd t cur f) (g_scans s))) (fs ++ [(t, None, trie_tree L (path fs) t)]).
Proof.
  intros s fs t f W1 vs W3 G Hl Hf Hnode Hk cur Hat H0. constructor; cbn [g_trie g_path g_scans].
  - reflexivity.
  - rewrite (gr_path _ _ G), map_app. reflexivity.
  - rewrite set_nth_length. apply (gr_len _ _ G).
  - rewrite app_length. cbn. flia.
  - intros f0 t0 Hf0. cbn [g_scans] in Hf0. destruct (Nat.eq_dec (length fs) 0) as [E0|N0].
    + rewrite E0 in *. rewrite set_nth_same in Hf0 by (eapply nth_Some_lt, Hf). injection Hf0 as <-.
      unfold upd. destruct (stype_eqb_spec t0 t) as [->|_]; [apply H0; reflexivity|apply (gr_root _ _ G f t0 Hf)].
    + rewrite set_nth_other in Hf0 by flia. apply (gr_root _ _ G f0 t0 Hf0).
  - intros k fr Hkf. destruct (Nat.lt_ge_cases k (length fs)) as [Hlt|Hge].
    + rewrite nth_error_app1 in Hkf by exact Hlt. pose proof (gr_frames _ _ G k fr Hkf) as Hr. rewrite firstn_snoc_le by (apply Nat.lt_le_incl; exact Hlt).
      eapply (frame_rel_other s _ (length fs)); [flia| |exact Hr]. intros f0 Hf0. cbn [g_scans]. rewrite set_nth_other by flia. exact Hf0.
    + pose proof (nth_Some_lt _ _ _ _ Hkf) as Hlk. rewrite app_length in Hlk. cbn in Hlk. assert (k = length fs) by flia. subst k.
      rewrite nth_snoc in Hkf. injection Hkf as <-. rewrite firstn_snoc_le, firstn_all by (flia).
      exists (upd t cur f), W1, vs, W3. cbn [g_scans f_type f_current fst snd].
      split; [apply set_nth_same; eapply nth_Some_lt, Hf|]. split; [exact Hnode|]. split; [exact Hk|]. rewrite upd_same. unfold trie_tree. rewrite Hk. exact Hat.
Qed.

Lemma grel_down : forall s fs t, grel s fs -> on_values fs -> length fs < n ->
  exists s', g_down t s = Ok s' /\ grel s' (fs ++ [(t, None, trie_tree L (path fs) t)]).
Proof.
  intros s fs t G Hv Hl. unfold g_down. destruct (nth_lt _ (g_scans s) (length fs)) as [f Hf]; [rewrite (gr_len _ _ G); exact Hl|].
  rewrite (gr_path _ _ G). destruct fs as [|fr fs' _] using rev_ind.
  - cbn [map rev]. cbn [length] in Hf. rewrite (move_ok s 0 f t Reset (gr_trie _ _ G) Hn Hf). cbn [bind fst g_scans]. eexists. split; [reflexivity|].
    destruct (root_node n L Hn (st_well _ _ _ HS) (st_sorted _ _ _ HS)) as [Hnode Hkids]. rewrite (gr_trie _ _ G).
    pose proof (gr_root _ _ G f t Hf) as [R1 R2].
    pose proof (grel_extend s [] t f [] _ [] G Hl Hf Hnode Hkids (step (tvals t (values (groups 0 L))) Reset (f t))) as Hx.
    rewrite (gr_path _ _ G) in Hx. apply Hx.
    + left. unfold at_part. cbn [step ca cb cat tvals filter map length]. split; [exact R1|]. split; [rewrite R2; reflexivity|auto].
    + intros _. cbn [step ca cb]. auto.
  - rewrite map_app. cbn [map]. rewrite rev_app_distr. cbn [rev app].
    assert (Hlen0 : length (fs' ++ [fr]) = S (length fs')) by (rewrite app_length; cbn; flia). rewrite Hlen0 in Hl, Hf.
    replace (length (map f_type fs' ++ [f_type fr])) with (S (length fs')) by (rewrite app_length, map_length; cbn; flia).
    rewrite Nat.sub_succ, Nat.sub_0_r.
    destruct (gr_frames _ _ G (length fs') fr (nth_snoc _ _ _)) as (f0 & W1 & vs & W3 & Hf0 & Hnode & Hkids & Hat).
    rewrite firstn_snoc_le, firstn_all in Hnode, Hkids by flia.
    rewrite (get_ok s (length fs') f0 (f_type fr) (gr_trie _ _ G) ltac:(flia) Hf0). cbn [bind fst snd].
    destruct fr as [[p c] l]. cbn [f_type f_current fst snd] in *.
    destruct c as [v|]; [|exfalso; apply (Hv (p, None, l)); [apply in_or_app; right; left; reflexivity|reflexivity]].
    destruct Hat as [(A1 & A2 & A3)|(_ & A & _)]; [|discriminate]. unfold position. destruct (cat (f0 p)) as [q|]; [|destruct A3; discriminate].
    destruct A3 as (Q1 & Q2 & _). cbn [ahead] in Q2.
    assert (Hq : nth_error (tvals p vs) (q - length (tvals p W1)) = Some v) by (rewrite skipn_nth_error, Q2; reflexivity).
    pose proof (nth_Some_lt _ _ _ _ Hq) as Hqlt. rewrite A2.
    destruct (Nat.ltb_spec q (length (tvals p W1) + length (tvals p vs))) as [_|H]; [|flia].
    destruct (descend n (length fs') L (path fs') W1 vs W3 p _ v Hl (st_well _ _ _ HS) Hnode Hq) as (g1 & ws & g2 & Eg & Hcount).
    replace (length (tvals p W1) + (q - length (tvals p W1))) with q in Hcount by flia.
    rewrite (gr_trie _ _ G). destruct (nth_lt _ (tr_columns tr) (S (length fs'))) as [col Hcol]; [rewrite (st_arity _ _ _ HS); exact Hl|].
    rewrite (index_some _ _ _ _ Hcol). cbn [bind]. pose proof (st_layers _ _ _ HS _ _ Hcol) as Hlo.
    pose proof (lo_bounds _ _ _ Hlo t g1 _ ws g2 ltac:(flia) Eg) as Hb. unfold ptype in Hb at 1 3. rewrite last_last in Hb. cbn [fst] in Hb. rewrite Hcount in Hb.
    rewrite Hb. cbn [bind].
    pose proof (group_node n (S (length fs')) L g1 _ ws g2 Hl (st_well _ _ _ HS) Eg) as Hnode'.
    pose proof (kids_group n (S (length fs')) L g1 _ ws g2 ltac:(flia) (st_well _ _ _ HS) (st_sorted _ _ _ HS) Eg) as Hkids'.
    pose proof (node_data _ _ _ _ _ t Hnode') as Hdata.
    assert (Hpath : path (fs' ++ [(p, Some v, l)]) = path fs' ++ [(p, v)]) by (rewrite path_snoc; reflexivity).
    assert (Hlen : length (fs' ++ [(p, Some v, l)]) = S (length fs')) by (rewrite app_length; cbn; flia).
    rewrite (lo_data _ _ _ Hlo t).
    assert (Hfin : exists a b, match tvals t ws with [] => None | _ => Some (length (tvals t (values g1)), length (tvals t (values g1)) + length (tvals t ws)) end =
               match tvals t ws with [] => None | _ => Some (a, b) end /\
               (let '(a', b') := match tvals t ws with [] => (0, 0) | _ => (a, b) end in
                b' <= length (tvals t (values (groups (S (length fs')) L))) /\ at_frame (mk_cursor a' b' None) (length (tvals t (values g1))) (tvals t ws) None (tvals t ws))).
    { exists (length (tvals t (values g1))), (length (tvals t (values g1)) + length (tvals t ws)). split; [reflexivity|]. rewrite Hdata, !app_length.
      destruct (tvals t ws) as [|z zs]; (split; [flia|]); [right; cbn; auto 10|left; unfold at_part; cbn [ca cb cat]; auto]. }
    destruct Hfin as (a & b & -> & Hfin).
    assert (Hgo : forall a' b', b' <= length (tvals t (values (groups (S (length fs')) L))) -> at_frame (mk_cursor a' b' None) (length (tvals t (values g1))) (tvals t ws) None (tvals t ws) ->
      exists s', bind (if b' <=? length (tvals t (values (groups (S (length fs')) L))) then g_move s (S (length fs')) t (Narrow a' b') else Panicked)
         (fun r => Ok (mk_gscan tr (map f_type fs' ++ [p] ++ [t]) (g_scans (fst r)))) = Ok s' /\
        grel s' ((fs' ++ [(p, Some v, l)]) ++ [(t, None, trie_tree L (path (fs' ++ [(p, Some v, l)])) t)])).
    { intros a' b' Hb' Hat'. apply Nat.leb_le in Hb'. rewrite Hb'. rewrite (move_ok s _ f t _ (gr_trie _ _ G) Hl Hf). cbn [bind fst g_scans step]. eexists. split; [reflexivity|].
      rewrite <- Hpath in Hnode', Hkids'. rewrite <- Hlen in Hnode', Hf, Hl |- *.
      pose proof (grel_extend s _ t f _ ws _ G Hl Hf Hnode' Hkids' (mk_cursor a' b' None) Hat') as Hx.
      rewrite (gr_path _ _ G), map_app, <- app_assoc in Hx. apply Hx. intros H00. exfalso. rewrite app_length in H00. cbn in H00. flia. }
    rewrite <- app_assoc. destruct (tvals t ws) as [|z zs] eqn:Ez; destruct Hfin as [F1 F2]; apply Hgo; assumption.
Qed.
End Generic.
