(* TrieScanPrune is a cursor over the rows of a tree. *)
From Coq Require Import List ZArith Bool Lia Arith Sorted.
From Verif Require Import ColumnModel ScanModel ScanSpec TrieModel TrieSpec TrieScanSpec TrieProofs1 TrieProofs2 TrieProofs3 TrieProofs4 TrieProofs6 TrieProofs7 TrieProofs8 TrieProofs10 TrieProofs11 AggModel AggSpec AggProofs1.
Import ListNotations.
Local Open Scope nat_scope.

Lemma value_eqb_eq : forall v w, value_eqb v w = true <-> v = w.
Proof.
  intros [s x] [t y]. unfold value_eqb, stype_eqb. cbn [fst snd]. rewrite andb_true_iff, Nat.eqb_eq, Z.eqb_eq. split.
  - intros [H ->]. f_equal. destruct s, t; cbn in H; congruence.
  - intros H. injection H as -> ->. auto.
Qed.
Lemma differs_prefix : forall m x y, length x = length y -> m <= length x -> (m <= differs x y <-> firstn m x = firstn m y).
Proof.
  induction m as [|m IH]; intros x y Hl Hm; [cbn; split; [auto|lia]|].
  destruct x as [|v x], y as [|w y]; cbn in Hl, Hm; try lia. cbn [differs firstn]. destruct (value_eqb v w) eqn:E.
  - apply value_eqb_eq in E. subst w. specialize (IH x y ltac:(lia) ltac:(lia)). split; [intros H; f_equal; apply IH; lia|intros H; injection H as H; apply IH in H; lia].
  - split; [lia|]. intros H. injection H as -> _. assert (E' : value_eqb w w = true) by (apply value_eqb_eq; reflexivity). congruence.
Qed.
Lemma differs_unique : forall u x y, length x = length y -> firstn u x = firstn u y -> firstn (S u) x <> firstn (S u) y -> differs x y = u.
Proof.
  intros u x y Hl H1 H2. destruct (Nat.lt_ge_cases u (length x)) as [Hlt|Hge].
  - apply (differs_prefix u x y Hl ltac:(lia)) in H1. assert (~ S u <= differs x y) by (rewrite (differs_prefix (S u) x y Hl Hlt); exact H2). lia.
  - exfalso. apply H2. rewrite !firstn_all2 in * by lia. exact H1.
Qed.
Lemma skip_like_app : forall n m x sib rest, length x = n -> m <= n -> (forall y, In y sib -> length y = n /\ firstn m y = firstn m x) ->
  (forall y, In y rest -> length y = n /\ firstn m y <> firstn m x) -> skip_like m x (sib ++ rest) = rest.
Proof.
  intros n m x sib rest Hx Hm Hs Hr. induction sib as [|y sib IH]; cbn [app].
  - destruct rest as [|y rest]; [reflexivity|]. cbn [skip_like]. destruct (Hr y (or_introl eq_refl)) as [Hl Hn].
    destruct (Nat.leb_spec m (differs x y)) as [H|H]; [|reflexivity]. exfalso. apply Hn. symmetry. apply differs_prefix; [flia|flia|exact H].
  - cbn [skip_like]. destruct (Hs y (or_introl eq_refl)) as [Hl Hy]. assert (H : m <= differs x y) by (apply differs_prefix; [flia|flia|symmetry; exact Hy]).
    destruct (Nat.leb_spec m (differs x y)); [|lia]. apply IH. intros z Hz. apply Hs. right. exact Hz.
Qed.

Section Cursor.
Variable n : nat.
Variable types : nat -> list stype.
Variable tau : tree.
Hypothesis Hproper : proper n types tau.
Variable sc : triescan.
Variable R : tstate sc -> list frame -> Prop.
Hypothesis Hsim : simulates n types tau sc true R.
Hypothesis Hn : 0 < n.
Hypothesis Hne : forall k, k < n -> types k <> [].
Variable s0 : tstate sc.
Hypothesis HR0 : R s0 [].
Notation remaining := (remaining n types tau).
Notation pinv := (pinv n types tau sc R).
Notation pend := (pend n types sc).

Definition all_rows : list row := under n types tau [].
Definition Q (p : prune sc) (cur : option row) (l : list row) : Prop :=
  (p = prune_new sc s0 /\ cur = None /\ l = all_rows) \/
  (exists fs, pinv p fs /\ length fs = n /\ on_values fs /\ cur = Some (path fs) /\ l = remaining fs) \/
  (pend p /\ cur = None /\ l = []).

Lemma with_external : forall p fs e, pinv p fs -> pinv (mk_prune sc (pr_scan _ p) (pr_types _ p) (pr_init _ p) (pr_layer _ p) (pr_used _ p) e) fs.
Proof. intros p fs e I. constructor; cbn; apply I. Qed.
Lemma go_up_ok : forall j p (fs gs : list frame), pinv p (fs ++ gs) -> length gs = j -> fs <> [] -> exists p', go_up sc j p = Ok p' /\ pinv p' fs.
Proof.
  induction j as [|j IH]; intros p fs gs I Hl Hfs.
  - destruct gs; [|discriminate]. rewrite app_nil_r in I. exists p. auto.
  - destruct gs as [|g gs _] using rev_ind; [discriminate|]. rewrite app_length in Hl. cbn in Hl. rewrite app_assoc in I.
    destruct (input_up_ok n types tau sc R Hsim Hn p (fs ++ gs) g I) as (p1 & E & I1); [destruct fs; [congruence|discriminate]|].
    cbn [go_up]. rewrite E. cbn [bind]. apply (IH p1 fs gs I1); [lia|exact Hfs].
Qed.
Lemma current_ok : forall p fs k t c l, pinv p fs -> nth_error fs k = Some (t, c, l) -> current_input sc k p = Ok (option_map (fun v => (t, v)) c).
Proof.
  intros p fs k t c l I Hk. pose proof (pinv_len _ _ _ _ _ _ _ I) as HN. pose proof (nth_Some_lt _ _ _ _ Hk) as Hlt.
  destruct (pi_used _ _ _ _ _ _ _ I k _ Hk) as (i & Hu & Hi). cbn [f_type fst] in Hi. unfold current_input.
  assert (Hkn : k < n) by flia. rewrite (index_some _ _ _ _ (ptypes_at n types _ k (pi_types _ _ _ _ _ _ _ I) Hkn)). cbn [bind]. rewrite (index_some _ _ _ _ Hu). cbn [bind]. rewrite Hi.
  apply nth_error_split in Hk. destruct Hk as (f1 & f2 & -> & <-).
  pose proof (e_current _ _ _ _ _ _ Hsim _ f1 t c l f2 (pi_rel _ _ _ _ _ _ _ I) (or_introl eq_refl)) as Ec.
  change (bind (ts_current sc (@length frame f1) t (pr_scan sc p)) (fun o : option Z => Ok (option_map (fun v : Z => (t, v)) o)) = Ok (option_map (fun v : Z => (t, v)) c)). rewrite Ec. reflexivity.
Qed.
Lemma arity_ok : forall p fs, pinv p fs -> ts_arity sc (pr_scan _ p) = n.
Proof. intros p fs I. apply (e_arity _ _ _ _ _ _ Hsim _ _ (pi_rel _ _ _ _ _ _ _ I)). Qed.

(* a found row *)
Lemma pout_Q : forall upper p' o fs cur, pout n types tau sc R upper p' o fs -> length (remaining fs) = length (remaining fs) ->
  (forall y, In y (remaining fs) -> length y = n) ->
  match cur with None => upper = 0 | Some x => length x = n /\ chg n types tau upper fs x end ->
  o = changed cur (remaining fs) /\ Q p' (hd_error (remaining fs)) (tl (remaining fs)).
Proof.
  intros upper p' o fs cur Ho _ Hlen Hc. unfold pout in Ho. destruct (remaining fs) as [|x rest] eqn:Er.
  - destruct Ho as [-> He]. split; [reflexivity|]. right. right. auto.
  - destruct Ho as (fs' & u & -> & Hu & I & Hl & Hv & Hp & Hr & H). split.
    + destruct cur as [y|]; cbn [changed]; [|f_equal; lia]. destruct Hc as [Hy Hc]. destruct (H y Hc) as [H1 H2]. f_equal. symmetry.
      apply differs_unique; [rewrite (Hlen x (or_introl eq_refl)); exact Hy|symmetry; exact H1|congruence].
    + right. left. exists fs'. cbn [hd_error tl]. split; [exact I|]. split; [exact Hl|]. split; [exact Hv|]. split; [f_equal; symmetry; exact Hp|symmetry; exact Hr].
Qed.
Lemma remaining_length : forall fs, good n types tau fs -> on_values (removelast fs) -> forall y, In y (remaining fs) -> length y = n.
Proof.
  intros fs G Hv y Hy. destruct fs as [|[[t c] l] fs _] using rev_ind; [destruct Hy|]. rewrite removelast_last in Hv. apply good_snoc in G. destruct G as (G & Hl & _).
  rewrite remaining_snoc in Hy. apply in_app_or in Hy. destruct Hy as [Hy|Hy]; [|apply in_app_or in Hy; destruct Hy as [Hy|Hy]].
  - apply (under_values_in n types tau Hproper) in Hy; [|rewrite path_length; exact Hl]. destruct Hy as (? & ? & _ & _ & H). exact H.
  - apply (under_types_in n types tau Hproper) in Hy; [|rewrite path_length; exact Hl]. destruct Hy as (? & ? & ? & _ & _ & _ & H). exact H.
  - apply (remaining_after n types tau Hproper fs G Hv y Hy).
Qed.
Lemma removelast_values : forall fs, on_values fs -> on_values (removelast fs).
Proof. intros fs H f Hf. apply H, removelast_in, Hf. Qed.

(* the start *)
Lemma init_steps : forall ks p fs, pinv p fs -> (forall k, In k ks -> k < n) -> pr_external _ p + length ks < n ->
  exists p', prune_init sc ks p = Ok (p', true) /\ pinv p' fs.
Proof.
  induction ks as [|k ks IH]; intros p fs I Hk He; [exists p; auto|]. cbn [prune_init length] in *.
  rewrite (index_some _ _ _ _ (ptypes_at n types _ _ (pi_types _ _ _ _ _ _ _ I) (Hk k (or_introl eq_refl)))). cbn [bind].
  pose proof (Hne k (Hk k (or_introl eq_refl))) as Ht. destruct (types k) as [|t ts]; [congruence|]. unfold external_down. rewrite (pi_init _ _ _ _ _ _ _ I). cbn [negb].
  rewrite (arity_ok p fs I). destruct (Nat.ltb_spec (pr_external sc p) (n - 1)); [|lia]. cbn [bind].
  destruct (IH (mk_prune sc (pr_scan _ p) (pr_types _ p) (pr_init _ p) (pr_layer _ p) (pr_used _ p) (pr_external _ p + 1)) fs) as (p' & E & I').
  - apply with_external, I.
  - intros j Hj. apply Hk. right. exact Hj.
  - cbn [pr_external]. lia.
  - rewrite (pi_init _ _ _ _ _ _ _ I) in E. exists p'. auto.
Qed.

Theorem prune_enumerates : enumerates n (prune_scan sc) Q.
Proof.
  split.
  - intros p cur l [(-> & _)|[(fs & I & _)|(H & _)]]; cbn [prune_scan fu_columns].
    + unfold prune_new. cbn [pr_types]. rewrite map_length, seq_length. apply (e_arity _ _ _ _ _ _ Hsim _ _ HR0).
    + rewrite (pi_types _ _ _ _ _ _ _ I), map_length, seq_length. reflexivity.
    + rewrite (pe_types _ _ _ _ H), map_length, seq_length. reflexivity.
  - intros p cur l k HQ Hk. cbn [prune_scan fu_advance fstate]. destruct HQ as [(-> & -> & ->)|[(fs & I & Hl & Hv & -> & ->)|(He & -> & ->)]].
    + (* before the first row *)
      cbn [next_rows]. destruct (types_head n types tau Hproper Hn Hne 0 Hn) as (t0 & Ht0 & Et0).
      destruct (e_down _ _ _ _ _ _ Hsim s0 [] t0 HR0 ltac:(intros f []) Hn) as (s1 & Ed & HR1). cbn [app path map] in HR1.
      set (fs := [(t0, None, tau [] t0)] : list frame) in *.
      assert (Ety : map (ts_types sc s0) (seq 0 n) = map types (seq 0 n)).
      { apply map_ext_in. intros j Hj. apply in_seq in Hj. apply (e_types _ _ _ _ _ _ Hsim _ _ _ HR0). lia. }
      set (p1 := mk_prune sc s1 (map types (seq 0 n)) true 0 [0] 0).
      assert (I1 : pinv p1 fs).
      { constructor; cbn [p1 pr_scan pr_types pr_init pr_layer pr_used]; try reflexivity.
        - exact HR1.
        - apply (good_snoc n types tau [] (t0, None, tau [] t0)). split; [split; [cbn; lia|intros [|j] f Hf; discriminate]|]. split; [exact Hn|]. split; [eapply nth_error_In, Ht0|exists []; reflexivity].
        - intros [|j] f Hf; [|destruct j; discriminate]. injection Hf as <-. exists 0. split; [reflexivity|exact Ht0]. }
      destruct (init_steps (seq 1 k) p1 fs I1) as (p2 & Ei & I2).
      { intros j Hj. apply in_seq in Hj. lia. }
      { cbn [p1 pr_external]. rewrite seq_length. lia. }
      set (p3 := mk_prune sc (pr_scan _ p2) (pr_types _ p2) (pr_init _ p2) (pr_layer _ p2) (pr_used _ p2) k).
      assert (I3 : pinv p3 fs) by (apply with_external, I2).
      assert (Hrem : remaining fs = all_rows).
      { unfold fs. change [(t0, @None Z, tau [] t0)] with ([] ++ [(t0, @None Z, tau [] t0)]). rewrite remaining_snoc. cbn [path map length]. rewrite app_nil_r.
        unfold all_rows. rewrite (under_unfold n types tau []) by (cbn; lia). cbn [length]. rewrite Et0 at 1. cbn [length]. reflexivity. }
      pose proof (pi_layer _ _ _ _ _ _ _ I3) as HL3. cbn [fs length] in HL3.
      assert (Hgo : try_to_go sc k p3 = Ok p3).
      { unfold try_to_go. rewrite (arity_ok _ _ I3). destruct (Nat.ltb_spec k n); [|lia]. replace (pr_layer sc p3) with 0 by lia. cbn [Nat.sub go_up bind].
        replace (k - pr_layer sc p3) with k by lia. destruct k as [|k']; [reflexivity|]. cbn [go_down]. replace (pr_layer sc p3) with 0 by lia.
        rewrite (current_ok p3 fs 0 t0 None _ I3 eq_refl). reflexivity. }
      destruct (prune_loop_ok n types tau Hproper sc R Hsim Hn Hne _ 0 p3 fs (Nat.lt_succ_diag_r _) I3 ltac:(intros f []) ltac:(cbn; lia)) as (en & p' & o & E & Ho).
      destruct (pout_Q 0 p' o fs None Ho eq_refl) as [Eo HQ'].
      { apply remaining_length; [apply I3|intros f []]. }
      { reflexivity. }
      rewrite Hrem in Eo, HQ'. exists en, p'. split; [|exact HQ'].
      intros fuel Hf. unfold prune_advance, prune_new. rewrite (e_arity _ _ _ _ _ _ Hsim _ _ HR0), Ety. cbn [pr_init]. rewrite Nat.add_1_r. cbn [seq prune_init pr_types].
      rewrite (index_some _ _ _ _ (ptypes_at n types _ _ eq_refl Hn)). cbn [bind]. rewrite Et0. unfold external_down at 1. cbn [pr_init negb pr_scan]. rewrite Ed. cbn [bind pr_types pr_layer pr_used pr_external app].
      fold p1. rewrite Ei. cbn [bind fst snd]. unfold prune_on_layer. fold p3. rewrite Hgo. cbn [bind]. replace (pr_layer sc p3) with 0 by lia. rewrite (E fuel Hf), Eo. reflexivity.
    + (* at a row *)
      set (p1 := mk_prune sc (pr_scan _ p) (pr_types _ p) (pr_init _ p) (pr_layer _ p) (pr_used _ p) k).
      assert (I1 : pinv p1 fs) by (apply with_external, I).
      set (f1 := firstn (S k) fs). set (f2 := skipn (S k) fs). assert (Ef : fs = f1 ++ f2) by (symmetry; apply firstn_skipn).
      assert (L1 : length f1 = S k) by (unfold f1; apply firstn_length_le; flia). assert (L2 : length f2 = n - S k) by (unfold f2; rewrite skipn_length; flia).
      rewrite Ef in I1, Hv. pose proof (pi_layer _ _ _ _ _ _ _ I) as HL.
      destruct (go_up_ok (n - S k) p1 f1 f2 I1 L2 ltac:(intros E; rewrite E in L1; discriminate)) as (p2 & Eup & I2).
      pose proof (pi_layer _ _ _ _ _ _ _ I2) as HL2. pose proof (on_values_prefix _ _ Hv) as Hv1.
      assert (Hgo : try_to_go sc k p1 = Ok p2).
      { unfold try_to_go. rewrite (arity_ok _ _ I1). destruct (Nat.ltb_spec k n); [|lia]. cbn [p1 pr_layer]. replace (pr_layer sc p - k) with (n - S k) by flia.
        rewrite Eup. cbn [bind]. replace (k - pr_layer sc p2) with 0 by flia. reflexivity. }
      destruct (prune_loop_ok n types tau Hproper sc R Hsim Hn Hne _ k p2 f1 (Nat.lt_succ_diag_r _) I2 (removelast_values _ Hv1) ltac:(flia)) as (en & p' & o & E & Ho).
      destruct (remaining_drop n types tau Hproper f2 f1 (pi_good _ _ _ _ _ _ _ I1) Hv) as (sib & Esib & Hsib).
      pose proof (remaining_length f1 (pi_good _ _ _ _ _ _ _ I2) (removelast_values _ Hv1)) as Hlen.
      assert (Hpath : firstn (S k) (path fs) = path f1) .
      { rewrite Ef. etransitivity; [apply (firstn_path_app n Hn); flia|]. apply firstn_all2. rewrite path_length. flia. }
      assert (Hafter : forall y, In y (remaining f1) -> firstn (S k) y <> firstn (S k) (path fs)).
      { intros y Hy Heq. destruct (remaining_after n types tau Hproper f1 (pi_good _ _ _ _ _ _ _ I2) Hv1 y Hy) as [_ Hlt]. rewrite L1 in Hlt.
        rewrite Heq, Hpath in Hlt. exact (row_lt_irrefl _ Hlt). }
      assert (Enext : next_rows (S k) (Some (path fs)) (remaining fs) = remaining f1).
      { cbn [next_rows]. rewrite Ef at 2. rewrite Esib. apply (skip_like_app n); [rewrite path_length; exact Hl|lia| |].
        - intros y Hy. destruct (Hsib y Hy) as [H1 H2]. split; [exact H1|]. rewrite Hpath. rewrite L1 in H2. exact H2.
        - intros y Hy. split; [apply Hlen, Hy|apply Hafter, Hy]. }
      rewrite Enext. destruct (pout_Q k p' o f1 (Some (path fs)) Ho eq_refl Hlen) as [Eo HQ'].
      { split; [rewrite path_length; exact Hl|]. split; [|exact Hafter]. rewrite Ef. symmetry. apply (firstn_path_app n Hn). flia. }
      exists en, p'. split; [|exact HQ']. intros fuel Hf. unfold prune_advance. rewrite (pi_init _ _ _ _ _ _ _ I). cbn [bind fst snd]. unfold prune_on_layer. fold p1. rewrite Hgo. cbn [bind].
      replace (pr_layer sc p2) with k by flia. rewrite (E fuel Hf), Eo. reflexivity.
    + (* at the end *)
      cbn [next_rows]. destruct (pe_used _ _ _ _ He) as (i & Eu & Hi). set (p1 := mk_prune sc (pr_scan _ p) (pr_types _ p) true 0 [i] k).
      set (p2 := mk_prune sc (pr_scan _ p) (pr_types _ p) true 0 [i + 1] k).
      assert (Hgo : try_to_go sc k p1 = Ok p1).
      { unfold try_to_go. cbn [p1 pr_scan pr_layer]. rewrite (pe_arity _ _ _ _ He). destruct (Nat.ltb_spec k n); [|lia]. cbn [Nat.sub go_up bind]. cbn [pr_layer]. rewrite Nat.sub_0_r.
        destruct k as [|k']; [reflexivity|]. cbn [go_down pr_layer]. unfold current_input. unfold p1 at 1 2 3 4 5 6. cbn [pr_types pr_used pr_layer pr_scan].
        rewrite (index_some _ _ _ _ (ptypes_at n types _ _ (pe_types _ _ _ _ He) Hn)). cbn [bind index nth_error]. rewrite (proj2 (nth_error_None _ _) Hi). reflexivity. }
      exists 1, p2. split.
      * intros [|fuel] Hf; [lia|]. unfold prune_advance. rewrite (pe_init _ _ _ _ He). cbn [bind fst snd]. unfold prune_on_layer. rewrite (pe_init _ _ _ _ He), (pe_layer _ _ _ _ He), Eu. fold p1. rewrite Hgo. cbn [bind].
        cbn [prune_loop]. unfold has_next. cbn [p1 pr_types pr_layer pr_used]. rewrite (index_some _ _ _ _ (ptypes_at n types _ _ (pe_types _ _ _ _ He) Hn)). cbn [bind index nth_error].
        rewrite (proj2 (nth_error_None _ _) Hi). cbn [bind fst snd negb]. unfold input_jump_type. cbn [p1 pr_types pr_layer pr_used index nth_error bind].
        pose proof (ptypes_at n types _ _ (pe_types _ _ _ _ He) Hn) as Ht. destruct (pr_types sc p) as [|l0 ls] eqn:Ets; [discriminate|]. cbn [nth_error] in Ht. injection Ht as ->. cbn [bind].
        change (index (types 0 :: ls) 0) with (Ok (types 0)). cbn [bind].        rewrite (proj2 (nth_error_None (types 0) (i + 1))) by lia. cbn [bind fst snd pr_layer Nat.eqb set_nth]. unfold p2. try rewrite Ets. reflexivity.
      * right. right. split; [|auto]. constructor; cbn [p2 pr_scan pr_types pr_init pr_layer pr_used]; try reflexivity; try apply He. exists (i + 1). split; [reflexivity|lia].
  - intros p x l k v HQ Hk. destruct HQ as [(_ & H & _)|[(fs & I & Hl & Hv & Ex & _)|(_ & H & _)]]; try discriminate. injection Ex as ->.
    exists 0. intros fuel _. cbn [prune_scan fu_value]. unfold prune_value. rewrite (pi_init _ _ _ _ _ _ _ I).
    unfold path in Hk. rewrite nth_error_map in Hk. destruct (nth_error fs k) as [[[t c] f]|] eqn:Ef; [|discriminate]. injection Hk as <-.
    rewrite (current_ok p fs k t c f I Ef). cbn [bind]. assert (Hc : c <> None) by (apply (Hv (t, c, f)); eapply nth_error_In, Ef). destruct c as [z|]; [reflexivity|congruence].
Qed.
End Cursor.
