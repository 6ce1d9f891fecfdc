(* TrieScanPrune enumerates the rows of a tree. *)
From Coq Require Import List ZArith Bool Lia Arith Sorted.
From Verif Require Import ColumnModel ScanModel ScanSpec TrieModel TrieSpec TrieScanSpec TrieProofs1 TrieProofs2 TrieProofs3 TrieProofs4 TrieProofs6 TrieProofs7 TrieProofs8 TrieProofs10 TrieProofs11 AggModel AggSpec.
Import ListNotations.
Local Open Scope nat_scope.

Section Prune.
Variable n : nat.
Variable types : nat -> list stype.
Variable tau : tree.
Hypothesis Hproper : proper n types tau.
Variable sc : triescan.
Variable R : tstate sc -> list frame -> Prop.
Hypothesis Hsim : simulates n types tau sc true R.
Hypothesis Hn : 0 < n.
Hypothesis Hne : forall k, k < n -> types k <> [].
Notation remaining := (remaining n types tau).
Notation good := (good n types tau).

Record pinv (p : prune sc) (fs : list frame) : Prop := {
  pi_rel : R (pr_scan _ p) fs;
  pi_good : good fs;
  pi_types : pr_types _ p = map types (seq 0 n);
  pi_init : pr_init _ p = true;
  pi_layer : length fs = S (pr_layer _ p);
  pi_len : length (pr_used _ p) = length fs;
  pi_used : forall k f, nth_error fs k = Some f -> exists i, nth_error (pr_used _ p) k = Some i /\ nth_error (types k) i = Some (f_type f) }.
(* past the end *)
Record pend (p : prune sc) : Prop := {
  pe_arity : ts_arity sc (pr_scan _ p) = n;
  pe_types : pr_types _ p = map types (seq 0 n);
  pe_init : pr_init _ p = true;
  pe_layer : pr_layer _ p = 0;
  pe_used : exists i, pr_used _ p = [i] /\ length (types 0) <= i }.

Lemma ptypes_at : forall ts k, ts = map types (seq 0 n) -> k < n -> nth_error ts k = Some (types k).
Proof.
  intros ts k -> Hk. rewrite nth_error_map. rewrite (nth_error_nth' _ 0) by (rewrite seq_length; exact Hk). rewrite seq_nth by exact Hk. reflexivity.
Qed.
Lemma pinv_len : forall p fs, pinv p fs -> length fs <= n.
Proof. intros p fs I. apply (proj1 (pi_good _ _ I)). Qed.
Lemma snoc_used : forall (us : list nat) (fs : list frame) i t c l, length us = length fs ->
  (forall k f, nth_error fs k = Some f -> exists i, nth_error us k = Some i /\ nth_error (types k) i = Some (f_type f)) ->
  nth_error (types (length fs)) i = Some t ->
  forall k f, nth_error (fs ++ [(t, c, l)]) k = Some f -> exists i', nth_error (us ++ [i]) k = Some i' /\ nth_error (types k) i' = Some (f_type f).
Proof.
  intros us fs i t c l Hl H Ht k f Hk. destruct (Nat.lt_ge_cases k (length fs)) as [Hlt|Hge].
  - rewrite nth_error_app1 in Hk by exact Hlt. destruct (H k f Hk) as (i' & H1 & H2). exists i'. rewrite nth_error_app1 by (rewrite Hl; exact Hlt). auto.
  - pose proof (nth_Some_lt _ _ _ _ Hk) as Hk'. rewrite app_length in Hk'. cbn in Hk'. assert (k = length fs) by flia. subst k.
    rewrite nth_snoc in Hk. injection Hk as <-. exists i. rewrite <- Hl at 1. rewrite nth_snoc. auto.
Qed.

(* up *)
Lemma input_up_ok : forall p (fs : list frame) f, pinv p (fs ++ [f]) -> fs <> [] -> exists p', input_up sc p = Ok p' /\ pinv p' fs.
Proof.
  intros p fs f I Hfs. pose proof (pi_layer _ _ I) as Hl. rewrite app_length in Hl. cbn in Hl. unfold input_up.
  destruct (pr_layer sc p) as [|k] eqn:Ek; [destruct fs; [congruence|cbn in Hl; lia]|].
  destruct (e_up _ _ _ _ _ _ Hsim _ _ _ (pi_rel _ _ I)) as (s' & E & HR). rewrite E. cbn [bind]. eexists. split; [reflexivity|].
  pose proof (pi_len _ _ I) as Hu. rewrite app_length in Hu. cbn in Hu.
  assert (Eu : exists us i, pr_used sc p = us ++ [i]). { destruct (pr_used sc p) as [|i us _] using rev_ind; [cbn in Hu; lia|]. eauto. }
  destruct Eu as (us & i & Eu). rewrite Eu, app_length in Hu. cbn in Hu.
  constructor; cbn [pr_scan pr_types pr_init pr_layer pr_used].
  - exact HR.
  - apply (proj1 (good_snoc n types tau fs f) (pi_good _ _ I)).
  - apply I.
  - apply I.
  - lia.
  - rewrite Eu, removelast_last. lia.
  - intros k' f' Hk'. pose proof (nth_Some_lt _ _ _ _ Hk') as Hlt. destruct (pi_used _ _ I k' f') as (j & H1 & H2).
    + rewrite nth_error_app1 by exact Hlt. exact Hk'.
    + exists j. split; [|exact H2]. rewrite Eu in *. rewrite removelast_last. rewrite nth_error_app1 in H1 by flia. exact H1.
Qed.

(* down, with the first type *)
Lemma types_head : forall k, k < n -> exists t, nth_error (types k) 0 = Some t /\ types k = t :: later types k t.
Proof. intros k Hk. exact (types_first n types tau Hproper 0 Hn Hne k Hk). Qed.
Lemma input_down_ok : forall p fs, pinv p fs -> on_values fs -> length fs < n ->
  exists p' t, input_down sc p = Ok p' /\ types (length fs) = t :: later types (length fs) t /\ pinv p' (fs ++ [(t, None, tau (path fs) t)]).
Proof.
  intros p fs I Hv Hl. pose proof (pi_layer _ _ I) as HL. destruct (types_head (length fs) Hl) as (t & Ht & Et).
  destruct (e_down _ _ _ _ _ _ Hsim _ fs t (pi_rel _ _ I) Hv Hl) as (s' & E & HR).
  unfold input_down. rewrite (e_arity _ _ _ _ _ _ Hsim _ _ (pi_rel _ _ I)). destruct (Nat.ltb_spec (pr_layer sc p) (n - 1)) as [_|H]; [|flia]. cbn [negb].
  replace (pr_layer sc p + 1) with (length fs) by flia. rewrite (index_some _ _ _ _ (ptypes_at _ _ (pi_types _ _ I) Hl)). cbn [bind].
  rewrite (index_some _ _ _ _ Ht). cbn [bind]. rewrite E. cbn [bind]. eexists _, t. split; [reflexivity|]. split; [exact Et|].
  constructor; cbn [pr_scan pr_types pr_init pr_layer pr_used].
  - exact HR.
  - apply good_snoc. split; [apply I|]. split; [exact Hl|]. split; [eapply nth_error_In, Ht|]. exists []. reflexivity.
  - apply I.
  - apply I.
  - rewrite app_length. cbn. flia.
  - rewrite !app_length. cbn. pose proof (pi_len _ _ I). flia.
  - apply snoc_used; [apply I|apply I|exact Ht].
Qed.
(* the next value *)
Lemma has_next_ok : forall p (fs : list frame) t c l, pinv p (fs ++ [(t, c, l)]) ->
  exists enough p', (forall fuel, enough <= fuel -> has_next sc fuel p = Ok (p', match l with [] => false | _ => true end)) /\
    pinv p' (fs ++ [(t, hd_error l, tl l)]).
Proof.
  intros p fs t c l I. pose proof (pi_layer _ _ I) as HL. rewrite app_length in HL. cbn in HL. pose proof (pinv_len _ _ I) as HN. rewrite app_length in HN. cbn in HN.
  destruct (e_ask _ _ _ _ _ _ Hsim RNext _ fs t c l (pi_rel _ _ I)) as (en & s' & E & HR). cbn [after ts_ask] in E, HR.
  destruct (pi_used _ _ I (length fs) _ (nth_snoc _ _ _)) as (i & Hu & Hi). cbn [f_type fst] in Hi.
  pose proof (proj1 (good_snoc n types tau _ _) (pi_good _ _ I)) as (G & Hl & Gt & gone & Gg). cbn [f_type f_current fst snd] in Gt, Gg.
  eexists en, _. split.
  - intros fuel Hf. unfold has_next. replace (pr_layer sc p) with (length fs) by flia. rewrite (index_some _ _ _ _ (ptypes_at _ _ (pi_types _ _ I) Hl)). cbn [bind].
    rewrite (index_some _ _ _ _ Hu). cbn [bind]. rewrite Hi. rewrite (E fuel Hf). cbn [bind fst snd]. destruct l; reflexivity.
  - constructor; cbn [pr_scan pr_types pr_init pr_layer pr_used].
    + exact HR.
    + apply good_snoc. split; [exact G|]. split; [exact Hl|]. split; [exact Gt|]. cbn [f_type f_current fst snd].
      destruct l as [|z l]; cbn [hd_error tl ahead].
      * exists (tau (path fs) t). rewrite app_nil_r. reflexivity.
      * exists (gone ++ match c with Some x => [x] | None => [] end). rewrite Gg, <- app_assoc. destruct c; reflexivity.
    + apply I.
    + apply I.
    + rewrite app_length. cbn. flia.
    + rewrite (pi_len _ _ I), !app_length. reflexivity.
    + intros k f Hk. destruct (Nat.lt_ge_cases k (length fs)) as [Hlt|Hge].
      * rewrite nth_error_app1 in Hk by exact Hlt. apply (pi_used _ _ I). rewrite nth_error_app1 by exact Hlt. exact Hk.
      * pose proof (nth_Some_lt _ _ _ _ Hk) as Hk'. rewrite app_length in Hk'. cbn in Hk'. assert (k = length fs) by flia. subst k.
        rewrite nth_snoc in Hk. injection Hk as <-. apply (pi_used _ _ I (length fs) (t, c, l)). apply nth_snoc.
Qed.
(* the next type *)
Lemma set_nth_snoc : forall A (l : list A) x y, set_nth (length l) y (l ++ [x]) = l ++ [y].
Proof. intros A l x y. induction l as [|z l IH]; [reflexivity|]. cbn. rewrite IH. reflexivity. Qed.
Lemma jump_ok : forall p (fs : list frame) t c l, pinv p (fs ++ [(t, c, l)]) -> on_values fs ->
  exists p', match later types (length fs) t with
    | [] => input_jump_type sc p = Ok (p', false) /\
        (fs = [] -> pend p') /\ (forall fs' f, fs = fs' ++ [f] -> exists p'', input_up sc p' = Ok p'' /\ pinv p'' fs) /\ pr_layer sc p' = length fs
    | t' :: ts => input_jump_type sc p = Ok (p', true) /\ pinv p' (fs ++ [(t', None, tau (path fs) t')]) /\ ts = later types (length fs) t'
    end.
Proof.
  intros p fs t c l I Hv. pose proof (pi_layer _ _ I) as HL. rewrite app_length in HL. cbn in HL.
  destruct (pi_used _ _ I (length fs) _ (nth_snoc _ _ _)) as (i & Hu & Hi). cbn [f_type fst] in Hi.
  pose proof (proj1 (good_snoc n types tau _ _) (pi_good _ _ I)) as (G & Hl & _).
  pose proof (later_step n types tau Hproper 0 Hn (length fs) i t Hl Hi) as Hls.
  assert (Eu : exists us, pr_used sc p = us ++ [i] /\ length us = length fs).
  { pose proof (pi_len _ _ I) as Hlen. rewrite app_length in Hlen. cbn in Hlen. destruct (pr_used sc p) as [|j us _] using rev_ind; [cbn in Hlen; lia|].
    rewrite app_length in Hlen. cbn in Hlen. assert (length us = length fs) by lia. rewrite <- H in Hu. rewrite nth_snoc in Hu. injection Hu as ->. eauto. }
  destruct Eu as (us & Eu & Hus).
  assert (Hj : forall A (a b : A), input_jump_type sc p =
    match nth_error (types (length fs)) (i + 1) with
    | Some t => bind (ts_up sc (pr_scan _ p)) (fun s => bind (ts_down sc t s) (fun s => Ok (mk_prune sc s (pr_types _ p) (pr_init _ p) (pr_layer _ p) (us ++ [i + 1]) (pr_external _ p), true)))
    | None => Ok (mk_prune sc (pr_scan _ p) (pr_types _ p) (pr_init _ p) (pr_layer _ p) (us ++ [i + 1]) (pr_external _ p), false) end).
  { intros _ _ _. unfold input_jump_type. replace (pr_layer sc p) with (length fs) by flia. rewrite (index_some _ _ _ _ Hu). cbn [bind].
    rewrite (index_some _ _ _ _ (ptypes_at _ _ (pi_types _ _ I) Hl)). cbn [bind]. rewrite Eu. replace (set_nth (length fs) (i + 1) (us ++ [i])) with (us ++ [i + 1]) by (rewrite <- Hus; symmetry; apply set_nth_snoc). reflexivity. }
  specialize (Hj nat 0 0).
  assert (Hused : forall k f, nth_error fs k = Some f -> exists i, nth_error us k = Some i /\ nth_error (types k) i = Some (f_type f)).
  { intros k f Hk. pose proof (nth_Some_lt _ _ _ _ Hk) as Hlt. destruct (pi_used _ _ I k f) as (j & H1 & H2); [rewrite nth_error_app1 by exact Hlt; exact Hk|].
    exists j. split; [|exact H2]. rewrite Eu, nth_error_app1 in H1 by flia. exact H1. }
  destruct (Nat.eqb_spec (i + 1) (length (types (length fs)))) as [El|Nl].
  - rewrite Hls. rewrite (proj2 (nth_error_None _ _)) in Hj by lia.
    eexists. split; [exact Hj|]. split; [|split].
    + intros ->. constructor; cbn [pr_scan pr_types pr_init pr_layer pr_used]; try apply I.
      * apply (e_arity _ _ _ _ _ _ Hsim _ _ (pi_rel _ _ I)).
      * cbn in HL. lia.
      * destruct us; [|discriminate]. exists (i + 1). cbn [length] in El. split; [reflexivity|lia].
    + intros fs' f Ef. unfold input_up. cbn [pr_scan pr_types pr_init pr_layer pr_used pr_external].
      destruct (pr_layer sc p) as [|k] eqn:Ek; [rewrite Ef, app_length in HL; cbn in HL; lia|].
      destruct (e_up _ _ _ _ _ _ Hsim _ _ _ (pi_rel _ _ I)) as (s' & E & HR). rewrite E. cbn [bind]. eexists. split; [reflexivity|].
      constructor; cbn [pr_scan pr_types pr_init pr_layer pr_used]; try apply I; try assumption; try lia.
      * rewrite removelast_last. exact Hus.
      * rewrite removelast_last. exact Hused.
    + cbn [pr_layer]. flia.
  - destruct Hls as (t' & Ht' & El). rewrite El. rewrite Ht' in Hj.
    destruct (e_up _ _ _ _ _ _ Hsim _ _ _ (pi_rel _ _ I)) as (s' & E & HR). rewrite E in Hj. cbn [bind] in Hj.
    destruct (e_down _ _ _ _ _ _ Hsim _ fs t' HR Hv Hl) as (s2 & E2 & HR2). rewrite E2 in Hj. cbn [bind] in Hj.
    eexists. split; [exact Hj|]. split; [|reflexivity]. constructor; cbn [pr_scan pr_types pr_init pr_layer pr_used]; try apply I; try assumption.
    + apply good_snoc. split; [exact G|]. split; [exact Hl|]. split; [eapply nth_error_In, Ht'|]. exists []. reflexivity.
    + rewrite app_length. cbn. flia.
    + rewrite !app_length. cbn. flia.
    + apply snoc_used; [exact Hus|exact Hused|exact Ht'].
Qed.

(* ---------- the loop ---------- *)

Notation mu := (mu n types tau).
Definition chg (c : nat) (fs : list frame) (p0 : row) : Prop :=
  firstn c (path fs) = firstn c p0 /\ forall y, In y (remaining fs) -> firstn (S c) y <> firstn (S c) p0.
Definition pout (upper : nat) (p' : prune sc) (o : option nat) (fs : list frame) : Prop :=
  match remaining fs with
  | [] => o = None /\ pend p'
  | x :: rest => exists fs' u, o = Some u /\ u <= upper /\ pinv p' fs' /\ length fs' = n /\ on_values fs' /\ path fs' = x /\ remaining fs' = rest /\
      forall p0, chg upper fs p0 -> firstn u x = firstn u p0 /\ firstn (S u) x <> firstn (S u) p0
  end.
Lemma pout_cong : forall u1 u2 p' o fs1 fs2, remaining fs1 = remaining fs2 -> u2 <= u1 -> (forall p0, chg u1 fs1 p0 -> chg u2 fs2 p0) ->
  pout u2 p' o fs2 -> pout u1 p' o fs1.
Proof.
  intros u1 u2 p' o fs1 fs2 E Hu Hc Ho. unfold pout in *. rewrite E. destruct (remaining fs2) as [|x rest]; [exact Ho|].
  destruct Ho as (fs' & u & O1 & O2 & O3 & O4 & O5 & O6 & O7 & O8). exists fs', u. do 7 (split; [first [assumption|lia]|]). intros p0 Hp0. apply O8, Hc, Hp0.
Qed.
Lemma firstn_path_app : forall c (fs gs : list frame), c <= length fs -> firstn c (path (fs ++ gs)) = firstn c (path fs).
Proof.
  intros c fs gs H. unfold path. rewrite map_app, firstn_app, map_length. replace (c - length fs) with 0 by lia. rewrite firstn_O, app_nil_r. reflexivity.
Qed.

Theorem prune_loop_ok : forall N upper p fs, mu fs < N -> pinv p fs -> on_values (removelast fs) -> upper < length fs ->
  exists enough p' o, (forall fuel, enough <= fuel -> prune_loop sc fuel upper p = Ok (p', o)) /\ pout upper p' o fs.
Proof.
  induction N as [|N IH]; intros upper p fs Hmu I Hv Hup; [lia|].
  destruct fs as [|[[t c] l] fs _] using rev_ind; [cbn in Hup; lia|]. rewrite removelast_last in Hv. rewrite app_length in Hup. cbn [length] in Hup.
  destruct (has_next_ok p fs t c l I) as (en1 & p1 & E1 & I1).
  pose proof (proj1 (good_snoc n types tau _ _) (pi_good _ _ I)) as (G & Hl & Gt & gone & Gg).
  destruct l as [|z l]; cbn [hd_error tl] in *.
  - (* no value of this type *)
    destruct (jump_ok p1 fs t None [] I1 Hv) as (p2 & Hj). destruct (later types (length fs) t) as [|t' ts] eqn:El.
    + destruct Hj as (Ej & Jend & Jup & Jl).
      assert (Hrem : remaining (fs ++ [(t, c, [])]) = remaining fs) by (rewrite remaining_snoc, El; reflexivity).
      destruct fs as [|f fs _] using rev_ind.
      * exists (S en1), p2, None. split.
        -- intros [|fuel] Hf; [lia|]. cbn [prune_loop]. rewrite E1 by lia. cbn [bind fst snd negb]. rewrite Ej. cbn [bind fst snd]. rewrite Jl. reflexivity.
        -- unfold pout. match goal with |- match ?X with _ => _ end => replace X with (remaining []) by (symmetry; exact Hrem) end.
           split; [reflexivity|apply Jend; reflexivity].
      * destruct (Jup fs f eq_refl) as (p3 & Eu & I3). set (k := pr_layer sc p3). pose proof (pi_layer _ _ I3) as HL. fold k in HL. rewrite app_length in HL. cbn in HL.
        set (u' := if k <? upper then k else upper). assert (Hu' : u' = Nat.min k upper) by (unfold u'; destruct (Nat.ltb_spec k upper); lia).
        assert (Hmu' : mu (fs ++ [f]) < N). { rewrite mu_snoc in Hmu. unfold costv in Hmu. lia. }
        destruct (IH u' p3 (fs ++ [f]) Hmu' I3) as (en & p' & o & E & Ho).
        { intros g Hg. apply Hv. apply removelast_in, Hg. }
        { rewrite app_length. cbn. lia. }
        exists (S (en1 + en)), p', o. split.
        -- intros [|fuel] Hf; [lia|]. cbn [prune_loop]. rewrite E1 by lia. cbn [bind fst snd negb]. rewrite Ej. cbn [bind fst snd]. rewrite Jl.
           rewrite app_length. cbn [length]. destruct (Nat.eqb_spec (length fs + 1) 0); [lia|]. rewrite Eu. cbn [bind]. fold k. fold u'. apply E. lia.
        -- apply (pout_cong upper u' p' o _ _ Hrem ltac:(lia)); [|exact Ho]. intros p0 [C1 C2]. rewrite app_length in Hup. cbn in Hup.
           rewrite firstn_path_app in C1 by (rewrite app_length; cbn; lia). split.
           ++ apply (f_equal (firstn u')) in C1. rewrite !firstn_firstn in C1. replace (Nat.min u' upper) with u' in C1 by lia. exact C1.
           ++ intros y Hy. destruct (Nat.lt_ge_cases k upper) as [Hlt|Hge].
              ** replace u' with k by lia. rewrite firstn_all2 in C1 by (rewrite path_length, app_length; cbn; lia).
                 destruct (remaining_after n types tau Hproper _ (pi_good _ _ I3) Hv y Hy) as [_ Hlty]. rewrite app_length in Hlty. cbn [length] in Hlty.
                 intros Heq. replace upper with (S k) in C1 by lia. replace (length fs + 1) with (S k) in Hlty by lia.
                 pose proof (eq_ind _ (fun q => row_lt q (firstn (S k) y)) Hlty _ C1) as H2. exact (row_lt_irrefl _ (eq_ind _ (fun q => row_lt (firstn (S k) p0) q) H2 _ Heq)).
              ** replace u' with upper by lia. apply C2. exact (eq_ind_r (fun q => In y q) Hy Hrem).
    + destruct Hj as (Ej & I2 & Ets).
      assert (Hrem : remaining (fs ++ [(t, c, [])]) = remaining (fs ++ [(t', None, tau (path fs) t')])).
      { rewrite !remaining_snoc, El, Ets. unfold under_types at 1. cbn [map concat]. rewrite <- app_assoc. reflexivity. }
      assert (Hmu' : mu (fs ++ [(t', None, tau (path fs) t')]) < N).
      { rewrite mu_snoc in Hmu |- *. rewrite El, Ets in Hmu. unfold costt in Hmu. cbn [map list_sum fold_right] in Hmu. unfold costv at 1 in Hmu. cbn [map] in Hmu.
        change (fold_right Nat.add 0) with list_sum in *. cbn [list_sum fold_right] in Hmu. unfold costt. lia. }
      destruct (IH upper p2 _ Hmu' I2) as (en & p' & o & E & Ho); [rewrite removelast_last; exact Hv|rewrite app_length; cbn; lia|].
      exists (S (en1 + en)), p', o. split.
      * intros [|fuel] Hf; [lia|]. cbn [prune_loop]. rewrite E1 by lia. cbn [bind fst snd negb]. rewrite Ej. cbn [bind fst snd]. apply E. lia.
      * apply (pout_cong upper upper p' o _ _ Hrem ltac:(lia)); [|exact Ho]. intros p0 [C1 C2]. rewrite firstn_path_app in C1 by lia. split; [rewrite firstn_path_app by lia; exact C1|].
        intros y Hy. apply C2. exact (eq_ind_r (fun q => In y q) Hy Hrem).
  - (* a value *)
    assert (Hv1 : on_values (fs ++ [(t, Some z, l)])).
    { intros f Hf. apply in_app_or in Hf. destruct Hf as [Hf|[<-|[]]]; [apply Hv, Hf|discriminate]. }
    assert (Hp1 : path (fs ++ [(t, Some z, l)]) = path fs ++ [(t, z)]) by (rewrite path_snoc; reflexivity).
    assert (Hrem : remaining (fs ++ [(t, c, z :: l)]) = under n types tau (path fs ++ [(t, z)]) ++ remaining (fs ++ [(t, Some z, l)])).
    { rewrite !remaining_snoc. change (under_values n types tau (path fs) t (z :: l)) with (under n types tau (path fs ++ [(t, z)]) ++ under_values n types tau (path fs) t l).
      rewrite <- app_assoc. reflexivity. }
    assert (Hlp : length (path fs ++ [(t, z)]) = length fs + 1) by (rewrite app_length, path_length; reflexivity).
    pose proof (pi_layer _ _ I1) as HL. rewrite app_length in HL. cbn [length] in HL.
    pose proof (e_arity _ _ _ _ _ _ Hsim _ _ (pi_rel _ _ I1)) as Ea.
    destruct (Nat.eqb_spec (pr_layer sc p1) (n - 1)) as [Ek|Nk].
    + exists (S en1), p1, (Some upper). split.
      * intros [|fuel] Hf; [lia|]. cbn [prune_loop]. rewrite E1 by lia. cbn [bind fst snd negb]. rewrite Ea, Ek, Nat.eqb_refl. reflexivity.
      * unfold pout. rewrite under_full in Hrem by lia. cbn [app] in Hrem.
        match goal with |- match ?X with _ => _ end => replace X with ((path fs ++ [(t, z)]) :: remaining (fs ++ [(t, Some z, l)])) by (symmetry; exact Hrem) end.
        exists (fs ++ [(t, Some z, l)]), upper. split; [reflexivity|]. split; [lia|]. split; [exact I1|]. split; [rewrite app_length; cbn; lia|]. split; [exact Hv1|].
        split; [exact Hp1|]. split; [reflexivity|]. intros p0 [C1 C2]. split.
        -- rewrite firstn_path_app in C1 by lia. rewrite firstn_app, path_length. replace (upper - length fs) with 0 by lia. rewrite firstn_O, app_nil_r. exact C1.
        -- apply C2. eapply (eq_ind_r (fun q => In _ q)); [|exact Hrem]. left. reflexivity.
    + assert (Hl2 : length (fs ++ [(t, Some z, l)]) = length fs + 1) by (rewrite app_length; reflexivity).
      destruct (input_down_ok p1 _ I1 Hv1 ltac:(lia)) as (p2 & t' & Ed & Et' & I2). rewrite Hl2 in Et'.
      set (fs2 := (fs ++ [(t, Some z, l)]) ++ [(t', None, tau (path (fs ++ [(t, Some z, l)])) t')]) in *.
      assert (Hrem2 : remaining (fs ++ [(t, c, z :: l)]) = remaining fs2).
      { rewrite Hrem. unfold fs2. rewrite (remaining_snoc n types tau (fs ++ [(t, Some z, l)])). rewrite Hl2, Hp1. rewrite under_unfold by lia. rewrite Hlp.
        rewrite Et' at 1. unfold under_types at 1. cbn [map concat]. rewrite <- app_assoc. reflexivity. }
      assert (Hmu' : mu fs2 < N).
      { unfold fs2. rewrite mu_snoc. rewrite Hl2, Hp1. rewrite mu_snoc in Hmu |- *. unfold costv at 1 in Hmu. cbn [map list_sum fold_right] in Hmu.
        rewrite path_length in Hmu. replace (n - length fs - 1) with (n - length (path fs ++ [(t, z)])) in Hmu at 1 by lia. rewrite (cost_unfold n types tau 0 Hn) in Hmu by lia.
        rewrite Hlp in Hmu. rewrite Et' in Hmu at 1. unfold costt at 1 in Hmu. cbn [map list_sum fold_right] in Hmu. unfold costt at 1.
        replace (costv n types tau (path fs) t l) with (S (list_sum (map (fun z : Z => S (cost types tau (n - length fs - 1) (path fs ++ [(t, z)]))) l))) by (unfold costv; rewrite path_length; reflexivity).
        unfold list_sum in *. lia. }
      destruct (IH upper p2 fs2 Hmu' I2) as (en & p' & o & E & Ho); [unfold fs2; rewrite removelast_last; exact Hv1|unfold fs2; rewrite app_length, Hl2; cbn; lia|].
      exists (S (en1 + en)), p', o. split.
      * intros [|fuel] Hf; [lia|]. cbn [prune_loop]. rewrite E1 by lia. cbn [bind fst snd negb]. rewrite Ea. destruct (Nat.eqb_spec (pr_layer sc p1) (n - 1)); [lia|].
        rewrite Ed. cbn [bind]. apply E. lia.
      * apply (pout_cong upper upper p' o _ _ Hrem2 ltac:(lia)); [|exact Ho]. intros p0 [C1 C2]. unfold fs2. rewrite firstn_path_app in C1 by lia.
        split; [rewrite !firstn_path_app by (rewrite ?app_length; cbn; lia); exact C1|].
        intros y Hy. apply C2. exact (eq_ind_r (fun q => In y q) Hy Hrem2).
Qed.
End Prune.
