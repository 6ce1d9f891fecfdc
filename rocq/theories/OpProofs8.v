(* The rows of a difference of tries. *)
From Coq Require Import List ZArith Bool Lia Arith Sorted.
From Verif Require Import ColumnModel ColumnSpec ColumnProofs ScanModel ScanSpec ScanProofs TrieModel TrieScanSpec OpModel OpSpec OpProofs1 OpProofs2 OpProofs3 OpProofs5 OpProofs6 OpProofs7.
Import ListNotations.
Local Open Scope nat_scope.

(* ---------- layer maps ---------- *)

Lemma position_lt : forall x l p, position_of x l = Some p -> nth_error l p = Some x.
Proof.
  induction l as [|y l IH]; intros p H; cbn in H; [discriminate|]. destruct (Nat.eqb_spec x y) as [->|].
  - injection H as <-. reflexivity.
  - destruct (position_of x l) as [q|]; [|discriminate]. cbn in H. injection H as <-. cbn. apply IH. reflexivity.
Qed.
Lemma position_lookup : forall x l p r, position_of x l = Some p -> lookup l r x = nth_error r p.
Proof.
  induction l as [|y l IH]; intros p r H; cbn in H; [discriminate|]. destruct r as [|v r].
  - destruct p; reflexivity.
  - cbn [lookup]. destruct (Nat.eqb_spec x y) as [->|].
    + injection H as <-. reflexivity.
    + destruct (position_of x l) as [q|]; [|discriminate]. cbn in H. injection H as <-. cbn. apply IH. reflexivity.
Qed.
Lemma map_res_inv : forall A B (g : A -> res B) l k, map_res g l = Ok k -> Forall2 (fun a b => g a = Ok b) l k.
Proof.
  intros A B g. induction l as [|a l IH]; intros k H; cbn in H; [injection H as <-; constructor|].
  destruct (g a) as [b| |] eqn:E; cbn in H; try discriminate. destruct (map_res g l) as [k'| |] eqn:E'; cbn in H; try discriminate.
  injection H as <-. constructor; auto.
Qed.
Lemma sorted_strict : forall l, sorted_le l = true -> NoDup l -> StronglySorted lt l.
Proof.
  intros l H Hn. assert (HL : StronglySorted le l).
  { clear Hn. induction l as [|x l IH]; [constructor|]. assert (Hl : sorted_le l = true) by (destruct l; [reflexivity|cbn [sorted_le] in H; apply andb_prop in H; apply H]).
    specialize (IH Hl). constructor; [exact IH|]. destruct l as [|y l']; [constructor|]. cbn [sorted_le] in H. apply andb_prop in H. destruct H as [H _]. apply Nat.leb_le in H.
    constructor; [exact H|]. apply StronglySorted_inv in IH. destruct IH as [_ IH]. eapply Forall_impl; [|exact IH]. intros; lia. }
  clear H. induction HL as [|x l HL IH HF]; constructor.
  - apply NoDup_cons_iff in Hn. apply IH, Hn.
  - apply NoDup_cons_iff in Hn. apply Forall_forall. intros y Hy. rewrite Forall_forall in HF. specialize (HF y Hy).
    assert (x <> y) by (intros ->; tauto). lia.
Qed.
Lemma layer_map_ok : forall output ms mp, layer_map output ms = Ok mp -> NoDup ms ->
  StronglySorted lt mp /\ length mp = length ms /\ (forall x, In x mp -> x < length output) /\
  forall r, length r = length output -> map Some (picks mp r) = map (lookup output r) ms.
Proof.
  intros output ms mp H Hnd. unfold layer_map in H.
  destruct (map_res _ ms) as [k| |] eqn:E; cbn in H; try discriminate. destruct (sorted_le k) eqn:Es; [|discriminate]. injection H as <-.
  apply map_res_inv in E.
  assert (E' : Forall2 (fun x p => position_of x output = Some p) ms k).
  { clear - E. induction E as [|x p ms k H E IH]; constructor; [|exact IH]. destruct (position_of x output); [congruence|discriminate]. }
  clear E. assert (Hin : forall p, In p k -> exists x, In x ms /\ position_of x output = Some p).
  { clear - E'. induction E' as [|x p ms k H E' IH]; intros q []; [subst; exists x; cbn; auto|]. destruct (IH q H0) as (y & ? & ?). exists y. cbn. auto. }
  split; [|split; [|split]].
  - apply sorted_strict; [exact Es|]. clear Es. induction E' as [|x p ms k H E' IH]; [constructor|]. apply NoDup_cons_iff in Hnd. destruct Hnd as [Hx Hnd].
    constructor.
    + intros Hp. assert (Hy : exists y, In y ms /\ position_of y output = Some p).
      { clear - E' Hp. induction E' as [|x q ms k H E' IH]; [destruct Hp|]. destruct Hp as [->|Hp]; [exists x; cbn; auto|]. destruct (IH Hp) as (y & ? & ?). exists y. cbn. auto. }
      destruct Hy as (y & Hy & Ey). apply position_lt in Ey. apply position_lt in H. assert (x = y) by congruence. subst. tauto.
    + apply IH; [exact Hnd|]. intros q Hq. clear - E' Hq. induction E' as [|x' q' ms k H E' IH]; [destruct Hq|]. destruct Hq as [->|Hq]; [exists x'; cbn; auto|]. destruct (IH Hq) as (y & ? & ?). exists y. cbn. auto.
  - clear - E'. induction E'; cbn; congruence.
  - intros p Hp. destruct (Hin p Hp) as (x & _ & Ep). apply position_lt in Ep. apply nth_error_Some. congruence.
  - intros r Hr. clear Es Hin Hnd. induction E' as [|x p ms k H E' IH]; [reflexivity|]. unfold picks in *. cbn [flat_map map]. rewrite map_app, IH.
    rewrite (position_lookup _ _ _ r H). apply position_lt in H. assert (Hp : p < length r) by (rewrite Hr; apply nth_error_Some; congruence).
    destruct (nth_error r p) eqn:En; [reflexivity|]. apply nth_error_None in En. lia.
Qed.

(* ---------- the used inputs ---------- *)

Lemma used_pairs : forall sub (Ts : list (table sub)) maps output, Forall2 (fun T mp => layer_map output (cols T) = Ok mp) Ts maps -> exists subs ms,
  flat_map (fun om : option (tstate sub) * list nat => match fst om with Some s => [(s, snd om)] | None => [] end) (combine (map input Ts) maps) = combine subs ms /\
  length subs = length ms /\
  map input (filter has_input Ts) = map Some subs /\
  Forall2 (fun T mp => layer_map output (cols T) = Ok mp) (filter has_input Ts) ms.
Proof.
  intros sub Ts maps output H. induction H as [|T mp Ts maps H HF IH]; [exists [], []; cbn; auto|].
  destruct IH as (subs & ms & E1 & E2 & E3 & E4). cbn [map combine flat_map fst snd filter]. assert (Eh : has_input T = match input T with Some _ => true | None => false end) by reflexivity. rewrite Eh. destruct (input T) as [s|] eqn:E.
  - exists (s :: subs), (mp :: ms). cbn [combine app map length]. rewrite E1, E, E3. split; [reflexivity|]. split; [congruence|]. split; [reflexivity|]. constructor; assumption.
  - exists subs, ms. cbn [app]. auto.
Qed.

Lemma subtract_generate_reads : forall sub b output T0 (Ts : list (table sub)) maps,
  cols T0 = output -> map_res (layer_map output) (map cols Ts) = Ok maps -> (forall T, In T Ts -> NoDup (cols T)) ->
  (forall T, In T (T0 :: Ts) -> table_ok b T) ->
  exists o, subtract_generate sub maps (map input (T0 :: Ts)) = Ok o /\
    reads (length output) (fun r => rows T0 r /\ forall T, In T Ts -> ~ exists q, part_of output r (cols T) q /\ rows T q)
      (either_trie sub (subtract_trie sub)) b o.
Proof.
  intros sub b output T0 Ts maps Ecols Hmaps Hnd Hok. apply map_res_inv in Hmaps.
  assert (HF : Forall2 (fun T mp => layer_map output (cols T) = Ok mp) Ts maps).
  { clear - Hmaps. revert maps Hmaps. induction Ts as [|T Ts IH]; intros maps H; inversion H; constructor; auto. }
  destruct (used_pairs sub Ts maps output HF) as (subs & ms & E1 & E2 & E3 & E4). set (Us := filter has_input Ts) in *.
  assert (HUs : forall T, In T Us -> In T Ts) by (intros T H; apply filter_In in H; apply H).
  cbn [map subtract_generate]. rewrite E1. destruct (input T0) as [main|] eqn:Em.
  2:{ exists None. split; [reflexivity|]. cbn. intros r Hr [H _]. pose proof (Hok T0 (or_introl eq_refl)) as H0. unfold table_ok, reads in H0. rewrite Em in H0. apply (H0 r); [congruence|exact H]. }
  assert (Hin : map input (T0 :: Us) = map Some (main :: subs)) by (cbn [map]; rewrite Em, E3; reflexivity).
  assert (HUok : forall T, In T (T0 :: Us) -> table_ok b T) by (intros T [<-|H]; apply Hok; [left|right; apply HUs]; auto).
  destruct (choose_inputs sub b (T0 :: Us) (main :: subs) HUok Hin) as (Ty & Tau & R & Hch).
  assert (Hls : length subs = length Us). { pose proof (f_equal (@length _) E3) as E0. rewrite !map_length in E0. lia. }
  assert (Hms : forall i T, nth_error Us i = Some T -> exists mp, nth_error ms i = Some mp /\ layer_map output (cols T) = Ok mp).
  { clear - E4. intros i T. revert i. induction E4 as [|T' mp Us ms H E4 IH]; intros [|i] HT; try discriminate; cbn in *; [injection HT as <-; eauto|]. apply IH, HT. }
  assert (Hrows : forall r, length r = length output ->
    ((rows T0 r /\ forall T, In T Ts -> ~ exists q, part_of output r (cols T) q /\ rows T q) <->
     in_tree (Tau 0) [] r /\ forall i, i < length ms -> ~ in_tree (Tau (S i)) [] (picks (map_at ms i) r))).
  { intros r Hr. destruct (Hch 0 T0 eq_refl) as (s0 & _ & _ & _ & _ & H0). rewrite (H0 r) by congruence. split; intros [Hm Hn]; (split; [exact Hm|]).
    - intros i Hi Ht. destruct (nth_error Us i) as [T|] eqn:ET; [|apply nth_error_None in ET; lia]. pose proof (nth_error_In _ _ ET) as HTU.
      destruct (Hms i T ET) as (mp & Emp & Hmp). destruct (layer_map_ok _ _ _ Hmp (Hnd T (HUs T HTU))) as (_ & Hl & Hlt & Hp).
      apply (Hn T (HUs T HTU)). exists (picks mp r). split; [apply Hp, Hr|]. destruct (Hch (S i) T ET) as (s & _ & _ & _ & _ & H).
      destruct (map_at_nth ms i mp Emp) as [Ea _]. rewrite Ea in Ht. apply H; [|exact Ht]. rewrite <- Hl. pose proof (f_equal (@length _) (Hp r Hr)) as EL. rewrite !map_length in EL. congruence.
    - intros T HT (q & Hq & Hrow). assert (Hql : length q = length (cols T)) by (pose proof (f_equal (@length _) Hq) as EL; rewrite !map_length in EL; exact EL).
      assert (HTU : In T Us).
      { apply filter_In. split; [exact HT|]. unfold has_input. destruct (input T) eqn:E; [reflexivity|]. exfalso. pose proof (Hok T (or_intror HT)) as Hk. unfold table_ok, reads in Hk. rewrite E in Hk. apply (Hk q Hql Hrow). }
      destruct (In_nth_error _ _ HTU) as [i ET]. destruct (Hms i T ET) as (mp & Emp & Hmp). destruct (layer_map_ok _ _ _ Hmp (Hnd T HT)) as (_ & Hl & Hlt & Hp).
      apply (Hn i); [apply nth_error_Some; congruence|]. destruct (map_at_nth ms i mp Emp) as [Ea _]. rewrite Ea.
      assert (q = picks mp r) by (apply map_some_inj; rewrite (Hp r Hr); exact Hq). subst q.
      destruct (Hch (S i) T ET) as (s & _ & _ & _ & _ & H). apply H; [exact Hql|exact Hrow]. }
  destruct subs as [|s0 subs].
  { destruct ms; [|discriminate]. cbn [combine]. exists (Some (inl main)). split; [reflexivity|]. cbn [reads].
    destruct (Hch 0 T0 eq_refl) as (s & Es & Hsim & Hprop & Hs & Hrow). cbn in Es. injection Es as <-. exists (Ty 0), (Tau 0). split.
    - apply explores_inl. rewrite <- Ecols. split; [exact Hprop|]. exists (R 0). auto.
    - intros r Hr. rewrite (Hrows r Hr). split; [tauto|]. intros H. split; [exact H|]. intros i Hi. cbn in Hi. lia. }
  destruct ms as [|mp0 ms]; [discriminate|]. cbn [combine].
  destruct (Hch 0 T0 eq_refl) as (sm & Esm & Hsimm & Hpropm & Hsm & _). cbn in Esm. injection Esm as <-.
  assert (Earm : ts_arity sub main = length output) by (rewrite <- Ecols; apply (e_arity _ _ _ _ _ _ Hsimm _ _ Hsm)).
  assert (Hzero : forall i T, nth_error Us i = Some T -> cols T = [] -> forall r, length r = length output -> in_tree (Tau (S i)) [] (picks (map_at (mp0 :: ms) i) r)).
  { intros i T ET Hc r Hr. destruct (Hms i T ET) as (mp & Emp & Hmp). destruct (layer_map_ok _ _ _ Hmp (Hnd T (HUs T (nth_error_In _ _ ET)))) as (_ & Hl & _). rewrite Hc in Hl.
    destruct (map_at_nth (mp0 :: ms) i mp Emp) as [Ea _]. rewrite Ea. destruct mp; [|discriminate]. exact I. }
  rewrite Earm. destruct ((length output =? 0) || existsb _ _) eqn:Ez.
  { exists None. split; [reflexivity|]. cbn [reads]. intros r Hr Hboth. apply (Hrows r Hr) in Hboth. destruct Hboth as [_ Hno].
    apply orb_prop in Ez. destruct Ez as [Ez|Ez].
    - apply Nat.eqb_eq in Ez. destruct (nth_error Us 0) as [T|] eqn:ET; [|apply nth_error_None in ET; cbn in Hls; lia].
      destruct (Hms 0 T ET) as (mp & Emp & Hmp). destruct (layer_map_ok _ _ _ Hmp (Hnd T (HUs T (nth_error_In _ _ ET)))) as (_ & Hl & Hlt & _).
      apply (Hno 0 ltac:(cbn; lia)). apply (Hzero 0 T ET); [|exact Hr]. destruct mp as [|x mp]; [destruct (cols T); [reflexivity|discriminate]|]. specialize (Hlt x (or_introl eq_refl)). lia.
    - apply existsb_exists in Ez. destruct Ez as (sm & Hsm' & Ez). apply Nat.eqb_eq in Ez.
      assert (Hi : exists i, nth_error (s0 :: subs) i = Some (fst sm)).
      { apply In_nth_error. destruct sm as [x y]. apply (in_combine_l (s0 :: subs) (mp0 :: ms) x y). exact Hsm'. }
      destruct Hi as [i Hi]. assert (Hil : i < length Us) by (rewrite <- Hls; apply nth_error_Some; congruence).
      destruct (nth_error Us i) as [T|] eqn:ET; [|apply nth_error_None in ET; lia]. destruct (Hch (S i) T ET) as (s' & Es' & Hsim' & _ & Hs' & _). cbn [nth_error] in Es'.
      assert (s' = fst sm) by congruence. subst s'. pose proof (e_arity _ _ _ _ _ _ Hsim' _ _ Hs') as Ea.
      apply (Hno i); [congruence|]. apply (Hzero i T ET); [|exact Hr]. destruct (cols T); [reflexivity|cbn in Ea; lia]. }
  apply orb_false_elim in Ez. destruct Ez as [Ez1 Ez2]. apply Nat.eqb_neq in Ez1.
  assert (Ec1 : map fst ((s0, mp0) :: combine subs ms) = s0 :: subs /\ map snd ((s0, mp0) :: combine subs ms) = mp0 :: ms).
  { cbn [length] in E2. cbn [map fst snd]. clear - E2. injection E2 as E2. split; f_equal; revert ms E2; induction subs as [|a l IH]; intros [|c k] E2; cbn in *; try discriminate; try reflexivity; f_equal; apply IH; congruence. }
  destruct Ec1 as [Ec1 Ec2]. rewrite Ec1, Ec2. exists (Some (inr (tsubtract_new sub (mp0 :: ms) main (s0 :: subs)))). split; [reflexivity|]. cbn [reads].
  set (maps' := mp0 :: ms) in *. set (n := length output) in *.
  assert (Hmp : forall i T, nth_error Us i = Some T -> map_at maps' i = nth i maps' [] /\ length (map_at maps' i) = length (cols T)).
  { intros i T ET. split; [reflexivity|]. destruct (Hms i T ET) as (mp & Emp & Hmp). destruct (layer_map_ok _ _ _ Hmp (Hnd T (HUs T (nth_error_In _ _ ET)))) as (_ & Hl & _).
    destruct (map_at_nth maps' i mp Emp) as [Ea _]. rewrite Ea. exact Hl. }
  assert (HM : forall mp, In mp maps' -> StronglySorted lt mp /\ mp <> [] /\ forall x, In x mp -> x < n).
  { intros mp Hmp'. destruct (In_nth_error _ _ Hmp') as [i Ei]. assert (Hil : i < length Us) by (rewrite <- Hls, E2; apply nth_error_Some; fold maps'; congruence).
    destruct (nth_error Us i) as [T|] eqn:ET; [|apply nth_error_None in ET; lia]. destruct (Hms i T ET) as (mp' & Emp & Hl). assert (mp' = mp) by congruence. subst mp'.
    destruct (layer_map_ok _ _ _ Hl (Hnd T (HUs T (nth_error_In _ _ ET)))) as (H1 & H2 & H3 & _). split; [exact H1|]. split; [|exact H3].
    intros ->. destruct (Hch (S i) T ET) as (s' & Es' & Hsim' & _ & Hs' & _). cbn [nth_error] in Es'. pose proof (e_arity _ _ _ _ _ _ Hsim' _ _ Hs') as Ea. rewrite <- H2 in Ea. cbn in Ea.
    enough (existsb (fun sm : tstate sub * list nat => ts_arity sub (fst sm) =? 0) ((s0, mp0) :: combine subs ms) = true) by congruence.
    apply existsb_exists. assert (Hs2 : In s' (map fst ((s0, mp0) :: combine subs ms))) by (rewrite Ec1; eapply nth_error_In, Es'). apply in_map_iff in Hs2. destruct Hs2 as (sm & <- & Hsm2). exists sm. split; [exact Hsm2|]. rewrite Ea. reflexivity. }
  assert (HSP : forall i, i < S (length maps') -> simulates (size n maps' i) (Ty i) (Tau i) sub b (R i) /\ proper (size n maps' i) (Ty i) (Tau i)).
  { intros [|i] Hi; cbn [size]; [unfold n; rewrite <- Ecols; auto|]. assert (Hil : i < length Us) by lia.
    destruct (nth_error Us i) as [T|] eqn:ET; [|apply nth_error_None in ET; lia]. destruct (Hmp i T ET) as [_ ->]. destruct (Hch (S i) T ET) as (s' & _ & H1 & H2 & _). auto. }
  exists (Ty 0), (subtract_tree maps' Tau). split.
  - apply explores_inr, explores_weaken. split; [apply (subtract_proper n maps' Ty Tau (fun i Hi => proj2 (HSP i Hi)))|].
    exists (subtract_state sub n maps' Tau R). split; [apply (subtract_simulates sub b n maps' Ty Tau R HM (fun i Hi => proj1 (HSP i Hi)) (fun i Hi => proj2 (HSP i Hi)))|].
    apply (subtract_new_ok sub b n maps' Ty Tau R (fun i Hi => proj1 (HSP i Hi))); [exact E2|].
    intros i x Hx. assert (Hi : i < length (T0 :: Us)) by (change (i < S (length Us)); rewrite <- Hls; change (i < length (main :: s0 :: subs)); apply nth_error_Some; congruence).
    destruct (nth_error (T0 :: Us) i) as [T|] eqn:ET; [|apply nth_error_None in ET; lia]. destruct (Hch i T ET) as (s' & Es' & _ & _ & H & _). assert (s' = x) by congruence. subst. exact H.
  - intros r Hr. rewrite (Hrows r Hr). symmetry. apply (subtract_rows n maps' Tau HM r Hr).
Qed.
