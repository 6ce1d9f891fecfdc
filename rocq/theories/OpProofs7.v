(* The difference of tries explores the difference of the trees. *)
From Coq Require Import List ZArith Bool Lia Arith Sorted.
From Verif Require Import ColumnModel ColumnSpec ColumnProofs ScanModel ScanSpec ScanProofs ScanProofs4 TrieModel TrieScanSpec OpModel OpProofs1 OpProofs2 OpProofs4 OpProofs6.
Import ListNotations.
Local Open Scope nat_scope.

Section Subtract.
Variable sub : triescan.
Variable b : bool.
Variable n : nat.
Variable maps : list (list nat).
Variable Ty : nat -> nat -> list stype.
Variable Tau : nat -> tree.
Variable R : nat -> tstate sub -> list frame -> Prop.
Notation f := (length maps).
Notation m := (S f).
Definition map_at (i : nat) : list nat := nth i maps [].
Definition size (i : nat) : nat := match i with O => n | S i => length (map_at i) end.
Hypothesis HM : forall mp, In mp maps -> StronglySorted lt mp /\ mp <> [] /\ forall x, In x mp -> x < n.
Hypothesis HS : forall i, i < m -> simulates (size i) (Ty i) (Tau i) sub b (R i).
Hypothesis HP : forall i, i < m -> proper (size i) (Ty i) (Tau i).

Lemma map_at_in : forall i, i < f -> In (map_at i) maps.
Proof. intros i Hi. apply nth_In, Hi. Qed.
Lemma map_at_sorted : forall i, i < f -> StronglySorted lt (map_at i).
Proof. intros i Hi. apply HM, map_at_in, Hi. Qed.
Lemma map_at_nth : forall i mp, nth_error maps i = Some mp -> map_at i = mp /\ i < f.
Proof. intros i mp H. split; [apply nth_error_nth, H|apply nth_error_Some; congruence]. Qed.

(* the last layer of a follower *)
Definition last_layer (i k : nat) : Prop := depth (map_at i) (S k) = length (map_at i).

Definition removed (p : row) (t : stype) (z : Z) (i : nat) : bool :=
  existsb (Nat.eqb (length p)) (map_at i) && (depth (map_at i) (S (length p)) =? length (map_at i)) && in_treeb (Tau (S i)) [] (picks (map_at i) (p ++ [(t, z)])).
Definition subtract_tree : tree := fun p t => filter (fun z => negb (existsb (removed p t z) (seq 0 f))) (Tau 0 p t).

Lemma mem_nat : forall k l, existsb (Nat.eqb k) l = true <-> In k l.
Proof. intros k l. rewrite existsb_exists. split; [intros (y & H & E); apply Nat.eqb_eq in E; subst; exact H|]. intros H. exists k. split; [exact H|apply Nat.eqb_refl]. Qed.
Lemma removed_ok : forall p t z i, removed p t z i = true <->
  In (length p) (map_at i) /\ last_layer i (length p) /\ in_tree (Tau (S i)) [] (picks (map_at i) (p ++ [(t, z)])).
Proof. intros p t z i. unfold removed. rewrite !andb_true_iff, mem_nat, Nat.eqb_eq, in_treeb_ok. unfold last_layer. tauto. Qed.
Lemma subtract_tree_In : forall p t z, In z (subtract_tree p t) <-> In z (Tau 0 p t) /\
  ~ exists i, i < f /\ In (length p) (map_at i) /\ last_layer i (length p) /\ in_tree (Tau (S i)) [] (picks (map_at i) (p ++ [(t, z)])).
Proof.
  intros p t z. unfold subtract_tree. rewrite filter_In, negb_true_iff. split; intros [H1 H2]; (split; [exact H1|]).
  - intros (i & Hi & H). assert (E : existsb (removed p t z) (seq 0 f) = true); [|congruence]. apply existsb_exists. exists i. split; [apply in_seq; lia|apply removed_ok, H].
  - destruct (existsb (removed p t z) (seq 0 f)) eqn:E; [|reflexivity]. exfalso. apply H2. apply existsb_exists in E. destruct E as (i & Hi & E). apply in_seq in Hi. exists i. split; [lia|apply removed_ok, E].
Qed.

(* ---------- states ---------- *)

Section Layer.
Variables (k : nat) (a : list bool) (F : nat -> list Z).
Definition gone_in (x : Z) : Prop := exists i, i < f /\ nth_error a i = Some true /\ In k (map_at i) /\ last_layer i k /\ In x (F i).
Definition diff_ok (p : nat -> option (option Z * list Z)) (c : option Z) (l : list Z) : Prop :=
  increasing (ahead c l) /\
  (forall i cl, p i = Some cl -> increasing (ahead (fst cl) (snd cl))) /\
  exists lm, p 0 = Some (c, lm) /\ (forall x, In x l <-> In x lm /\ ~ gone_in x) /\
    match c with
    | Some v => ~ gone_in v /\ (forall i cl, p (S i) = Some cl -> forall x, (v <= x)%Z -> (In x (ahead (fst cl) (snd cl)) <-> In x (F i))) /\
        (forall i cl, p (S i) = Some cl -> ~ last_layer i k -> In v (F i) -> fst cl = Some v)
    | None => lm = [] \/ (forall i cl, p (S i) = Some cl -> forall x, In x (ahead (fst cl) (snd cl)) <-> In x (F i))
    end.
End Layer.
Definition slayer_ok (active : list (list bool)) (values : list (stype -> option Z)) (pre : list frame) (fr : frame) (p : part) : Prop :=
  f_type fr = fst p /\ exists a v, nth_error active (length pre) = Some a /\ nth_error values (length pre) = Some v /\
    v (fst p) = f_current fr /\ length a = f /\
    (forall i, snd p (S i) = None <-> ~ (nth_error a i = Some true /\ In (length pre) (map_at i))) /\
    diff_ok (length pre) a (fun i => Tau (S i) (picks (map_at i) (path pre)) (fst p)) (snd p) (f_current fr) (snd fr) /\
    forall w, f_current fr = Some w -> exists e, nth_error active (S (length pre)) = Some e /\ length e = f /\
      forall i, i < f -> (nth_error e i = Some true <-> nth_error a i = Some true /\
        (In (length pre) (map_at i) -> ~ last_layer i (length pre) /\ In w (Tau (S i) (picks (map_at i) (path pre)) (fst p)))).

Definition subtract_state (s : tsubtract sub) (fs : list frame) : Prop :=
  tm_maps _ s = maps /\ length (tm_values _ s) = n /\ length (tm_active _ s) = S n /\
  nth_error (tm_active _ s) 0 = Some (repeat true f) /\ on_values (removelast fs) /\
  exists st, subs_at sub m R (tm_subs _ s) st /\ layersp (slayer_ok (tm_active _ s) (tm_values _ s)) [] fs st.

Lemma slayer_ok_ext : forall active active' values values' pre fr p,
  nth_error active' (length pre) = nth_error active (length pre) -> nth_error active' (S (length pre)) = nth_error active (S (length pre)) ->
  nth_error values' (length pre) = nth_error values (length pre) -> slayer_ok active values pre fr p -> slayer_ok active' values' pre fr p.
Proof.
  intros active active' values values' pre fr p E1 E2 E3 (Ht & a & v & H1 & H2 & H3 & H4 & H5 & H6 & H7). split; [exact Ht|]. exists a, v.
  rewrite E1, E3. repeat (split; [assumption|]). intros w Hw. rewrite E2. apply H7, Hw.
Qed.

(* the number of layers a follower has gone through *)
Lemma follower_depth : forall active values fs st, layersp (slayer_ok active values) [] fs st -> forall i, i < f -> length (ctx (S i) st) <= depth (map_at i) (length fs).
Proof.
  intros active values fs. induction fs as [|g fs IH] using rev_ind; intros st HL i Hi.
  - destruct st; [cbn; lia|destruct HL].
  - apply layersp_unsnoc in HL. destruct HL as (st' & p & -> & HL & Hok). cbn [app] in Hok. specialize (IH st' HL i Hi). rewrite ctx_last, app_length, app_length. cbn [length]. rewrite Nat.add_1_r.
    destruct Hok as (_ & a & v & _ & _ & _ & _ & Hp & _). unfold part_frame. destruct (snd p (S i)) as [[c l]|] eqn:E.
    + cbn [length]. destruct (in_dec Nat.eq_dec (length fs) (map_at i)) as [Hin|Hin].
      * apply In_nth_error in Hin. destruct Hin as [u Hu]. destruct (depth_at _ (map_at_sorted i Hi) _ _ Hu). lia.
      * exfalso. assert (E2 : snd p (S i) = None) by (apply Hp; tauto). congruence.
    + cbn [length]. destruct (in_dec Nat.eq_dec (length fs) (map_at i)) as [Hin|Hin].
      * apply In_nth_error in Hin. destruct Hin as [u Hu]. destruct (depth_at _ (map_at_sorted i Hi) _ _ Hu). lia.
      * rewrite depth_absent by exact Hin. lia.
Qed.

Lemma repeat_true : forall i, i < f -> nth_error (repeat true f) i = Some true.
Proof. intros i Hi. destruct (nth_error (repeat true f) i) eqn:E; [|apply nth_error_None in E; rewrite repeat_length in E; lia]. f_equal. apply nth_error_In in E. apply repeat_spec in E. exact E. Qed.
Lemma path_length : forall fs, length (path fs) = length fs.
Proof. intros. apply map_length. Qed.
Lemma path_snoc : forall fs g, path (fs ++ [g]) = path fs ++ [f_value g].
Proof. intros. unfold path. apply map_app. Qed.

Lemma subtract_path : forall active values fs st, layersp (slayer_ok active values) [] fs st -> on_values fs -> nth_error active 0 = Some (repeat true f) ->
  exists a, nth_error active (length fs) = Some a /\ length a = f /\ on_values (ctx 0 st) /\ path (ctx 0 st) = path fs /\
    forall i, i < f -> (nth_error a i = Some true <-> in_tree (Tau (S i)) [] (picks (map_at i) (path fs)) /\ depth (map_at i) (length fs) < length (map_at i)) /\
      (nth_error a i = Some true -> on_values (ctx (S i) st) /\ path (ctx (S i) st) = picks (map_at i) (path fs)).
Proof.
  intros active values fs. induction fs as [|g fs IH] using rev_ind; intros st HL Ho E0.
  - destruct st as [|p st]; [|destruct HL]. exists (repeat true f). split; [exact E0|]. split; [apply repeat_length|]. split; [intros x []|]. split; [reflexivity|].
    intros i Hi. rewrite (repeat_true i Hi). change (path []) with (@nil value). rewrite picks_nil. split.
    + split; [|reflexivity]. intros _. split; [exact I|]. cbn [length]. assert (Hne : map_at i <> []) by (apply HM, map_at_in, Hi).
      unfold depth. destruct (map_at i) as [|x l]; [congruence|]. cbn [filter length]. assert (Ex : (x <? 0) = false) by reflexivity. rewrite Ex.
      pose proof (depth_le l 0) as Hd. unfold depth in Hd. lia.
    + intros _. split; [intros x []|]. reflexivity.
  - apply layersp_unsnoc in HL. destruct HL as (st' & p & -> & HL & Hok). cbn [app] in Hok.
    assert (Ho' : on_values fs) by (intros x Hx; apply Ho, in_or_app; left; exact Hx).
    destruct (IH st' HL Ho' E0) as (a & Ea & Hla & Ho0 & Hp0 & Hi0).
    destruct Hok as (Ht & a' & v & E1 & E2 & Ev & _ & Hp & (Hinc & Hincs & lm & Epm & Hl & Hc) & He). assert (a' = a) by congruence. subst a'.
    destruct (f_current g) as [w|] eqn:Ew; [|exfalso; apply (Ho g); [apply in_or_app; right; left; reflexivity|exact Ew]].
    destruct (He w eq_refl) as (e & Ee & Hle & Heq). rewrite app_length. cbn [length]. rewrite Nat.add_1_r. exists e. split; [exact Ee|]. split; [exact Hle|].
    assert (Egv : f_value g = (fst p, w)) by (unfold f_value; rewrite Ht, Ew; reflexivity). rewrite path_snoc.
    rewrite ctx_last. unfold part_frame at 1 2. rewrite Epm. split.
    { intros x Hx. apply in_app_or in Hx. destruct Hx as [Hx|[<-|[]]]; [apply Ho0, Hx|discriminate]. }
    split. { rewrite path_snoc, Hp0. f_equal. f_equal. rewrite Egv. reflexivity. }
    intros i Hi. destruct (Hi0 i Hi) as [H1 H2]. rewrite (Heq i Hi), H1.
    assert (Hlen : length (path fs) = length fs) by apply path_length. pose proof (map_at_sorted i Hi) as Hsort.
    destruct (in_dec Nat.eq_dec (length fs) (map_at i)) as [Hin|Hin].
    + assert (Epk : picks (map_at i) (path fs ++ [f_value g]) = picks (map_at i) (path fs) ++ [f_value g]) by (apply picks_snoc_in; [exact Hsort|rewrite Hlen; exact Hin]).
      rewrite Epk. pose proof Hin as Hin2. apply In_nth_error in Hin2. destruct Hin2 as [u Hu]. destruct (depth_at _ Hsort _ _ Hu) as [D1 D2].
      assert (u < length (map_at i)) by (apply nth_error_Some; congruence). split.
      * rewrite in_tree_app. cbn [in_tree app]. rewrite Egv. cbn [fst snd]. unfold last_layer. rewrite D1, D2. split.
        -- intros [[A1 A2] A3]. destruct (A3 Hin) as [A4 A5]. repeat split; auto. lia.
        -- intros [[A1 [A2 _]] A3]. repeat split; auto; try lia.
      * intros [A1 A2]. destruct (A2 Hin) as [A3 A4]. apply H1 in A1. destruct (H2 A1) as [Hov Hpp].
        destruct (snd p (S i)) as [[c0 l0]|] eqn:Ep; [|exfalso; apply Hp in Ep; tauto].
        destruct Hc as (_ & _ & Hcur). pose proof (Hcur i (c0, l0) Ep A3 A4) as Ec. cbn [fst] in Ec. subst c0.
        rewrite ctx_last. unfold part_frame. rewrite Ep. split.
        -- intros x Hx. apply in_app_or in Hx. destruct Hx as [Hx|[<-|[]]]; [apply Hov, Hx|discriminate].
        -- rewrite path_snoc, Hpp. f_equal. f_equal. rewrite Egv. reflexivity.
    + rewrite picks_snoc_out by (rewrite Hlen; exact Hin). rewrite depth_absent by exact Hin. split; [tauto|]. intros [A1 _]. apply H1 in A1. destruct (H2 A1) as [Hov Hpp].
      rewrite ctx_last. assert (Ep : snd p (S i) = None) by (apply Hp; tauto). unfold part_frame. rewrite Ep, app_nil_r. auto.
Qed.

(* ---------- down ---------- *)

Lemma down_loop : forall t k a (C C' : nat -> list frame) rest done subs, maps = done ++ rest -> length subs = m -> length a = f ->
  (forall j s, nth_error subs j = Some s -> R j s (C j)) ->
  (forall j mp, length done <= j -> nth_error maps j = Some mp ->
     if match nth_error a j with Some x => x | None => false end then
       exists l, nth_error mp (length (C (S j))) = Some l /\
         if l =? k then forall s, R (S j) s (C (S j)) -> exists s', ts_down sub t s = Ok s' /\ R (S j) s' (C' (S j))
         else C' (S j) = C (S j)
     else C' (S j) = C (S j)) ->
  (forall j, ~ (S (length done) <= j /\ j < m) -> C' j = C j) ->
  exists subs', subtract_down sub t k a rest (length done) subs = Ok subs' /\ length subs' = m /\ forall j s, nth_error subs' j = Some s -> R j s (C' j).
Proof.
  intros t k a C C' rest. revert C. induction rest as [|mp rest IH]; intros C done subs Em Hl Ha HC Hj Hout; cbn [subtract_down].
  - exists subs. split; [reflexivity|]. split; [exact Hl|]. intros j s Hjs. rewrite Hout; [apply HC, Hjs|]. rewrite Em, app_nil_r. lia.
  - assert (Hf : f = length done + S (length rest)) by (rewrite Em, app_length; reflexivity).
    assert (Emp : nth_error maps (length done) = Some mp) by (rewrite Em, nth_error_app2, Nat.sub_diag by lia; reflexivity).
    destruct (nth_error a (length done)) as [act|] eqn:Eact; [|apply nth_error_None in Eact; lia].
    assert (Ei : index a (length done) = Ok act) by (apply index_Ok; exact Eact). rewrite Ei. cbn [bind].
    pose proof (Hj (length done) mp (le_n _) Emp) as H0. rewrite Eact in H0.
    assert (Em' : maps = (done ++ [mp]) ++ rest) by (rewrite <- app_assoc; exact Em).
    assert (Eld : length (done ++ [mp]) = length done + 1) by (rewrite app_length; reflexivity).
    assert (Hskip : C' (S (length done)) = C (S (length done)) -> exists subs', subtract_down sub t k a rest (length done + 1) subs = Ok subs' /\ length subs' = m /\ forall j s, nth_error subs' j = Some s -> R j s (C' j)).
    { intros Eq. rewrite <- Eld. apply (IH C (done ++ [mp]) subs Em' Hl Ha HC).
      - intros j mp' Hle. apply Hj. lia.
      - intros j Hn. destruct (Nat.eq_dec j (S (length done))) as [->|Hne]; [exact Eq|]. apply Hout. lia. }
    destruct act; cbn [negb]; [|apply Hskip, H0].
    destruct (nth_error subs (length done + 1)) as [s|] eqn:Es; [|apply nth_error_None in Es; lia].
    assert (Eis : index subs (length done + 1) = Ok s) by (apply index_Ok; exact Es). rewrite Eis. cbn [bind].
    pose proof (HC _ _ Es) as Hr. replace (length done + 1) with (S (length done)) in Hr by lia.
    destruct (e_layer _ _ _ _ _ _ (HS (S (length done)) ltac:(lia)) _ _ Hr) as [_ Elay]. rewrite Elay.
    assert (Eb : below (layer_of (C (S (length done)))) = length (C (S (length done)))) by (unfold layer_of, below; destruct (C (S (length done))); cbn [length]; lia).
    rewrite Eb. destruct H0 as (l & El & Hl0). assert (Eil : index mp (length (C (S (length done)))) = Ok l) by (apply index_Ok; exact El). rewrite Eil. cbn [bind].
    destruct (l =? k) eqn:Elk; [|apply Hskip, Hl0].
    destruct (Hl0 s Hr) as (s' & Ed & Hr'). rewrite Ed. cbn [bind].
    destruct (IH (fun j => if j =? S (length done) then C' j else C j) (done ++ [mp]) (set_nth (length done + 1) s' subs) Em') as (subs' & E' & Hl' & H').
    + rewrite set_nth_length. exact Hl.
    + exact Ha.
    + intros j x Hx. destruct (Nat.eqb_spec j (S (length done))) as [->|Hne].
      * rewrite Nat.add_1_r in Hx. rewrite set_nth_same in Hx by lia. injection Hx as <-. exact Hr'.
      * rewrite set_nth_other in Hx by lia. apply HC, Hx.
    + intros j mp' Hle E. rewrite Eld in Hle. destruct (Nat.eqb_spec (S j) (S (length done))) as [H1|_]; [lia|]. apply Hj; [lia|exact E].
    + intros j Hn. destruct (Nat.eqb_spec j (S (length done))); [reflexivity|]. apply Hout. lia.
    + exists subs'. rewrite Eld in E'. auto.
Qed.

Lemma main_layer : forall s st, subs_at sub m R (tm_subs _ s) st -> exists main, nth_error (tm_subs _ s) 0 = Some main /\ main_of sub s = Ok main /\ R 0 main (ctx 0 st) /\
  ts_arity sub main = n /\ ts_layer sub main = layer_of (ctx 0 st).
Proof.
  intros s st H. destruct (subs_get sub m R _ _ 0 H ltac:(lia)) as (main & E1 & E2 & Hr). exists main. split; [exact E1|]. split; [exact E2|]. split; [exact Hr|].
  split; [apply (e_arity _ _ _ _ _ _ (HS 0 ltac:(lia)) _ _ Hr)|]. apply (e_layer _ _ _ _ _ _ (HS 0 ltac:(lia)) _ _ Hr).
Qed.
Lemma ctx0_length : forall active values fs st, layersp (slayer_ok active values) [] fs st -> length (ctx 0 st) = length fs.
Proof.
  intros active values fs. induction fs as [|g fs IH] using rev_ind; intros st HL; [destruct st; [reflexivity|destruct HL]|].
  apply layersp_unsnoc in HL. destruct HL as (st' & p & -> & HL & Hok). rewrite ctx_last, !app_length, (IH st' HL). cbn [length].
  destruct Hok as (_ & a & v & _ & _ & _ & _ & _ & (_ & _ & lm & Ep & _) & _). unfold part_frame. rewrite Ep. reflexivity.
Qed.
Lemma layer_of_length : forall (l l' : list frame), length l = length l' -> layer_of l = layer_of l'.
Proof. intros l l' H. unfold layer_of. destruct l, l'; cbn in *; try lia; [reflexivity|]. f_equal. lia. Qed.
Lemma below_layer : forall l : list frame, below (layer_of l) = length l.
Proof. intros l. unfold layer_of, below. destruct l; cbn [length]; lia. Qed.

Lemma subtract_down_ok : forall s fs t, subtract_state s fs -> on_values fs -> length fs < n ->
  exists s', tsubtract_down sub t s = Ok s' /\ subtract_state s' (fs ++ [(t, None, subtract_tree (path fs) t)]).
Proof.
  intros s fs t (Emaps & Ev & Ea & E0 & Hrl & st & Hs & HL) Ho Hn.
  destruct (subtract_path _ _ _ _ HL Ho E0) as (a & Eact & Hla & Hon0 & Hp0 & Hfol).
  destruct (main_layer s st Hs) as (main & Em1 & Em2 & Hm & Har & Hlay).
  assert (Ebel : below (ts_layer sub main) = length fs) by (rewrite Hlay, below_layer; apply (ctx0_length _ _ _ _ HL)).
  set (on := fun i => nth_error a i = Some true /\ In (length fs) (map_at i)).
  set (onb := fun i => match nth_error a i with Some true => existsb (Nat.eqb (length fs)) (map_at i) | _ => false end).
  assert (Honb : forall i, onb i = true <-> on i).
  { intros i. unfold onb, on. destruct (nth_error a i) as [[|]|]; [rewrite mem_nat; tauto| |]; split; try discriminate; intros [? _]; discriminate. }
  set (p := fun i => match i with O => Some (@None Z, Tau 0 (path fs) t) | S i => if onb i then Some (@None Z, Tau (S i) (picks (map_at i) (path fs)) t) else None end).
  set (C := fun i => ctx i st). set (C1 := fun i => match i with O => ctx 0 st | S i => ctx (S i) (st ++ [(t, p)]) end).
  assert (HC1 : forall i, onb i = false -> ctx (S i) (st ++ [(t, p)]) = ctx (S i) st).
  { intros i H. rewrite ctx_last. unfold part_frame, p. cbn [snd fst]. rewrite H. apply app_nil_r. }
  destruct (down_loop t (length fs) a C C1 maps [] (tm_subs _ s) eq_refl) as (subs1 & Ed1 & Hl1 & H1).
  - apply Hs.
  - exact Hla.
  - apply Hs.
  - intros j mp _ Emp. destruct (map_at_nth _ _ Emp) as [Emj Hj]. subst mp. unfold C, C1. destruct (Hfol j Hj) as [Hact Hctx].
    destruct (nth_error a j) as [[|]|] eqn:Eaj.
    + destruct (Hctx eq_refl) as [Hov Hpp]. destruct (proj1 Hact eq_refl) as [Hit Hd].
      assert (Elen : length (ctx (S j) st) = depth (map_at j) (length fs)) by (rewrite <- (path_length (ctx (S j) st)), Hpp, picks_length, path_length; reflexivity).
      destruct (nth_error (map_at j) (depth (map_at j) (length fs))) as [l|] eqn:El; [|apply nth_error_None in El; lia].
      exists l. rewrite Elen. split; [exact El|]. destruct (Nat.eqb_spec l (length fs)) as [->|Hne].
      * intros x Hx. assert (Hon : onb j = true) by (apply Honb; split; [exact Eaj|eapply nth_error_In, El]).
        destruct (e_down _ _ _ _ _ _ (HS (S j) ltac:(lia)) x _ t Hx Hov) as (x' & Ex & Hx'); [rewrite Elen; exact Hd|].
        exists x'. split; [exact Ex|]. rewrite ctx_last. unfold part_frame, p. cbn [snd fst]. rewrite Hon. rewrite Hpp in Hx'. exact Hx'.
      * apply HC1. destruct (onb j) eqn:Eo; [|reflexivity]. exfalso. apply Honb in Eo. destruct Eo as [_ Hin].
        apply In_nth_error in Hin. destruct Hin as [u Hu]. destruct (depth_at _ (map_at_sorted j Hj) _ _ Hu) as [D _]. rewrite D in El. congruence.
    + apply HC1. unfold onb. rewrite Eaj. reflexivity.
    + apply nth_error_None in Eaj. lia.
  - intros j Hj. cbn [length] in Hj. destruct j as [|j]; [reflexivity|]. unfold C, C1. apply HC1. unfold onb. rewrite (proj2 (nth_error_None a j)) by lia. reflexivity.
  - destruct (nth_error subs1 0) as [main1|] eqn:Em1'; [|apply nth_error_None in Em1'; lia].
    pose proof (H1 0 main1 Em1') as Hm1. unfold C1 in Hm1.
    destruct (e_down _ _ _ _ _ _ (HS 0 ltac:(lia)) main1 _ t Hm1 Hon0) as (main2 & Emd & Hm2). { cbn [size]. rewrite (ctx0_length _ _ _ _ HL). exact Hn. }
    destruct (nth_error (tm_values _ s) (length fs)) as [v|] eqn:Eval; [|apply nth_error_None in Eval; lia].
    eexists. split.
    + unfold tsubtract_down. rewrite Em2. cbn [bind]. rewrite Ebel, Har. destruct (Nat.leb_spec n (length fs)); [lia|].
      assert (Ei : index (tm_active _ s) (length fs) = Ok a) by (apply index_Ok; exact Eact). rewrite Ei. cbn [bind]. cbn [length] in Ed1. rewrite Emaps, Ed1. cbn [bind].
      unfold change. assert (Ei0 : index subs1 0 = Ok main1) by (apply index_Ok; exact Em1'). rewrite Ei0. cbn [bind]. rewrite Emd. cbn [bind].
      assert (Ei2 : index (tm_values _ s) (length fs) = Ok v) by (apply index_Ok; exact Eval). rewrite Ei2. cbn [bind]. reflexivity.
    + split; [reflexivity|]. cbn [tm_values tm_active tm_subs]. rewrite set_nth_length. split; [exact Ev|]. split; [exact Ea|]. split; [exact E0|]. split; [rewrite removelast_snoc; exact Ho|].
      exists (st ++ [(t, p)]). split.
      * split; [rewrite set_nth_length; exact Hl1|]. intros i x Hx. destruct i as [|i].
        -- rewrite set_nth_same in Hx by lia. injection Hx as <-. rewrite ctx_last. unfold part_frame, p. cbn [snd fst]. rewrite Hp0 in Hm2. exact Hm2.
        -- rewrite set_nth_other in Hx by lia. apply (H1 (S i) x Hx).
      * apply layersp_snoc.
        -- eapply layersp_weaken; [|exact HL]. intros pre' g q Hj1 Hj2. apply slayer_ok_ext; try reflexivity. apply set_nth_other. cbn in Hj2. lia.
        -- cbn [app]. split; [reflexivity|]. exists a, (upd t None v). split; [exact Eact|]. split; [apply set_nth_same; lia|].
           assert (Ett : stype_eqb t t = true) by (destruct t; reflexivity).
           split; [unfold upd; cbn [fst]; rewrite Ett; reflexivity|]. split; [exact Hla|]. split.
           { intros i. unfold p; cbn [snd]. fold (on i). rewrite <- Honb. destruct (onb i); split; congruence. }
           split; [|intros w Hw; discriminate]. cbn [f_current fst snd]. assert (Hinc0 : increasing (Tau 0 (path fs) t)) by (apply (p_increasing _ _ _ (HP 0 ltac:(lia))); rewrite path_length; exact Hn).
           split; [cbn [ahead]; unfold subtract_tree; apply filter_incr, Hinc0|]. split.
           { intros i cl Hcl. destruct i as [|i]; unfold p in Hcl; [injection Hcl as <-; exact Hinc0|]. destruct (onb i) eqn:Eo; [|discriminate]. injection Hcl as <-. cbn [fst snd ahead].
             apply Honb in Eo. destruct Eo as [Ea1 Ea2]. assert (Hi : i < f) by (rewrite <- Hla; apply nth_error_Some; congruence). destruct (Hfol i Hi) as [Hact _]. destruct (proj1 Hact Ea1) as [_ Hd].
             apply (p_increasing _ _ _ (HP (S i) ltac:(lia))). rewrite picks_length, path_length. exact Hd. }
           exists (Tau 0 (path fs) t). split; [reflexivity|]. split.
           { intros x. rewrite subtract_tree_In. rewrite path_length. split; intros [A1 A2]; (split; [exact A1|]); intros (i & Hi & B).
             - destruct B as (B1 & B2 & B3 & B4). apply A2. exists i. split; [exact Hi|]. split; [exact B2|]. split; [exact B3|].
               rewrite picks_snoc_in by (try apply map_at_sorted; try rewrite path_length; assumption). apply in_tree_app. destruct (Hfol i Hi) as [Hact _]. destruct (proj1 Hact B1) as [Hit _]. split; [exact Hit|]. cbn. auto.
             - destruct B as (B2 & B3 & B4). apply A2. exists i. split; [exact Hi|].
               rewrite picks_snoc_in in B4 by (try apply map_at_sorted; try rewrite path_length; assumption). apply in_tree_app in B4. destruct B4 as [B4 B5]. cbn in B5.
               split; [|repeat split; [exact B2|exact B3|apply B5]]. destruct (Hfol i Hi) as [Hact _]. apply Hact. split; [exact B4|].
               apply In_nth_error in B2. destruct B2 as [u Hu]. destruct (depth_at _ (map_at_sorted i Hi) _ _ Hu) as [D _]. rewrite D. apply nth_error_Some. congruence. }
           right. intros i cl Hcl x. unfold p in Hcl. destruct (onb i) eqn:Eo; [|discriminate]. injection Hcl as <-. reflexivity.
Qed.

(* ---------- up ---------- *)

Lemma up_loop : forall k (C C' : nat -> list frame) rest done subs, maps = done ++ rest -> length subs = m ->
  (forall j s, nth_error subs j = Some s -> R j s (C j)) ->
  (forall j mp, length done <= j -> nth_error maps j = Some mp ->
     match layer_of (C (S j)) with
     | None => C' (S j) = C (S j)
     | Some l => exists used, nth_error mp l = Some used /\
         if k =? used then forall s, R (S j) s (C (S j)) -> exists s', ts_up sub s = Ok s' /\ R (S j) s' (C' (S j))
         else C' (S j) = C (S j)
     end) ->
  (forall j, ~ (S (length done) <= j /\ j < m) -> C' j = C j) ->
  exists subs', subtract_up sub k rest (length done) subs = Ok subs' /\ length subs' = m /\ forall j s, nth_error subs' j = Some s -> R j s (C' j).
Proof.
  intros k C C' rest. revert C. induction rest as [|mp rest IH]; intros C done subs Em Hl HC Hj Hout; cbn [subtract_up].
  - exists subs. split; [reflexivity|]. split; [exact Hl|]. intros j s Hjs. rewrite Hout; [apply HC, Hjs|]. rewrite Em, app_nil_r. lia.
  - assert (Hf : f = length done + S (length rest)) by (rewrite Em, app_length; reflexivity).
    assert (Emp : nth_error maps (length done) = Some mp) by (rewrite Em, nth_error_app2, Nat.sub_diag by lia; reflexivity).
    pose proof (Hj (length done) mp (le_n _) Emp) as H0.
    assert (Em' : maps = (done ++ [mp]) ++ rest) by (rewrite <- app_assoc; exact Em).
    assert (Eld : length (done ++ [mp]) = length done + 1) by (rewrite app_length; reflexivity).
    assert (Hskip : C' (S (length done)) = C (S (length done)) -> exists subs', subtract_up sub k rest (length done + 1) subs = Ok subs' /\ length subs' = m /\ forall j s, nth_error subs' j = Some s -> R j s (C' j)).
    { intros Eq. rewrite <- Eld. apply (IH C (done ++ [mp]) subs Em' Hl HC).
      - intros j mp' Hle. apply Hj. lia.
      - intros j Hn. destruct (Nat.eq_dec j (S (length done))) as [->|Hne]; [exact Eq|]. apply Hout. lia. }
    destruct (nth_error subs (length done + 1)) as [s|] eqn:Es; [|apply nth_error_None in Es; lia].
    assert (Eis : index subs (length done + 1) = Ok s) by (apply index_Ok; exact Es). rewrite Eis. cbn [bind].
    pose proof (HC _ _ Es) as Hr. replace (length done + 1) with (S (length done)) in Hr by lia.
    destruct (e_layer _ _ _ _ _ _ (HS (S (length done)) ltac:(lia)) _ _ Hr) as [_ Elay]. rewrite Elay.
    destruct (layer_of (C (S (length done)))) as [l|]; [|apply Hskip, H0].
    destruct H0 as (used & El & Hl0). assert (Eil : index mp l = Ok used) by (apply index_Ok; exact El). rewrite Eil. cbn [bind].
    destruct (k =? used) eqn:Elk; [|apply Hskip, Hl0].
    destruct (Hl0 s Hr) as (s' & Ed & Hr'). rewrite Ed. cbn [bind].
    destruct (IH (fun j => if j =? S (length done) then C' j else C j) (done ++ [mp]) (set_nth (length done + 1) s' subs) Em') as (subs' & E' & Hl' & H').
    + rewrite set_nth_length. exact Hl.
    + intros j x Hx. destruct (Nat.eqb_spec j (S (length done))) as [->|Hne].
      * rewrite Nat.add_1_r in Hx. rewrite set_nth_same in Hx by lia. injection Hx as <-. exact Hr'.
      * rewrite set_nth_other in Hx by lia. apply HC, Hx.
    + intros j mp' Hle E. rewrite Eld in Hle. destruct (Nat.eqb_spec (S j) (S (length done))) as [H1|_]; [lia|]. apply Hj; [lia|exact E].
    + intros j Hn. destruct (Nat.eqb_spec j (S (length done))); [reflexivity|]. apply Hout. lia.
    + exists subs'. rewrite Eld in E'. auto.
Qed.

Lemma layer_of_snoc : forall (l : list frame) g, layer_of (l ++ [g]) = Some (length l).
Proof. intros l g. unfold layer_of. destruct l; cbn [app]; [reflexivity|]. cbn [length]. rewrite app_length. cbn. f_equal. lia. Qed.

(* what the layers below say about a follower that takes part in a layer *)
Lemma takes_part : forall active values fs st g p, layersp (slayer_ok active values) [] fs st -> slayer_ok active values fs g p -> on_values fs ->
  nth_error active 0 = Some (repeat true f) -> forall i cl, snd p (S i) = Some cl ->
  i < f /\ In (length fs) (map_at i) /\ length (ctx (S i) st) = depth (map_at i) (length fs) /\ nth_error (map_at i) (depth (map_at i) (length fs)) = Some (length fs) /\
  in_tree (Tau (S i)) [] (picks (map_at i) (path fs)).
Proof.
  intros active values fs st g p HL Hok Ho E0 i cl Ep. destruct (subtract_path _ _ _ _ HL Ho E0) as (a & Ea & Hla & _ & _ & Hf).
  destruct Hok as (_ & a' & v & E1 & _ & _ & _ & Hp & _). assert (a' = a) by congruence. subst a'.
  assert (Hon : nth_error a i = Some true /\ In (length fs) (map_at i)).
  { destruct (nth_error a i) as [[|]|] eqn:Eai.
    - split; [reflexivity|]. destruct (in_dec Nat.eq_dec (length fs) (map_at i)) as [H|H]; [exact H|]. exfalso. assert (E : snd p (S i) = None) by (apply Hp; tauto). congruence.
    - exfalso. assert (E : snd p (S i) = None) by (apply Hp; intros [H _]; congruence). congruence.
    - exfalso. assert (E : snd p (S i) = None) by (apply Hp; intros [H _]; congruence). congruence. }
  destruct Hon as [Hai Hin]. assert (Hi : i < f) by (rewrite <- Hla; apply nth_error_Some; congruence). split; [exact Hi|]. split; [exact Hin|].
  destruct (Hf i Hi) as [H1 H2]. destruct (H2 Hai) as [_ Hpp]. split; [rewrite <- (path_length (ctx (S i) st)), Hpp, picks_length, path_length; reflexivity|]. split.
  - apply In_nth_error in Hin. destruct Hin as [u Hu]. destruct (depth_at _ (map_at_sorted i Hi) _ _ Hu) as [D _]. rewrite D. exact Hu.
  - apply H1, Hai.
Qed.

Lemma subtract_up_ok : forall s fs g, subtract_state s (fs ++ [g]) -> exists s', tsubtract_up sub s = Ok s' /\ subtract_state s' fs.
Proof.
  intros s fs g (Emaps & Ev & Ea & E0 & Hrl & st & Hs & HL). rewrite removelast_snoc in Hrl. pose proof (ctx0_length _ _ _ _ HL) as Hc0. pose proof (follower_depth _ _ _ _ HL) as Hfd.
  apply layersp_unsnoc in HL. destruct HL as (st' & p & -> & HL & Hok). cbn [app] in Hok.
  destruct (main_layer s _ Hs) as (main & Em1 & Em2 & Hm & Har & Hlay).
  assert (Elay : ts_layer sub main = Some (length fs)). { rewrite Hlay. rewrite (layer_of_length _ (fs ++ [g])) by exact Hc0. apply layer_of_snoc. }
  set (C := fun i => ctx i (st' ++ [p])). set (C1 := fun i => match i with O => C 0 | S i => ctx (S i) st' end).
  destruct (up_loop (length fs) C C1 maps [] (tm_subs _ s) eq_refl) as (subs1 & Ed1 & Hl1 & H1).
  - apply Hs.
  - apply Hs.
  - intros j mp _ Emp. destruct (map_at_nth _ _ Emp) as [Emj Hj]. subst mp. unfold C, C1. rewrite ctx_last. unfold part_frame. destruct (snd p (S j)) as [[c l]|] eqn:Ep.
    + rewrite layer_of_snoc. destruct (takes_part _ _ _ _ _ _ HL Hok Hrl E0 j _ Ep) as (_ & Hin & Elen & Enth & _). exists (length fs). split; [rewrite Elen; exact Enth|].
      rewrite Nat.eqb_refl. intros x Hx. destruct (e_up _ _ _ _ _ _ (HS (S j) ltac:(lia)) _ _ _ Hx) as (x' & E & Hx'). eauto.
    + rewrite app_nil_r. unfold layer_of. destruct (ctx (S j) st') as [|y ys] eqn:Ec; [reflexivity|]. cbn [length].
      pose proof (follower_depth _ _ _ _ HL j Hj) as Hd. rewrite Ec in Hd. cbn [length] in Hd. pose proof (depth_le (map_at j) (length fs)) as Hd2.
      replace (S (length ys) - 1) with (length ys) by lia. destruct (nth_error (map_at j) (length ys)) as [used|] eqn:Eu; [|apply nth_error_None in Eu; lia].
      exists used. split; [reflexivity|]. pose proof (nth_below _ (map_at_sorted j Hj) (length fs) _ _ Eu ltac:(lia)). destruct (Nat.eqb_spec (length fs) used); [lia|reflexivity].
  - intros j Hj. cbn [length] in Hj. destruct j as [|j]; [reflexivity|]. unfold C, C1. rewrite ctx_last. unfold part_frame. destruct (snd p (S j)) as [[c l]|] eqn:Ep; [|symmetry; apply app_nil_r].
    destruct (takes_part _ _ _ _ _ _ HL Hok Hrl E0 j _ Ep) as (Hjf & _). lia.
  - destruct (nth_error subs1 0) as [main1|] eqn:Em1'; [|apply nth_error_None in Em1'; lia].
    pose proof (H1 0 main1 Em1') as Hm1. unfold C1, C in Hm1. rewrite ctx_last in Hm1. unfold part_frame in Hm1.
    pose proof Hok as (_ & a & v & _ & _ & _ & _ & _ & (_ & _ & lm & Epm & _) & _). rewrite Epm in Hm1.
    destruct (e_up _ _ _ _ _ _ (HS 0 ltac:(lia)) _ _ _ Hm1) as (main2 & Emu & Hm2).
    eexists. split.
    + unfold tsubtract_up. rewrite Em2. cbn [bind]. rewrite Elay. cbn [length] in Ed1. rewrite Emaps, Ed1. cbn [bind].
      unfold change. assert (Ei0 : index subs1 0 = Ok main1) by (apply index_Ok; exact Em1'). rewrite Ei0. cbn [bind]. rewrite Emu. cbn [bind]. reflexivity.
    + split; [reflexivity|]. cbn [tm_values tm_active tm_subs]. split; [exact Ev|]. split; [exact Ea|]. split; [exact E0|]. split; [apply on_removelast, Hrl|].
      exists st'. split; [|exact HL]. split; [rewrite set_nth_length; exact Hl1|]. intros i x Hx. destruct i as [|i].
      * rewrite set_nth_same in Hx by lia. injection Hx as <-. exact Hm2.
      * rewrite set_nth_other in Hx by lia. apply (H1 (S i) x Hx).
Qed.

(* ---------- requests ---------- *)

Definition follower_at (subs : list (tstate sub)) (k i : nat) : option (nat * nat * tstate sub) :=
  match used_layer (map_at i) k, nth_error subs (S i) with Some u, Some s => Some (S i, u, s) | _, _ => None end.
Lemma followers_ok : forall subs k rest done, maps = done ++ rest -> length subs = m ->
  exists fs su fo, followers sub subs rest k (length done) = Ok (fs, su, fo) /\ length fs = length rest /\
    (forall j, j < length rest -> nth_error fs j = Some (follower_at subs k (length done + j))) /\
    (forall i, In i su <-> length done <= i /\ i < f /\ exists u, used_layer (map_at i) k = Some u /\ u = length (map_at i) - 1) /\
    (forall i, In i fo <-> length done <= i /\ i < f /\ exists u, used_layer (map_at i) k = Some u /\ u <> length (map_at i) - 1).
Proof.
  intros subs k. induction rest as [|mp rest IH]; intros done Em Hl; cbn [followers].
  - exists [], [], []. split; [reflexivity|]. split; [reflexivity|]. split; [intros j Hj; cbn in Hj; lia|]. assert (f = length done) by (rewrite Em, app_nil_r; reflexivity).
    split; intros i; (split; [intros []|]); intros (H1 & H2 & _); lia.
  - assert (Hf : f = length done + S (length rest)) by (rewrite Em, app_length; reflexivity).
    assert (Emp : nth_error maps (length done) = Some mp) by (rewrite Em, nth_error_app2, Nat.sub_diag by lia; reflexivity).
    destruct (map_at_nth _ _ Emp) as [Ema _].
    assert (Em' : maps = (done ++ [mp]) ++ rest) by (rewrite <- app_assoc; exact Em).
    assert (Eld : length (done ++ [mp]) = length done + 1) by (rewrite app_length; reflexivity).
    destruct (IH (done ++ [mp]) Em' Hl) as (fs & su & fo & E & Hlf & Hnth & Hsu & Hfo). rewrite Eld in *. rewrite E. cbn [bind].
    assert (Hnth' : forall x, x = follower_at subs k (length done) -> forall j, j < S (length rest) -> nth_error (x :: fs) j = Some (follower_at subs k (length done + j))).
    { intros x -> [|j] Hj; cbn [nth_error]; [rewrite Nat.add_0_r; reflexivity|]. rewrite Hnth by lia. f_equal. f_equal. lia. }
    assert (Hcase : forall (P : nat -> Prop) i, (length done + 1 <= i /\ i < f /\ P i) \/ (i = length done /\ P i) <-> length done <= i /\ i < f /\ P i).
    { intros P i. split; [intros [(H1 & H2 & H3)|[-> H3]]; repeat split; auto; lia|]. intros (H1 & H2 & H3). destruct (Nat.eq_dec i (length done)); [right; auto|left; repeat split; auto; lia]. }
    destruct (used_layer mp k) as [u|] eqn:Eu.
    + destruct (nth_error subs (length done + 1)) as [s|] eqn:Es; [|apply nth_error_None in Es; lia].
      unfold borrow at 1. cbn [fst]. assert (Eis : index subs (length done + 1) = Ok s) by (apply index_Ok; exact Es). rewrite Eis. cbn [bind].
      assert (Efa : Some (length done + 1, u, s) = follower_at subs k (length done)). { unfold follower_at. rewrite Ema, Eu. rewrite Nat.add_1_r in Es |- *. rewrite Es. reflexivity. }
      destruct (Nat.eqb_spec u (length mp - 1)) as [Hu|Hu].
      * exists (Some (length done + 1, u, s) :: fs), (length done :: su), fo. split; [reflexivity|]. split; [cbn; lia|]. split; [apply Hnth', Efa|]. split; intros i.
        -- rewrite <- (Hcase (fun i => exists u, used_layer (map_at i) k = Some u /\ u = length (map_at i) - 1)). cbn [In]. rewrite Hsu. split; [intros [<-|H]; [right; split; [reflexivity|]; exists u; rewrite Ema; auto|left; exact H]|]. intros [H|[-> _]]; [right; exact H|left; reflexivity].
        -- rewrite <- (Hcase (fun i => exists u, used_layer (map_at i) k = Some u /\ u <> length (map_at i) - 1)). rewrite Hfo. split; [tauto|]. intros [H|[-> (u' & H1 & H2)]]; [exact H|]. rewrite Ema in *. congruence.
      * exists (Some (length done + 1, u, s) :: fs), su, (length done :: fo). split; [reflexivity|]. split; [cbn; lia|]. split; [apply Hnth', Efa|]. split; intros i.
        -- rewrite <- (Hcase (fun i => exists u, used_layer (map_at i) k = Some u /\ u = length (map_at i) - 1)). rewrite Hsu. split; [tauto|]. intros [H|[-> (u' & H1 & H2)]]; [exact H|]. rewrite Ema in *. congruence.
        -- rewrite <- (Hcase (fun i => exists u, used_layer (map_at i) k = Some u /\ u <> length (map_at i) - 1)). cbn [In]. rewrite Hfo. split; [intros [<-|H]; [right; split; [reflexivity|]; exists u; rewrite Ema; auto|left; exact H]|]. intros [H|[-> _]]; [right; exact H|left; reflexivity].
    + exists (None :: fs), su, fo. split; [reflexivity|]. split; [cbn; lia|].
      split; [apply Hnth'; unfold follower_at; rewrite Ema, Eu; reflexivity|]. split; intros i.
      * rewrite <- (Hcase (fun i => exists u, used_layer (map_at i) k = Some u /\ u = length (map_at i) - 1)). rewrite Hsu. split; [tauto|]. intros [H|[-> (u' & H1 & H2)]]; [exact H|]. rewrite Ema in *. congruence.
      * rewrite <- (Hcase (fun i => exists u, used_layer (map_at i) k = Some u /\ u <> length (map_at i) - 1)). rewrite Hfo. split; [tauto|]. intros [H|[-> (u' & H1 & H2)]]; [exact H|]. rewrite Ema in *. congruence.
Qed.

Lemma give_some_length : forall scans subs, length (give_back_some sub scans subs) = length subs.
Proof. unfold give_back_some. induction scans as [|[s|] scans IH]; intros subs; [reflexivity| |]; cbn [fold_left]; rewrite IH; [apply set_nth_length|reflexivity]. Qed.
Lemma give_some_other : forall scans subs i, (forall s, In (Some s) scans -> fst (fst s) <> i) -> nth_error (give_back_some sub scans subs) i = nth_error subs i.
Proof.
  unfold give_back_some. induction scans as [|[s|] scans IH]; intros subs i H; [reflexivity| |]; cbn [fold_left].
  - rewrite IH by (intros s' Hs'; apply H; right; exact Hs'). apply set_nth_other. apply H. left. reflexivity.
  - apply IH. intros s' Hs'. apply H. right. exact Hs'.
Qed.
Lemma give_some_in : forall scans subs k, (forall j s, nth_error scans j = Some (Some s) -> fst (fst s) = k + j) -> forall j s, nth_error scans j = Some (Some s) -> k + j < length subs ->
  nth_error (give_back_some sub scans subs) (k + j) = Some (snd s).
Proof.
  unfold give_back_some. induction scans as [|o scans IH]; intros subs k H j s Hj Hlt; [destruct j; discriminate|]. cbn [fold_left]. destruct j as [|j]; cbn in Hj.
  - injection Hj as ->. pose proof (H 0 s eq_refl) as E. rewrite Nat.add_0_r in *. rewrite E.
    change (nth_error (give_back_some sub scans (set_nth k (snd s) subs)) k = Some (snd s)). rewrite give_some_other.
    + apply set_nth_same, Hlt.
    + intros s' Hs'. apply In_nth_error in Hs'. destruct Hs' as [j Hj]. rewrite (H (S j) s' Hj). lia.
  - replace (k + S j) with (S k + j) by lia. apply IH; [|exact Hj|].
    + intros j' s' Hj'. rewrite (H (S j') s' Hj'). lia.
    + destruct o; rewrite ?set_nth_length; lia.
Qed.

Lemma subtract_ask_state : forall q s (fs : list frame) t c l, subtract_state s (fs ++ [(t, c, l)]) ->
  exists enough s', let l' := after q c l in
    (forall fuel, enough <= fuel -> ts_ask (subtract_trie sub) q fuel (length fs) t s = Ok (s', hd_error l')) /\
    subtract_state s' (fs ++ [(t, hd_error l', tl l')]).
Proof.
  intros q s fs t c l (Emaps & Ev & Ea & E0 & Hrl & st0 & Hs & HL). rewrite removelast_snoc in Hrl.
  apply layersp_unsnoc in HL. destruct HL as (st & [t' p] & -> & HL & Hok). cbn [app] in Hok.
  pose proof (takes_part _ _ _ _ _ _ HL Hok Hrl E0) as Htp. pose proof (ctx0_length _ _ _ _ HL) as Hc0.
  destruct Hok as (Ht & a & v & E1 & E2 & Evt & Hla & Hp & (Hinc & Hincs & lm & Epm & Hl & Hc) & _). cbn [f_type f_current fst snd] in *. subst t'. set (k := length fs) in *.
  set (F := fun i => Tau (S i) (picks (map_at i) (path fs)) t) in *.
  assert (Hk : k < n). { rewrite <- Ev. apply nth_error_Some. congruence. }
  assert (Hsub : length (tm_subs _ s) = m) by apply Hs.
  destruct (nth_error (tm_subs _ s) 0) as [main|] eqn:Em0; [|apply nth_error_None in Em0; lia].
  destruct (nth_error (tm_active _ s) (k + 1)) as [eq0|] eqn:Eeq; [|apply nth_error_None in Eeq; lia].
  destruct (followers_ok (tm_subs _ s) k maps [] eq_refl Hsub) as (fsn & su & fo & Efs & Hlf & Hnf & Hsu & Hfo). cbn [length Nat.add] in *.
  assert (Hon : forall i, (exists cl, p (S i) = Some cl) <-> nth_error a i = Some true /\ In k (map_at i)).
  { intros i. destruct (p (S i)) as [cl|] eqn:Ep; [|split; [intros [cl E]; discriminate|]; intros H; exfalso; apply (proj1 (Hp i) Ep H)].
    split; [|eauto]. intros _. destruct (nth_error a i) as [[|]|] eqn:Eai.
    - split; [reflexivity|]. apply (Htp i cl Ep).
    - exfalso. assert (E : p (S i) = None) by (apply Hp; intros [H _]; congruence). congruence.
    - exfalso. assert (E : p (S i) = None) by (apply Hp; intros [H _]; congruence). congruence. }
  assert (Hused : forall i u, i < f -> (used_layer (map_at i) k = Some u <-> In k (map_at i) /\ u = depth (map_at i) k)).
  { intros i u Hi. split.
    - intros H. apply (used_nth _ (map_at_sorted i Hi)) in H. split; [eapply nth_error_In, H|]. symmetry. apply (depth_at _ (map_at_sorted i Hi) _ _ H).
    - intros [H ->]. apply used_some; [apply map_at_sorted, Hi|exact H]. }
  assert (Hsu' : forall i, In i su <-> i < f /\ In k (map_at i) /\ last_layer i k).
  { intros i. rewrite Hsu. split.
    - intros (_ & Hi & u & Hu & Hl'). split; [exact Hi|]. split; [apply (Hused i u Hi), Hu|]. apply (used_last _ (map_at_sorted i Hi) k u Hu), Hl'.
    - intros (Hi & Hin & Hll). split; [lia|]. split; [exact Hi|]. pose proof (used_some _ (map_at_sorted i Hi) k Hin) as Hu. eexists. split; [exact Hu|]. apply (used_last _ (map_at_sorted i Hi) k _ Hu), Hll. }
  assert (Hfo' : forall i, In i fo <-> i < f /\ In k (map_at i) /\ ~ last_layer i k).
  { intros i. rewrite Hfo. split.
    - intros (_ & Hi & u & Hu & Hl'). split; [exact Hi|]. split; [apply (Hused i u Hi), Hu|]. intros H. apply Hl', (used_last _ (map_at_sorted i Hi) k u Hu), H.
    - intros (Hi & Hin & Hll). split; [lia|]. split; [exact Hi|]. pose proof (used_some _ (map_at_sorted i Hi) k Hin) as Hu. eexists. split; [exact Hu|]. intros H. apply Hll, (used_last _ (map_at_sorted i Hi) k _ Hu), H. }
  assert (Hgone : forall x, gone F a su x <-> gone_in k a F x).
  { intros x. unfold gone, gone_in. split.
    - intros (j & H1 & H2 & H3). apply Hsu' in H1. exists j. tauto.
    - intros (j & H1 & H2 & H3 & H4 & H5). exists j. split; [apply Hsu'; tauto|]. split; [exact H2|exact H5]. }
  assert (Hfn : forall i x, nth_error fsn i = Some (Some x) -> i < f /\ In k (map_at i) /\ fst x = (S i, depth (map_at i) k) /\ nth_error (tm_subs _ s) (S i) = Some (snd x)).
  { intros i x H. assert (Hi : i < f) by (rewrite <- Hlf; apply nth_error_Some; congruence). rewrite (Hnf i Hi) in H. injection H as H. unfold follower_at in H.
    destruct (used_layer (map_at i) k) as [u|] eqn:Eu; [|discriminate]. destruct (nth_error (tm_subs _ s) (S i)) as [y|] eqn:Ey; [|discriminate]. injection H as <-. apply (Hused i u Hi) in Eu. destruct Eu as [Hin ->]. auto. }
  set (T := mk_subtract (sub_column sub t) (0, k, main) fsn su fo eq0 a (v t)).
  set (fc := fun i => match p (S i) with Some cl => cl | None => (None, []) end).
  assert (Hfc : forall i, nth_error a i = Some true -> In k (map_at i) -> p (S i) = Some (fc i)).
  { intros i H1 H2. destruct (proj2 (Hon i) (conj H1 H2)) as [cl Ecl]. unfold fc. rewrite Ecl. reflexivity. }
  assert (HT : subtract_rel (sub_column sub t) (col_rel sub m R st t) F a T c l).
  { split; [exact Hinc|]. split; [exact Evt|]. split; [reflexivity|]. cbn zeta. cbn [t_subtract t_follow t_followers t_main T]. split.
    - intros i Hi. assert (Hif : i < f /\ In k (map_at i)) by (apply in_app_or in Hi; destruct Hi as [Hi|Hi]; [apply Hsu' in Hi|apply Hfo' in Hi]; tauto). destruct Hif as [Hif Hin].
      split; [lia|]. intros Hoi. destruct (nth_error (tm_subs _ s) (S i)) as [y|] eqn:Ey; [|apply nth_error_None in Ey; lia].
      exists (S i, depth (map_at i) k, y). refine (eq_trans (Hnf i Hif) _). unfold follower_at. rewrite (used_some _ (map_at_sorted i Hif) k Hin), Ey. reflexivity.
    - exists lm, fc. split; [|split; [|split]].
      + split; [apply (Hincs 0 (c, lm) Epm)|]. cbn [fst snd]. split; [lia|]. split; [symmetry; exact Hc0|]. destruct Hs as [_ Hs]. specialize (Hs 0 main Em0). rewrite ctx_last in Hs. unfold part_frame in Hs. cbn [fst snd] in Hs. rewrite Epm in Hs. exact Hs.
      + intros i x Hoi Hx. destruct (Hfn i x Hx) as (Hif & Hin & Efx & Esx). pose proof (Hfc i Hoi Hin) as Ep. destruct (Htp i _ Ep) as (_ & _ & Elen & _).
        unfold col_rel. rewrite Efx. cbn [fst snd]. split; [apply (Hincs _ _ Ep)|]. split; [lia|]. split; [symmetry; exact Elen|].
        destruct Hs as [_ Hs]. specialize (Hs _ _ Esx). rewrite ctx_last in Hs. unfold part_frame in Hs. cbn [fst snd] in Hs. rewrite Ep in Hs. destruct (fc i) as [c0 l0]. exact Hs.
      + intros x. rewrite Hgone. apply Hl.
      + destruct c as [w|].
        * destruct Hc as (Hc1 & Hc2 & Hc3). split; [rewrite Hgone; exact Hc1|]. split.
          -- intros i Hi Hoi x Hx. assert (Hin : In k (map_at i)) by (apply in_app_or in Hi; destruct Hi as [Hi|Hi]; [apply Hsu' in Hi|apply Hfo' in Hi]; tauto). apply (Hc2 i _ (Hfc i Hoi Hin) x Hx).
          -- intros i Hi Hoi Hw. apply Hfo' in Hi. destruct Hi as (Hif & Hin & Hnl). apply (Hc3 i _ (Hfc i Hoi Hin) Hnl Hw).
        * destruct Hc as [Hc|Hc]; [left; exact Hc|right]. intros i Hi Hoi x _. assert (Hin : In k (map_at i)) by (apply in_app_or in Hi; destruct Hi as [Hi|Hi]; [apply Hsu' in Hi|apply Hfo' in Hi]; tauto). apply (Hc i _ (Hfc i Hoi Hin) x). }
  destruct (i_ask _ _ _ _ _ (subtract_implements _ _ _ _ (col_implements sub b m size Ty Tau R HS st t) F a) T c l q HT) as (en & T' & Hask & Hrep & HT'). { destruct q; exact I. }
  set (l' := after q c l) in *. exists en. eexists. split.
  - intros fuel Hf. specialize (Hask fuel Hf).
    assert (G : ts_ask (subtract_trie sub) q fuel k t s = tsubtract_ask sub (fun sc => ask sc q fuel) k t s) by (destruct q; reflexivity).
    rewrite G. unfold tsubtract_ask. unfold borrow at 1. cbn [fst]. assert (Ei0 : index (tm_subs _ s) 0 = Ok main) by (apply index_Ok; exact Em0). rewrite Ei0. cbn [bind].
    rewrite Emaps, Efs. cbn [bind fst snd]. assert (Ei : index (tm_active _ s) k = Ok a) by (apply index_Ok; exact E1). rewrite Ei. cbn [bind].
    assert (Ei1 : index (tm_active _ s) (k + 1) = Ok eq0) by (apply index_Ok; exact Eeq). rewrite Ei1. cbn [bind].
    assert (Ei2 : index (tm_values _ s) k = Ok v) by (apply index_Ok; exact E2). rewrite Ei2. cbn [bind].
    fold T. rewrite Hask. cbn [bind fst snd]. reflexivity.
  - destruct (subtract_keeps (sub_column sub t) (nat * nat) fst (column_keeps sub t) q en T T' _ (Hask en (le_n _))) as (Hkm & [Hkf Hki] & Hks & Hkfo & Hka). cbn [t_main t_followers t_subtract t_follow t_active T] in Hkm, Hkf, Hki, Hks, Hkfo, Hka.
    destruct HT' as (Hinc' & Hv' & _ & Hus' & lm' & fc' & Hm' & Hcf' & Hl' & Hc').
    assert (Hf' : forall i x, nth_error (t_followers _ T') i = Some (Some x) -> i < f /\ In k (map_at i) /\ fst x = (S i, depth (map_at i) k)).
    { intros i x Hx. assert (E : nth_error (map (option_map (@fst (nat * nat) (tstate sub))) fsn) i = Some (Some (fst x))).
      { exact (eq_ind _ (fun L => nth_error L i = Some (Some (fst x))) (map_nth_error (option_map fst) _ _ Hx) _ Hkf). }
      rewrite nth_error_map in E. destruct (nth_error fsn i) as [[y|]|] eqn:Ey; cbn in E; try discriminate. injection E as E. destruct (Hfn i y Ey) as (H1 & H2 & H3 & _). split; [exact H1|]. split; [exact H2|]. congruence. }
    assert (Hback : forall i x, nth_error (t_followers _ T') i = Some (Some x) -> nth_error (give_back_some sub (t_followers _ T') (tm_subs _ s)) (S i) = Some (snd x)).
    { intros i x Hx. apply (give_some_in (t_followers _ T') (tm_subs _ s) 1); [|exact Hx|destruct (Hf' i x Hx); rewrite Hsub; lia].
      intros j y Hy. destruct (Hf' j y Hy) as (_ & _ & E). pose proof (f_equal fst E) as E'. exact E'. }
    assert (Hkeep : forall i, (forall x, nth_error (t_followers _ T') i <> Some (Some x)) -> nth_error (give_back_some sub (t_followers _ T') (tm_subs _ s)) (S i) = nth_error (tm_subs _ s) (S i)).
    { intros i Hno. apply give_some_other. intros x Hx Hxi. apply In_nth_error in Hx. destruct Hx as [j Hx]. destruct (Hf' j x Hx) as (_ & _ & E). pose proof (f_equal fst E) as E'. cbn in E'.
      assert (j = i) by (pose proof (eq_trans (eq_sym E') Hxi) as E''; injection E'' as ->; reflexivity). subst j. apply (Hno x Hx). }
    set (onb := fun i => match nth_error a i with Some true => existsb (Nat.eqb k) (map_at i) | _ => false end).
    assert (Honb : forall i, onb i = true <-> nth_error a i = Some true /\ In k (map_at i)).
    { intros i. unfold onb. destruct (nth_error a i) as [[|]|]; [rewrite mem_nat; tauto| |]; split; try discriminate; intros [? _]; discriminate. }
    set (p' := fun i => match i with O => Some (hd_error l', lm') | S i => if onb i then Some (fc' i) else None end).
    assert (Hp' : forall i cl, p' (S i) = Some cl <-> cl = fc' i /\ nth_error a i = Some true /\ In k (map_at i)).
    { intros i cl. unfold p'. rewrite <- Honb. destruct (onb i); split; [intros E; injection E as <-; auto|intros [-> _]; reflexivity|discriminate|intros [_ ?]; discriminate]. }
    assert (Hall : forall i, i < f -> In k (map_at i) -> In i (t_subtract _ T' ++ t_follow _ T')).
    { intros i Hi Hin. apply in_or_app. destruct (Nat.eq_dec (depth (map_at i) (S k)) (length (map_at i))) as [H|H].
      - left. exact (eq_ind_r (fun L => In i L) (proj2 (Hsu' i) (conj Hi (conj Hin H))) Hks).
      - right. exact (eq_ind_r (fun L => In i L) (proj2 (Hfo' i) (conj Hi (conj Hin H))) Hkfo). }
    assert (Hif : forall i, nth_error a i = Some true -> i < f) by (intros i Hi; rewrite <- Hla; apply nth_error_Some; congruence).
    assert (Hgone' : forall x, gone F a (t_subtract _ T') x <-> gone_in k a F x).
    { intros x. rewrite <- Hgone. pose proof Hks as Hks'. unfold gone. split; intros (j & H1 & H2); exists j; (split; [|exact H2]); [exact (eq_ind _ (fun L => In j L) H1 _ Hks')|exact (eq_ind_r (fun L => In j L) H1 Hks')]. }
    assert (Hnx : forall i, In i (t_follow _ T') <-> i < f /\ In k (map_at i) /\ ~ last_layer i k).
    { intros i. rewrite <- Hfo'. split; intros H; [exact (eq_ind _ (fun L => In i L) H _ Hkfo)|exact (eq_ind_r (fun L => In i L) H Hkfo)]. }
    assert (Hsx : forall i, In i (t_subtract _ T') <-> i < f /\ In k (map_at i) /\ last_layer i k).
    { intros i. rewrite <- Hsu'. split; intros H; [exact (eq_ind _ (fun L => In i L) H _ Hks)|exact (eq_ind_r (fun L => In i L) H Hks)]. }
    split; [reflexivity|]. cbn [tm_values tm_active tm_subs]. rewrite !set_nth_length. split; [exact Ev|]. split; [exact Ea|]. split; [rewrite set_nth_other by lia; exact E0|]. split; [rewrite removelast_snoc; exact Hrl|].
    exists (st ++ [(t, p')]). split.
    + split; [rewrite give_back_length, give_some_length; exact Hsub|]. intros i x Hx. rewrite ctx_last. unfold part_frame. cbn [fst snd].
      destruct Hm' as (_ & _ & _ & Hm'). destruct i as [|i].
      * unfold p'. cbn [give_back fold_left] in Hx. rewrite Hkm in Hx, Hm'. cbn [fst] in Hx, Hm'. rewrite set_nth_same in Hx by (rewrite give_some_length; lia). injection Hx as <-. exact Hm'.
      * cbn [give_back fold_left] in Hx. rewrite Hkm in Hx. cbn [fst] in Hx. rewrite set_nth_other in Hx by lia. unfold p'. destruct (onb i) eqn:Eo.
        -- apply Honb in Eo. destruct Eo as [Hai Hin]. pose proof (Hif i Hai) as Hi. destruct (Hus' i (Hall i Hi Hin)) as [_ Hsome]. destruct (Hsome Hai) as [y Hy]. rewrite (Hback i y Hy) in Hx. injection Hx as <-.
           pose proof (Hcf' i y Hai Hy) as (_ & _ & _ & Hr). destruct (Hf' i y Hy) as (_ & _ & Efy). rewrite Efy in Hr. cbn [fst] in Hr. destruct (fc' i) as [c0 l0]. exact Hr.
        -- rewrite app_nil_r. assert (Hold : nth_error (tm_subs _ s) (S i) = Some x).
           { destruct (nth_error (t_followers _ T') i) as [[y|]|] eqn:Ey.
             - rewrite (Hback i y Ey) in Hx. injection Hx as <-. assert (Hna : nth_error a i <> Some true).
               { intros Hai. assert (onb i = true) by (apply Honb; split; [exact Hai|apply (Hf' i y Ey)]). congruence. }
               pose proof (Hki i Hna) as Ek. pose proof (eq_trans (eq_sym Ek) Ey) as Ek2. apply (Hfn i y Ek2).
             - rewrite Hkeep in Hx; [exact Hx|]. intros y E. congruence.
             - rewrite Hkeep in Hx; [exact Hx|]. intros y E. congruence. }
           destruct Hs as [_ Hs]. specialize (Hs _ _ Hold). rewrite ctx_last in Hs. unfold part_frame in Hs. cbn [fst snd] in Hs.
           assert (Ep : p (S i) = None). { apply Hp. rewrite <- Honb. congruence. } rewrite Ep, app_nil_r in Hs. exact Hs.
    + apply layersp_snoc.
      * eapply layersp_weaken; [|exact HL]. intros pre' g q0 Hk1 Hk2. cbn in Hk2. fold k in Hk2. apply slayer_ok_ext; apply set_nth_other; lia.
      * cbn [app]. split; [reflexivity|]. exists a. eexists. fold k. split; [rewrite set_nth_other by lia; exact E1|]. split; [apply set_nth_same; lia|].
        assert (Ett : stype_eqb t t = true) by (destruct t; reflexivity).
        split; [unfold upd; cbn [fst]; rewrite Ett; exact Hv'|]. split; [exact Hla|]. cbn [fst snd f_current]. split.
        { intros i. unfold p'. rewrite <- Honb. destruct (onb i); split; congruence. }
        split.
        { split; [exact Hinc'|]. split.
          - intros i cl Hcl. destruct i as [|i]; [unfold p' in Hcl; injection Hcl as <-; apply Hm'|]. apply Hp' in Hcl. destruct Hcl as (-> & Hai & Hin).
            destruct (Hus' i (Hall i (Hif i Hai) Hin)) as [_ Hsome]. destruct (Hsome Hai) as [y Hy]. apply (Hcf' i y Hai Hy).
          - exists lm'. split; [reflexivity|]. fold F. split; [intros x; refine (iff_trans (Hl' x) _); rewrite (Hgone' x); reflexivity|]. destruct (hd_error l') as [w|].
            + destruct Hc' as (H1 & H2 & H3). split; [intros HG; apply H1, Hgone', HG|]. split.
              * intros i cl Hcl x Hx. apply Hp' in Hcl. destruct Hcl as (-> & Hai & Hin). apply (H2 i (Hall i (Hif i Hai) Hin) Hai x Hx).
              * intros i cl Hcl Hnl Hw. apply Hp' in Hcl. destruct Hcl as (-> & Hai & Hin). apply H3; [apply Hnx; auto|exact Hai|exact Hw].
            + destruct Hc' as [H|H]; [left; exact H|right]. intros i cl Hcl x. apply Hp' in Hcl. destruct Hcl as (-> & Hai & Hin). apply (H i (Hall i (Hif i Hai) Hin) Hai x I). }
        { intros w Hw. rewrite Hw in Hrep. destruct Hrep as (R1 & R2 & R3 & R4). exists (t_equal _ T'). split; [rewrite Nat.add_1_r; apply set_nth_same; lia|].
          split; [rewrite R3; exact (eq_trans (f_equal (@length _) Hka) Hla)|]. intros i Hi. fold F. destruct (in_dec Nat.eq_dec k (map_at i)) as [Hin|Hin].
          - destruct (Nat.eq_dec (depth (map_at i) (S k)) (length (map_at i))) as [Hll|Hll].
            + rewrite (R1 i) by (apply Hsx; auto). split; [discriminate|]. intros [_ H]. destruct (H Hin) as [H' _]. contradiction.
            + rewrite (R2 i) by (try (apply Hnx; auto); rewrite Hsx; tauto). change (t_active _ T') with (t_active (sub_column sub t) T'). rewrite Hka. split; [tauto|]. intros [H1 H2]. split; [exact H1|apply H2, Hin].
          - rewrite (R4 i) by (rewrite ?Hsx, ?Hnx; tauto). rewrite Hka. tauto. }
Qed.

Lemma subtract_current_ok : forall s (fs : list frame) t c l (gs : list frame), subtract_state s (fs ++ (t, c, l) :: gs) ->
  ts_current (subtract_trie sub) (length fs) t s = Ok c.
Proof.
  intros s fs t c l gs (Emaps & Ev & Ea & E0 & Hrl & st & Hs & HL). apply layersp_mid in HL. destruct HL as (p & Ht & a & v & E1 & E2 & Ec & _). cbn [app] in *.
  cbn [ts_current subtract_trie]. assert (Ei : index (tm_values _ s) (length fs) = Ok v) by (apply index_Ok; exact E2). rewrite Ei. cbn [bind].
  cbn in Ht. rewrite Ht, Ec. reflexivity.
Qed.

Lemma subtract_simulates : simulates n (Ty 0) subtract_tree (subtract_trie sub) true subtract_state.
Proof.
  constructor.
  - intros s fs (_ & _ & _ & _ & _ & st & [Hl Hs] & _). cbn. destruct (tm_subs _ s) as [|x xs]; [cbn in Hl; lia|]. apply (e_arity _ _ _ _ _ _ (HS 0 ltac:(lia)) x _ (Hs 0 x eq_refl)).
  - intros s fs k (_ & _ & _ & _ & _ & st & [Hl Hs] & _) Hk. cbn. destruct (tm_subs _ s) as [|x xs]; [cbn in Hl; lia|]. apply (e_types _ _ _ _ _ _ (HS 0 ltac:(lia)) x _ k (Hs 0 x eq_refl) Hk).
  - intros s fs (Em & Ev & Ea & E0 & Hrl & st & Hs & HL). split.
    + destruct (Nat.le_gt_cases (length fs) n) as [H|H]; [exact H|]. exfalso.
      destruct (nth_error fs n) as [g|] eqn:Ef; [|apply nth_error_None in Ef; lia]. apply nth_error_split in Ef. destruct Ef as (l1 & l2 & -> & Hl1).
      apply layersp_mid in HL. destruct HL as (p & Ht & a & v & E1 & E2 & _). cbn in E2. assert (length l1 < length (tm_values _ s)) by (apply nth_error_Some; congruence). lia.
    + pose proof (ctx0_length _ _ _ _ HL) as Hc0. destruct Hs as [Hl Hs]. cbn. destruct (tm_subs _ s) as [|x xs]; [cbn in Hl; lia|].
      destruct (e_layer _ _ _ _ _ _ (HS 0 ltac:(lia)) x _ (Hs 0 x eq_refl)) as [_ E]. rewrite E. apply layer_of_length, Hc0.
  - apply subtract_up_ok.
  - apply subtract_down_ok.
  - apply subtract_ask_state.
  - intros s fs t c l gs H _. eapply subtract_current_ok, H.
Qed.
Lemma subtract_proper : proper n (Ty 0) subtract_tree.
Proof.
  pose proof (HP 0 ltac:(lia)) as H0. cbn [size] in H0. constructor.
  - intros p t Hp. unfold subtract_tree. apply filter_incr. apply (p_increasing _ _ _ H0 p t Hp).
  - intros p t Hp Hne. apply (p_types _ _ _ H0); [exact Hp|]. intros E. apply Hne. unfold subtract_tree. rewrite E. reflexivity.
  - apply (p_sorted _ _ _ H0).
Qed.
Lemma last_layer_max : forall i k, i < f -> In k (map_at i) -> last_layer i k -> forall x, In x (map_at i) -> x < S k.
Proof. intros i k Hi Hin Hl. apply depth_full, Hl. Qed.
Lemma last_layer_exists : forall i, i < f -> exists k, k < n /\ In k (map_at i) /\ last_layer i k.
Proof.
  intros i Hi. destruct (HM _ (map_at_in i Hi)) as (Hs & Hne & Hlt).
  destruct (nth_error (map_at i) (length (map_at i) - 1)) as [k|] eqn:E.
  - exists k. split; [apply Hlt; eapply nth_error_In, E|]. split; [eapply nth_error_In, E|]. unfold last_layer. rewrite (proj2 (depth_at _ Hs _ _ E)). destruct (map_at i); [congruence|cbn; lia].
  - apply nth_error_None in E. destruct (map_at i); [congruence|cbn in E; lia].
Qed.
Lemma subtract_tree_rows : forall r p, length p + length r = n ->
  (in_tree subtract_tree p r <-> in_tree (Tau 0) p r /\ forall i k, i < f -> In k (map_at i) -> last_layer i k -> length p <= k -> ~ in_tree (Tau (S i)) [] (picks (map_at i) (p ++ r))).
Proof.
  induction r as [|v r IH]; intros p Hn; cbn [in_tree].
  - split; [|tauto]. intros _. split; [exact I|]. intros i k Hi Hin _ Hk. destruct (HM _ (map_at_in i Hi)) as (_ & _ & Hlt). specialize (Hlt k Hin). cbn in Hn. lia.
  - cbn [length] in Hn. rewrite subtract_tree_In, IH by (rewrite app_length; cbn; lia). rewrite app_length. cbn [length]. rewrite <- app_assoc. cbn [app].
    assert (Epk : forall i, i < f -> In (length p) (map_at i) -> last_layer i (length p) -> picks (map_at i) (p ++ v :: r) = picks (map_at i) (p ++ [v])).
    { intros i Hi Hin Hll. change (p ++ v :: r) with (p ++ [v] ++ r). rewrite app_assoc. apply picks_app. intros x Hx. rewrite app_length. cbn. rewrite Nat.add_1_r. eapply last_layer_max; eassumption. }
    assert (Ev : (fst v, snd v) = v) by (destruct v; reflexivity). rewrite Ev. split.
    + intros [[H1 H2] [H3 H4]]. split; [auto|]. intros i k Hi Hin Hll Hk Ht. destruct (Nat.eq_dec k (length p)) as [->|Hne].
      * apply H2. exists i. rewrite Epk in Ht by assumption. auto.
      * apply (H4 i k Hi Hin Hll ltac:(lia) Ht).
    + intros [[H1 H2] H3]. split; [split; [exact H1|]|split; [exact H2|]].
      * intros (i & Hi & Hin & Hll & Ht). apply (H3 i (length p) Hi Hin Hll (le_n _)). rewrite Epk by assumption. exact Ht.
      * intros i k Hi Hin Hll Hk. apply (H3 i k Hi Hin Hll). lia.
Qed.
Lemma subtract_rows : forall r, length r = n -> (in_tree subtract_tree [] r <-> in_tree (Tau 0) [] r /\ forall i, i < f -> ~ in_tree (Tau (S i)) [] (picks (map_at i) r)).
Proof.
  intros r Hr. rewrite (subtract_tree_rows r []) by exact Hr. cbn [app length]. split; intros [H1 H2]; (split; [exact H1|]).
  - intros i Hi. destruct (last_layer_exists i Hi) as (k & _ & Hin & Hll). apply (H2 i k Hi Hin Hll). lia.
  - intros i k Hi _ _ _. apply H2, Hi.
Qed.
Lemma subtract_new_ok : forall main others, length others = f -> (forall i s, nth_error (main :: others) i = Some s -> R i s []) ->
  subtract_state (tsubtract_new sub maps main others) [].
Proof.
  intros main others Hl Hs. assert (Har : ts_arity sub main = n) by apply (e_arity _ _ _ _ _ _ (HS 0 ltac:(lia)) _ _ (Hs 0 main eq_refl)).
  unfold tsubtract_new. rewrite Har. split; [reflexivity|]. cbn [tm_values tm_active tm_subs]. split; [apply repeat_length|]. split; [cbn [length]; rewrite repeat_length; reflexivity|].
  split; [cbn [nth_error]; rewrite Hl; reflexivity|]. split; [intros x []|]. exists []. split; [split; [cbn; lia|]|exact I]. intros i s Hi. cbn. apply Hs, Hi.
Qed.
End Subtract.
