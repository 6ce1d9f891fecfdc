(* The tuple buffer: contents of the subtables. *)
From Coq Require Import List ZArith Bool Lia Arith Permutation.
From Verif Require Import ColumnModel ScanModel TrieModel TrieSpec TrieProofs1.
Import ListNotations.
Local Open Scope nat_scope.

Definition dflt : value := (Id32, 0%Z).
Definition cell (st : storage) (t : stype) (i : nat) : option (list Z) := nth_error (st t) i.

Lemma nth_combine : forall A B (l : list A) (m : list B) c x y, nth_error (combine l m) c = Some (x, y) <->
  nth_error l c = Some x /\ nth_error m c = Some y.
Proof.
  intros A B. induction l as [|a l IH]; intros m c x y; [cbn; destruct c; split; [discriminate|intros [H _]; discriminate|discriminate|intros [H _]; discriminate]|].
  destruct m as [|b m]; [cbn; destruct c; split; try discriminate; intros [_ H]; discriminate|].
  destruct c as [|c]; cbn; [split; [intros H; injection H as -> ->; auto|intros [H1 H2]; congruence]|apply IH].
Qed.

Lemma nth_types : forall (r : row) c t, nth_error (map fst r) c = Some t -> exists v : value, nth_error r c = Some v /\ fst v = t.
Proof.
  induction r as [|v r IH]; intros [|c] t H; try discriminate; cbn in *; [exists v; split; congruence|apply IH, H].
Qed.

Lemma push_tuple_ok : forall r is st, length is = length r -> NoDup (combine (map fst r) is) ->
  (forall t i, In (t, i) (combine (map fst r) is) -> cell st t i <> None) ->
  exists st', push_tuple r is st = Ok st' /\
    (forall c v i, nth_error r c = Some v -> nth_error is c = Some i ->
       exists col, cell st (fst v) i = Some col /\ cell st' (fst v) i = Some (col ++ [snd v])) /\
    (forall t i, ~ In (t, i) (combine (map fst r) is) -> cell st' t i = cell st t i).
Proof.
  induction r as [|[t v] r IH]; intros is st Hl Hd Hv.
  - exists st. cbn [push_tuple]. split; [reflexivity|]. split; [intros [|c] ? ? H; discriminate|reflexivity].
  - destruct is as [|i is]; [discriminate|]. cbn [map fst combine length] in *. injection Hl as Hl. inversion Hd as [|? ? Hni Hd']; subst.
    destruct (cell st t i) as [col|] eqn:Ec; [|exfalso; apply (Hv t i); [left; reflexivity|exact Ec]].
    cbn [push_tuple]. unfold cell in Ec. rewrite (index_some _ _ _ _ Ec). cbn [bind].
    set (st1 := upd t (set_nth i (col ++ [v]) (st t)) st).
    assert (C1 : cell st1 t i = Some (col ++ [v])).
    { unfold cell, st1. rewrite upd_same. apply set_nth_same. eapply nth_Some_lt, Ec. }
    assert (C2 : forall s j, (s, j) <> (t, i) -> cell st1 s j = cell st s j).
    { intros s j Hne. unfold cell, st1. destruct (stype_eq_dec s t) as [->|Hs]; [rewrite upd_same|rewrite upd_other by exact Hs; reflexivity].
      apply set_nth_other. congruence. }
    destruct (IH is st1 Hl Hd') as (st' & E & P1 & P2).
    { intros s j Hin. rewrite C2; [apply Hv; right; exact Hin|]. intros H. rewrite H in Hin. exact (Hni Hin). }
    exists st'. split; [exact E|]. split.
    + intros [|c] w j Hc Hj; cbn in Hc, Hj.
      * injection Hc as <-. injection Hj as <-. cbn [fst snd]. exists col. split; [exact Ec|]. rewrite P2 by exact Hni. exact C1.
      * destruct (P1 c w j Hc Hj) as (col' & E1 & E2). exists col'. split; [|exact E2]. rewrite <- E1. symmetry. apply C2.
        intros H. apply Hni. rewrite <- H. apply (nth_error_In _ c), nth_combine. split; [|exact Hj]. rewrite nth_error_map, Hc. reflexivity.
    + intros s j Hn. rewrite P2 by (intros H; apply Hn; right; exact H). apply C2. intros H. apply Hn. left. congruence.
Qed.

Lemma new_columns_ok : forall types st st' is, new_columns types st = (st', is) ->
  length is = length types /\ NoDup (combine types is) /\
  (forall t i, In (t, i) (combine types is) -> cell st t i = None /\ cell st' t i = Some []) /\
  (forall t i, ~ In (t, i) (combine types is) -> cell st' t i = cell st t i).
Proof.
  induction types as [|t types IH]; intros st st' is H; cbn [new_columns] in H.
  - injection H as <- <-. split; [reflexivity|]. split; [constructor|]. split; [intros ? ? []|reflexivity].
  - destruct (new_columns types (upd t (st t ++ [[]]) st)) as [st1 is1] eqn:E. injection H as <- <-.
    destruct (IH _ _ _ E) as (Hl & Hd & Hi & Ho). set (st0 := upd t (st t ++ [[]]) st) in *.
    assert (C1 : cell st0 t (length (st t)) = Some []).
    { unfold cell, st0. rewrite upd_same, nth_error_app2, Nat.sub_diag by lia. reflexivity. }
    assert (C2 : forall s j, (s, j) <> (t, length (st t)) -> cell st0 s j = cell st s j).
    { intros s j Hne. unfold cell, st0. destruct (stype_eq_dec s t) as [->|Hs]; [rewrite upd_same|rewrite upd_other by exact Hs; reflexivity].
      destruct (Nat.lt_ge_cases j (length (st t))); [apply nth_error_app1; assumption|].
      assert (length (st t) < j) by (destruct (Nat.eq_dec j (length (st t))); [congruence|lia]).
      rewrite (proj2 (nth_error_None _ _)) by (rewrite app_length; cbn; lia). symmetry. apply nth_error_None. lia. }
    assert (Hni : ~ In (t, length (st t)) (combine types is1)).
    { intros Hin. apply Hi in Hin. rewrite C1 in Hin. destruct Hin. discriminate. }
    cbn [combine length]. split; [f_equal; exact Hl|]. split; [constructor; assumption|]. split.
    + intros s j [H|Hin].
      * injection H as <- <-. split; [apply nth_error_None; lia|]. rewrite Ho by exact Hni. exact C1.
      * destruct (Hi s j Hin) as [H1 H2]. split; [|exact H2]. rewrite <- H1. symmetry. apply C2. intros H. rewrite H in Hin. exact (Hni Hin).
    + intros s j Hn. rewrite Ho by (intros H; apply Hn; right; exact H). apply C2. intros H. apply Hn. left. congruence.
Qed.

(* ---------- the invariant ---------- *)

Definition types_eqb (s t : list stype) : bool := if types_eq_dec s t then true else false.
Definition rows_of (types : list stype) (L : list row) : list row := filter (fun r => types_eqb (map fst r) types) L.
Definition column (c : nat) (L : list row) : list value := map (fun r => nth c r dflt) L.
Definition slot (rc : record) (c : nat) (t : stype) (i : nat) : Prop :=
  nth_error (r_types rc) c = Some t /\ nth_error (r_indices rc) c = Some i.

Record binv (n : nat) (b : tuple_buffer) (L : list row) : Prop := {
  bi_columns : tb_columns b = n;
  bi_rows : Forall (fun r => length r = n) L;
  bi_lookup : wf_lookup n (length (tb_lookup b)) (tb_lookup b);
  bi_tables : forall id rc, nth_error (tb_tables b) id = Some rc ->
    length (r_types rc) = n /\ length (r_indices rc) = n /\ find (tb_lookup b) 0 (r_types rc) = Some id /\
    r_length rc = length (rows_of (r_types rc) L);
  bi_found : forall types id, length types = n -> find (tb_lookup b) 0 types = Some id ->
    exists rc, nth_error (tb_tables b) id = Some rc /\ r_types rc = types;
  bi_cell : forall id rc c t i, nth_error (tb_tables b) id = Some rc -> slot rc c t i ->
    cell (tb_storage b) t i = Some (map snd (column c (rows_of (r_types rc) L)));
  bi_inj : forall id1 id2 rc1 rc2 c1 c2 t i, nth_error (tb_tables b) id1 = Some rc1 -> nth_error (tb_tables b) id2 = Some rc2 ->
    slot rc1 c1 t i -> slot rc2 c2 t i -> id1 = id2 /\ c1 = c2;
  bi_all : forall r, In r L -> exists id, find (tb_lookup b) 0 (map fst r) = Some id }.

Lemma binv_new : forall n, 0 < n -> binv n (buffer_new n) [].
Proof.
  intros n Hn. constructor.
  - reflexivity.
  - constructor.
  - apply wf_initial, Hn.
  - intros [|id] rc H; discriminate.
  - intros types id Hl H. destruct types as [|t types]; [cbn in Hl; lia|]. cbn [find buffer_new tb_lookup] in H. destruct t; discriminate.
  - intros [|id] rc c t i H; discriminate.
  - intros [|id1] id2 rc1 rc2 c1 c2 t i H; discriminate.
  - intros r [].
Qed.

Lemma rows_of_app : forall types L M, rows_of types (L ++ M) = rows_of types L ++ rows_of types M.
Proof. intros. apply filter_app. Qed.
Lemma rows_of_one : forall types r, rows_of types [r] = if types_eq_dec (map fst r) types then [r] else [].
Proof. intros. cbn. unfold types_eqb. destruct (types_eq_dec (map fst r) types); reflexivity. Qed.
Lemma rows_of_none : forall types L, (forall r, In r L -> map fst r <> types) -> rows_of types L = [].
Proof.
  intros types L H. induction L as [|r L IH]; [reflexivity|]. cbn. unfold types_eqb at 1.
  destruct (types_eq_dec (map fst r) types) as [E|E]; [exfalso; apply (H r); [left; reflexivity|exact E]|].
  apply IH. intros s Hs. apply H. right. exact Hs.
Qed.
Lemma column_app : forall c L M, column c (L ++ M) = column c L ++ column c M.
Proof. intros. apply map_app. Qed.

Lemma slot_nodup : forall n b L id rc, binv n b L -> nth_error (tb_tables b) id = Some rc -> NoDup (combine (r_types rc) (r_indices rc)).
Proof.
  intros n b L id rc B H. apply NoDup_nth_error. intros c1 c2 Hc E.
  destruct (nth_lt _ _ _ Hc) as [[t i] E1]. rewrite E1 in E. symmetry in E. apply nth_combine in E1, E.
  apply (bi_inj _ _ _ B id id rc rc c1 c2 t i); assumption.
Qed.

Theorem write_tuple_ok : forall n b L r, binv n b L -> length r = n ->
  exists b', write_tuple r b = Ok b' /\ binv n b' (L ++ [r]) /\ tb_current b' = [].
Proof.
  intros n b L r B Hr. unfold write_tuple. set (types := map fst r). assert (Ht : length types = n) by (unfold types; rewrite map_length; exact Hr).
  pose proof (subtable_id_ok n (tb_lookup b) types (length (tb_tables b)) (bi_lookup _ _ _ B) Ht) as Hs.
  destruct (find (tb_lookup b) 0 types) as [id|] eqn:Ef.
  - rewrite Hs. cbn [bind]. destruct (bi_found _ _ _ B types id Ht Ef) as (rc & Erc & Etypes).
    rewrite (index_some _ _ _ _ Erc). cbn [bind]. destruct (bi_tables _ _ _ B id rc Erc) as (L1 & L2 & L3 & L4).
    destruct (push_tuple_ok r (r_indices rc) (tb_storage b)) as (st' & E & P1 & P2).
    + rewrite L2. symmetry. exact Hr.
    + fold types. rewrite <- Etypes. eapply slot_nodup; eassumption.
    + fold types. rewrite <- Etypes. intros t i Hin. apply In_nth_error in Hin. destruct Hin as [c Hc]. apply nth_combine in Hc.
      rewrite (bi_cell _ _ _ B id rc c t i Erc Hc). discriminate.
    + rewrite E. cbn [bind]. eexists. split; [reflexivity|]. split; [|reflexivity].
      set (rc' := mk_record (r_types rc) (r_indices rc) (r_length rc + 1)).
      assert (Hid : id < length (tb_tables b)) by (eapply nth_Some_lt, Erc).
      assert (Htab : forall j rj, nth_error (set_nth id rc' (tb_tables b)) j = Some rj ->
        (j = id /\ rj = rc') \/ (j <> id /\ nth_error (tb_tables b) j = Some rj)).
      { intros j rj Hj. destruct (Nat.eq_dec j id) as [->|Hne].
        - rewrite set_nth_same in Hj by exact Hid. left. split; congruence.
        - rewrite set_nth_other in Hj by congruence. right. auto. }
      assert (Hold : forall j rj, nth_error (set_nth id rc' (tb_tables b)) j = Some rj ->
        exists ro, nth_error (tb_tables b) j = Some ro /\ r_types ro = r_types rj /\ r_indices ro = r_indices rj).
      { intros j rj Hj. destruct (Htab j rj Hj) as [[-> ->]|[_ Hj']]; [exists rc|exists rj]; auto. }
      assert (Hother : forall j rj, j <> id -> nth_error (tb_tables b) j = Some rj -> rows_of (r_types rj) (L ++ [r]) = rows_of (r_types rj) L).
      { intros j rj Hne Hj. rewrite rows_of_app, rows_of_one. destruct (types_eq_dec (map fst r) (r_types rj)) as [Ee|_]; [|apply app_nil_r].
        exfalso. apply Hne. destruct (bi_tables _ _ _ B j rj Hj) as (_ & _ & F & _). fold types in Ee. rewrite <- Ee in F. congruence. }
      assert (Hsame : rows_of (r_types rc) (L ++ [r]) = rows_of (r_types rc) L ++ [r]).
      { rewrite rows_of_app, rows_of_one. fold types. rewrite Etypes. destruct (types_eq_dec types types); [reflexivity|congruence]. }
      constructor; cbn [tb_columns tb_tables tb_lookup tb_storage].
      * apply (bi_columns _ _ _ B).
      * apply Forall_app. split; [apply (bi_rows _ _ _ B)|repeat constructor; exact Hr].
      * apply (bi_lookup _ _ _ B).
      * intros j rj Hj. destruct (Htab j rj Hj) as [[-> ->]|[Hne Hj']].
        -- cbn [r_types r_indices r_length rc']. rewrite Hsame, app_length. cbn. auto.
        -- rewrite (Hother j rj Hne Hj'). apply (bi_tables _ _ _ B). exact Hj'.
      * intros ty j Hty Hj. destruct (bi_found _ _ _ B ty j Hty Hj) as (rj & E1 & E2).
        destruct (Nat.eq_dec j id) as [->|Hne].
        -- exists rc'. split; [apply set_nth_same, Hid|]. cbn. congruence.
        -- exists rj. split; [rewrite set_nth_other by congruence; exact E1|exact E2].
      * intros j rj c t i Hj Hsl. destruct (Htab j rj Hj) as [[-> ->]|[Hne Hj']].
        -- assert (Hsl' : slot rc c t i) by exact Hsl. cbn [r_types rc']. rewrite Hsame, column_app, map_app.
           destruct Hsl' as [S1 S2]. pose proof S1 as S1'. rewrite Etypes in S1'. apply nth_types in S1'. destruct S1' as (v & Ev & <-).
           destruct (P1 c v i Ev S2) as (col & C1 & C2). rewrite C2. cbn [column map]. rewrite (nth_error_nth _ _ dflt Ev).
           rewrite (bi_cell _ _ _ B id rc c _ i Erc (conj S1 S2)) in C1. injection C1 as <-. reflexivity.
        -- rewrite (Hother j rj Hne Hj'). rewrite P2; [apply (bi_cell _ _ _ B j rj c t i Hj' Hsl)|].
           fold types. rewrite <- Etypes. intros Hin. apply In_nth_error in Hin. destruct Hin as [c' Hc']. apply nth_combine in Hc'.
           destruct (bi_inj _ _ _ B _ _ _ _ _ _ _ _ Hj' Erc Hsl Hc'). congruence.
      * intros j1 j2 r1 r2 c1 c2 t i H1 H2 S1 S2. destruct (Hold _ _ H1) as (o1 & O1 & T1 & I1). destruct (Hold _ _ H2) as (o2 & O2 & T2 & I2).
        apply (bi_inj _ _ _ B j1 j2 o1 o2 c1 c2 t i O1 O2); unfold slot in *; rewrite ?T1, ?I1, ?T2, ?I2; assumption.
      * intros s Hin. apply in_app_or in Hin. destruct Hin as [Hin|[<-|[]]]; [apply (bi_all _ _ _ B s Hin)|]. exists id. exact Ef.
  - destruct Hs as (tr' & E & W & F1 & F2). rewrite E. cbn [bind].
    destruct (new_columns types (tb_storage b)) as [st is] eqn:En. destruct (new_columns_ok _ _ _ _ En) as (N1 & N2 & N3 & N4).
    assert (Hnone : forall s, In s L -> map fst s <> types).
    { intros s Hs Es. destruct (bi_all _ _ _ B s Hs) as [j Hj]. rewrite Es in Hj. congruence. }
    destruct (push_tuple_ok r is st) as (st' & Ep & P1 & P2).
    + unfold types in N1. rewrite map_length in N1. exact N1.
    + exact N2.
    + intros t i Hin. destruct (N3 t i Hin) as [_ H]. congruence.
    + rewrite Ep. cbn [bind]. eexists. split; [reflexivity|]. split; [|reflexivity]. fold types in P2.
      set (rc' := mk_record types is 1).
      assert (Htab : forall j rj, nth_error (tb_tables b ++ [rc']) j = Some rj ->
        (j = length (tb_tables b) /\ rj = rc') \/ (j <> length (tb_tables b) /\ nth_error (tb_tables b) j = Some rj)).
      { intros j rj Hj. destruct (Nat.lt_ge_cases j (length (tb_tables b))) as [Hlt|Hge].
        - rewrite nth_error_app1 in Hj by exact Hlt. right. split; [lia|exact Hj].
        - pose proof (nth_Some_lt _ _ _ _ Hj) as Hl. rewrite app_length in Hl. cbn in Hl. assert (j = length (tb_tables b)) by lia. subst j.
          rewrite nth_error_app2, Nat.sub_diag in Hj by lia. cbn in Hj. left. split; congruence. }
      assert (Hother : forall j rj, nth_error (tb_tables b) j = Some rj -> rows_of (r_types rj) (L ++ [r]) = rows_of (r_types rj) L).
      { intros j rj Hj. rewrite rows_of_app, rows_of_one. destruct (types_eq_dec (map fst r) (r_types rj)) as [Ee|_]; [|apply app_nil_r].
        exfalso. destruct (bi_tables _ _ _ B j rj Hj) as (_ & _ & F & _). fold types in Ee. rewrite <- Ee in F. congruence. }
      assert (Hsame : rows_of types (L ++ [r]) = [r]).
      { rewrite rows_of_app, rows_of_one, (rows_of_none types L Hnone). fold types. destruct (types_eq_dec types types); [reflexivity|congruence]. }
      assert (Hvalid : forall j rj c t i, nth_error (tb_tables b) j = Some rj -> slot rj c t i -> ~ In (t, i) (combine types is)).
      { intros j rj c t i Hj Hsl Hin. destruct (N3 t i Hin) as [H _]. rewrite (bi_cell _ _ _ B j rj c t i Hj Hsl) in H. discriminate. }
      constructor; cbn [tb_columns tb_tables tb_lookup tb_storage].
      * apply (bi_columns _ _ _ B).
      * apply Forall_app. split; [apply (bi_rows _ _ _ B)|repeat constructor; exact Hr].
      * exact W.
      * intros j rj Hj. destruct (Htab j rj Hj) as [[-> ->]|[Hne Hj']].
        -- cbn [r_types r_indices r_length rc']. rewrite Hsame. cbn. split; [exact Ht|]. split; [lia|]. split; [exact F1|reflexivity].
        -- rewrite (Hother j rj Hj'). destruct (bi_tables _ _ _ B j rj Hj') as (T1 & T2 & T3 & T4). do 2 (split; [assumption|]). split; [|exact T4].
           rewrite F2; [exact T3|exact T1|]. intros Ee. rewrite Ee in T3. congruence.
      * intros ty j Hty Hj. destruct (types_eq_dec ty types) as [->|Hne].
        -- assert (j = length (tb_tables b)) by congruence. subst j. exists rc'. split; [rewrite nth_error_app2, Nat.sub_diag by lia; reflexivity|reflexivity].
        -- rewrite F2 in Hj by assumption. destruct (bi_found _ _ _ B ty j Hty Hj) as (rj & E1 & E2). exists rj. split; [|exact E2].
           rewrite nth_error_app1; [exact E1|eapply nth_Some_lt, E1].
      * intros j rj c t i Hj Hsl. destruct (Htab j rj Hj) as [[-> ->]|[Hne Hj']].
        -- cbn [r_types rc']. rewrite Hsame. destruct Hsl as [S1 S2]. cbn [r_types r_indices rc'] in S1, S2.
           assert (Hin : In (t, i) (combine types is)) by (apply (nth_error_In _ c), nth_combine; auto).
           apply nth_types in S1. destruct S1 as (v & Ev & <-).
           destruct (P1 c v i Ev S2) as (col & C1 & C2). destruct (N3 _ _ Hin) as [_ C3]. rewrite C3 in C1. injection C1 as <-.
           rewrite C2. cbn [column map app]. rewrite (nth_error_nth _ _ dflt Ev). reflexivity.
        -- rewrite (Hother j rj Hj'). rewrite P2, N4 by (eapply Hvalid; eassumption). apply (bi_cell _ _ _ B j rj c t i Hj' Hsl).
      * intros j1 j2 r1 r2 c1 c2 t i H1 H2 S1 S2.
        destruct (Htab _ _ H1) as [[-> ->]|[Hn1 H1']], (Htab _ _ H2) as [[-> ->]|[Hn2 H2']].
        -- split; [reflexivity|]. assert (Hc : c1 < length (combine types is)).
           { eapply nth_Some_lt. apply (nth_combine _ _ types is c1 t i). exact S1. }
           apply (proj1 (NoDup_nth_error _) N2 c1 c2 Hc).
           rewrite (proj2 (nth_combine _ _ types is c1 t i) S1), (proj2 (nth_combine _ _ types is c2 t i) S2). reflexivity.
        -- exfalso. apply (Hvalid _ _ _ _ _ H2' S2). apply (nth_error_In _ c1), nth_combine. exact S1.
        -- exfalso. apply (Hvalid _ _ _ _ _ H1' S1). apply (nth_error_In _ c2), nth_combine. exact S2.
        -- apply (bi_inj _ _ _ B _ _ _ _ _ _ _ _ H1' H2' S1 S2).
      * intros s Hs. apply in_app_or in Hs. destruct Hs as [Hs|[<-|[]]].
        -- destruct (bi_all _ _ _ B s Hs) as [j Hj]. exists j. rewrite F2; [exact Hj| |apply Hnone, Hs].
           rewrite map_length. apply (proj1 (Forall_forall _ _) (bi_rows _ _ _ B) s Hs).
        -- exists (length (tb_tables b)). exact F1.
Qed.

(* ---------- writing value by value ---------- *)

Lemma fold_res_app : forall A B (f : A -> B -> res A) l1 l2 a, fold_res f a (l1 ++ l2) = bind (fold_res f a l1) (fun a => fold_res f a l2).
Proof. intros A B f. induction l1 as [|x l1 IH]; intros l2 a; [reflexivity|]. cbn [fold_res app]. destruct (f a x); cbn [bind]; [apply IH|reflexivity|reflexivity]. Qed.

Definition with_current (p : row) (b : tuple_buffer) : tuple_buffer :=
  mk_buffer (tb_tables b) (tb_lookup b) (tb_storage b) p (tb_columns b).
Lemma write_tuple_current : forall r p b, write_tuple r (with_current p b) = write_tuple r b.
Proof. reflexivity. Qed.

Lemma add_values : forall rest p b, rest <> [] -> length (p ++ rest) = tb_columns b ->
  fold_res add_tuple_value (with_current p b) rest = write_tuple (p ++ rest) b.
Proof.
  induction rest as [|v rest IH]; intros p b Hne Hl; [congruence|]. cbn [fold_res]. unfold add_tuple_value at 1.
  cbn [tb_current tb_columns with_current]. rewrite app_length in Hl. cbn [length] in Hl.
  destruct (Nat.ltb_spec (length p) (tb_columns b)) as [_|H]; [|lia]. rewrite app_length. cbn [length].
  destruct rest as [|w rest].
  - cbn [length] in Hl. destruct (Nat.leb_spec (tb_columns b) (length p + 1)) as [_|H]; [|lia].
    change (write_tuple (p ++ [v]) (with_current p b)) with (write_tuple (p ++ [v]) b). destruct (write_tuple (p ++ [v]) b); reflexivity.
  - cbn [length] in Hl. destruct (Nat.leb_spec (tb_columns b) (length p + 1)) as [H|_]; [lia|].
    change (fold_res add_tuple_value (with_current (p ++ [v]) b) (w :: rest) = write_tuple (p ++ v :: w :: rest) b).
    rewrite (IH (p ++ [v]) b); [rewrite <- app_assoc; reflexivity|discriminate|]. rewrite !app_length. cbn [length]. lia.
Qed.

Theorem write_rows_ok : forall n rows b L, 0 < n -> binv n b L -> tb_current b = [] -> Forall (fun r => length r = n) rows ->
  exists b', fold_res add_tuple_value b (concat rows) = Ok b' /\ binv n b' (L ++ rows) /\ tb_current b' = [].
Proof.
  intros n. induction rows as [|r rows IH]; intros b L Hn B Hc Hf.
  - exists b. rewrite app_nil_r. auto.
  - inversion Hf as [|? ? Hr Hf']; subst. cbn [concat]. rewrite fold_res_app.
    assert (Eb : b = with_current [] b) by (destruct b; cbn in *; subst; reflexivity).
    assert (E0 : fold_res add_tuple_value b r = write_tuple r b).
    { rewrite Eb. rewrite add_values; [reflexivity| |].
      - destruct r; [cbn in Hn; lia|discriminate].
      - symmetry. apply (bi_columns _ _ _ B). }
    unfold row in E0. rewrite E0.
    destruct (write_tuple_ok _ b L r B eq_refl) as (b1 & E1 & B1 & C1). rewrite E1. cbn [bind].
    destruct (IH b1 (L ++ [r]) Hn B1 C1 Hf') as (b2 & E2 & B2 & C2). exists b2. rewrite <- app_assoc in B2. auto.
Qed.
