(* C39: stored tables can be read in every column order. *)
From Coq Require Import List ZArith Bool Lia Arith Permutation Sorted.
From Verif Require Import ColumnModel ColumnSpec ScanModel ScanSpec TrieModel TrieSpec TrieScanSpec OpModel OpSpec ProjModel ProjSpec StoreModel StoreSpec StoreProofs1 StoreProofs2 StoreProofs3 StoreProofs4.
From Verif Require PermModel PermProofs PermProps ProjProofs3.
Import ListNotations.
Local Open Scope nat_scope.

Definition shuffles (shuffle : list perm -> list perm) : Prop := forall l, Permutation l (shuffle l).

Lemma history_inv : forall shuffle cat db, shuffles shuffle -> history shuffle cat db -> inv cat db.
Proof. intros shuffle cat db Hs H. apply (later_inv shuffle Hs _ _ _ _ H empty_inv). Qed.

(* After any history of registering, reading and deleting, each table can be read with its columns in any order, and has
   the rows with which it was registered.  For a reference, the order has to commute with its permutation (see
   C39_reference_refuted).  Reading does not change the tables. *)
Theorem C39_read_partial : forall shuffle cat db id n P ref o, shuffles shuffle -> history shuffle cat db ->
  nth_error cat id = Some (n, P, ref) -> answered n o ref ->
  exists enough db' tr, (forall fuel, enough <= fuel -> table_trie shuffle fuel db id o = Ok (db', Some tr)) /\
    good_trie n (rearranged n o P) tr /\ history shuffle cat db'.
Proof.
  intros shuffle cat db id n P ref o Hs HH Ec Ho. destruct (table_trie_read shuffle Hs cat db id n P ref o (history_inv _ _ _ Hs HH) Ec Ho) as (en & db' & tr & E & HG & _ & _).
  exists en, db', tr. split; [exact E|]. split; [exact HG|]. eapply l_step; [exact HH|]. eapply s_read; eassumption.
Qed.
Print Assumptions C39_read_partial.

(* The rows of tables and references in the default order: iterated, tested and numbered. *)
Theorem C39_rows : forall shuffle cat db id n P ref, shuffles shuffle -> history shuffle cat db -> nth_error cat id = Some (n, P, ref) ->
  table_arity db id = Ok n /\
  (0 < n -> exists enough db' T, table_of n P T /\
    (forall fuel, enough <= fuel -> table_row_iterator shuffle fuel db id = Ok (db', T)) /\
    (forall r, exists b, (b = true <-> In r T) /\ forall fuel, enough <= fuel -> table_contains_row shuffle fuel db id r = Ok (db', b)) /\
    (forall T1 r T2, T = T1 ++ r :: T2 -> forall fuel, enough <= fuel ->
       table_row_position shuffle fuel db id r = Ok (db', Some (length (filter (fun x => stype_eqb (last_type x) (last_type r)) T1)))) /\
    (forall r, ~ In r T -> forall fuel, enough <= fuel -> table_row_position shuffle fuel db id r = Ok (db', None)) /\
    history shuffle cat db').
Proof.
  intros shuffle cat db id n P ref Hs HH Ec. split.
  { pose proof (i_arity _ _ (history_inv _ _ _ Hs HH) id) as Ha. rewrite Ec in Ha. cbn in Ha. unfold table_arity. rewrite Ha. reflexivity. }
  intros Hn. assert (Hans : answered n PermModel.perm_default ref).
  { assert (D : forall i, PermModel.get PermModel.perm_default i = i) by (intros [|i]; reflexivity). split; [apply permutes_default|]. intros p _ i. rewrite !D. reflexivity. }
  destruct (C39_read_partial shuffle cat db id n P ref PermModel.perm_default Hs HH Ec Hans) as (en & db' & tr & E & (_ & _ & HG) & HH').
  destruct (HG Hn) as [(_ & T & (HT1 & HT2) & (en' & Ei) & _ & Hc & Hp & Hp') _].
  assert (Ed : forall fuel, en <= fuel -> default_trie shuffle fuel db id = Ok (db', tr)). { intros fuel Hf. unfold default_trie. rewrite (E fuel Hf). reflexivity. }
  exists (max en en'), db', T. split. { split; [exact HT1|]. intros r. rewrite HT2. split; intros [Hl H]; (split; [exact Hl|]).
      - destruct H as (r' & _ & HPr & Ha). apply (arranged_default n) in Ha. subst. exact HPr.
      - exists r. split; [exact Hl|]. split; [exact H|]. apply (arranged_default n). reflexivity. }
  split. { intros fuel Hf. unfold table_row_iterator. rewrite Ed by lia. cbn [bind fst snd]. rewrite Ei by lia. reflexivity. }
  split. { intros r. destruct (Hc r) as (b & Eb & Hb). exists b. split; [exact Hb|]. intros fuel Hf. unfold table_contains_row. rewrite Ed by lia. cbn [bind fst snd]. rewrite Eb. reflexivity. }
  split. { intros T1 r T2 ET fuel Hf. unfold table_row_position. rewrite Ed by lia. cbn [bind fst snd]. rewrite (Hp T1 r T2 ET). reflexivity. }
  split; [|exact HH']. intros r Hr fuel Hf. unfold table_row_position. rewrite Ed by lia. cbn [bind fst snd]. rewrite (Hp' r Hr). reflexivity.
Qed.
Print Assumptions C39_rows.

(* Registering succeeds and gives the next id. *)
Theorem C39_register : forall shuffle cat db, shuffles shuffle -> history shuffle cat db ->
  (forall n Q o tr, good_trie n Q tr -> permutes n o ->
     exists db', register_add_trie db o tr = Ok (db', length cat) /\ history shuffle (cat ++ [(n, arranged_as n o Q, None)]) db') /\
  (forall n Q o srcs, 0 < n -> gives n srcs Q -> permutes n o ->
     exists db1 db', register_table db n = (db1, length cat) /\ db_add_sources db1 (length cat) o srcs = Ok db' /\ history shuffle (cat ++ [(n, arranged_as n o Q, None)]) db') /\
  (forall existing n P ref p, nth_error cat existing = Some (n, P, ref) -> permutes n p ->
     exists db1 db' q, register_table db n = (db1, length cat) /\ db_add_reference db1 existing (length cat) p = Ok db' /\
       history shuffle (cat ++ [(n, rearranged n p P, Some q)]) db').
Proof.
  intros shuffle cat db Hs HH. pose proof (history_inv _ _ _ Hs HH) as [I1 I2 I3]. split; [|split].
  - intros n Q o tr HG Ho. assert (E : exists db', register_add_trie db o tr = Ok (db', length cat)).
    { unfold register_add_trie, register_table. cbn [db_manager]. unfold add_trie. rewrite I2.
      rewrite add_storage_new; [|apply (m_rkeys _ _ I1); lia|intros om; rewrite (m_skeys _ _ I1) by lia; discriminate]. cbn [bind fst]. eauto. }
    destruct E as (db' & E). exists db'. split; [exact E|]. eapply l_step; [exact HH|]. eapply s_trie; eassumption.
  - intros n Q o srcs Hn HG Ho. destruct (register_table db n) as [db1 id] eqn:E1. assert (Hid : id = length cat /\ db_manager db1 = db_manager db) by (unfold register_table in E1; injection E1 as <- <-; auto).
    destruct Hid as [-> Hm]. assert (E : exists db', db_add_sources db1 (length cat) o srcs = Ok db').
    { unfold db_add_sources, add_sources. rewrite Hm, add_storage_new; [|apply (m_rkeys _ _ I1); lia|intros om; rewrite (m_skeys _ _ I1) by lia; discriminate]. cbn [bind fst]. eauto. }
    destruct E as (db' & E). exists db1, db'. split; [reflexivity|]. split; [exact E|]. eapply l_step; [exact HH|]. eapply s_sources; eassumption.
  - intros ex n P ref p Ec Hp. destruct (register_table db n) as [db1 id] eqn:E1. assert (Hid : id = length cat /\ db_manager db1 = db_manager db) by (unfold register_table in E1; injection E1 as <- <-; auto).
    destruct Hid as [-> Hm]. assert (E : exists db' q, match ref with None => q = p | Some p0 => PermModel.chain p0 p = Some q end /\ db_add_reference db1 ex (length cat) p = Ok db').
    { unfold db_add_reference, add_reference. rewrite Hm. destruct ref as [p0|].
      - destruct (m_ref _ _ I1 ex n P p0 Ec) as (id0 & P0 & _ & _ & -> & _ & Hp0 & _). destruct (permutes_chain n p0 p Hp0 Hp) as (q & Eq & _). rewrite Eq. cbn. eauto.
      - destruct (m_direct _ _ I1 ex n P Ec) as (-> & _). cbn. eauto. }
    destruct E as (db' & q & Hq & E). exists db1, db', q. split; [reflexivity|]. split; [exact E|]. eapply l_step; [exact HH|]. eapply s_reference; eassumption.
Qed.
Print Assumptions C39_register.

(* Deleting everything from some point on: the tables before it are as they were, whatever happened in between. *)
Theorem C39_delete : forall shuffle cat db cat' db', shuffles shuffle -> history shuffle cat db -> later shuffle cat db cat' db' ->
  let db2 := delete_from db' (current_id db) in
  history shuffle cat db2 /\ current_id db2 = current_id db /\
  forall id, length cat <= id -> table_arity db2 id = Panicked /\ forall fuel o, table_trie shuffle fuel db2 id o = Panicked.
Proof.
  intros shuffle cat db cat' db' Hs HH HL db2. assert (H2 : history shuffle cat db2) by (eapply l_delete; eassumption).
  pose proof (history_inv _ _ _ Hs HH) as HI. destruct (later_inv shuffle Hs _ _ _ _ HL HI) as (_ & [X1 _ _] & _). split; [exact H2|].
  pose proof (history_inv _ _ _ Hs H2) as [J1 J2 J3]. split.
  - unfold current_id, db2, delete_from, delete_tables_from. cbn [db_current db_manager stored_tables fst snd current_id]. rewrite firstn_length. f_equal. apply Nat.min_l. exact X1.
  - intros id Hid. split.
    + unfold table_arity. rewrite J3, (proj2 (nth_error_None cat id) Hid). reflexivity.
    + intros fuel o. unfold table_trie, trie_id, resolve_reference. rewrite (m_rkeys _ _ J1 id Hid). cbn [bind fst snd]. rewrite (m_skeys _ _ J1 id Hid). reflexivity.
Qed.
Print Assumptions C39_delete.

(* The number of rows in memory: either the table is not in memory or these are all its rows. *)
Lemma Forall2_exists : forall A B (R : A -> B -> Prop) (l : list B), (forall b, In b l -> exists a, R a b) -> exists l', Forall2 R l' l.
Proof.
  intros A B R. induction l as [|b l IH]; intros H; [exists []; constructor|]. destruct (H b (or_introl eq_refl)) as (a & Ha).
  destruct IH as (l' & Hl); [intros b' Hb; apply H; right; exact Hb|]. exists (a :: l'). constructor; assumption.
Qed.
Lemma lists_rearranged : forall n p P T, permutes n p -> NoDup T -> (forall s, In s T <-> length s = n /\ rearranged n p P s) ->
  exists T', NoDup T' /\ (forall r, In r T' <-> length r = n /\ P r) /\ length T' = length T.
Proof.
  intros n p P T Hp HN HT. destruct (Forall2_exists _ _ (fun r s => length r = n /\ P r /\ arranged p r s) T) as (T' & H2).
  { intros s Hs. apply HT in Hs. destruct Hs as (_ & r & H). exists r. exact H. }
  exists T'. assert (Hlen : length T' = length T) by (clear - H2; induction H2; cbn; congruence).
  assert (Hin : forall r, In r T' -> exists s, In s T /\ length r = n /\ P r /\ arranged p r s).
  { clear - H2. induction H2 as [|r s l l' H _ IH]; intros r' H0; [destruct H0|]. destruct H0 as [<-|H0]; [exists s; cbn [In]; auto|]. destruct (IH r' H0) as (s' & Hs & H'). exists s'. cbn [In]. auto. }
  assert (Hin' : forall s, In s T -> exists r, In r T' /\ arranged p r s).
  { clear - H2. induction H2 as [|r s l l' (_ & _ & H) _ IH]; intros s' H0; [destruct H0|]. destruct H0 as [<-|H0]; [exists r; cbn [In]; auto|]. destruct (IH s' H0) as (r' & Hr & H'). exists r'. cbn [In]. auto. }
  split; [|split; [|exact Hlen]].
  - clear HT Hin' Hlen. induction H2 as [|r s l l' (Hl & _ & Ha) H2 IH]; [constructor|]. apply NoDup_cons_iff in HN. destruct HN as [Hs HN]. constructor.
    + intros Hr. assert (Hx : exists s', In s' l' /\ arranged p r s').
      { clear - H2 Hr. induction H2 as [|r' s' l l' (_ & _ & H) _ IH]; [destruct Hr|]. destruct Hr as [<-|Hr]; [exists s'; cbn [In]; auto|]. destruct (IH Hr) as (s2 & Hs & H'). exists s2. cbn [In]. auto. }
      destruct Hx as (s' & Hs' & Ha'). rewrite (arranged_unique n p r s s' Hp Hl Ha Ha') in Hs. contradiction.
    + apply IH; [exact HN|]. intros r' Hr'. clear - H2 Hr'. induction H2 as [|r2 s2 l l' (H1 & H2 & H3) _ IH]; [destruct Hr'|]. destruct Hr' as [<-|Hr]; [exists s2; cbn [In]; auto|].
      destruct (IH Hr) as (s3 & Hs & H'). exists s3. cbn [In]. auto.
  - intros r. split; [intros Hr; destruct (Hin r Hr) as (_ & _ & H1 & H3 & _); auto|]. intros [Hl HP]. destruct (arranged_exists n p r Hp Hl) as (s & Hls & Ha).
    assert (Hs : In s T) by (apply HT; split; [exact Hls|]; exists r; auto). destruct (Hin' s Hs) as (r' & Hr' & Ha'). rewrite (arranged_inj n p r r' s Hp Hls Ha Ha'). exact Hr'.
Qed.
Lemma sorted_NoDup : forall T, StronglySorted row_lt T -> NoDup T.
Proof.
  induction 1 as [|r T HS IH HF]; [constructor|]. constructor; [|exact IH]. intros Hin. rewrite Forall_forall in HF. specialize (HF r Hin). clear - HF.
  induction r as [|v r IH]; [destruct HF|]. destruct HF as [[H|[_ H]]|[_ H]]; [lia|lia|auto].
Qed.
Theorem C39_count : forall shuffle cat db id n P ref, shuffles shuffle -> history shuffle cat db -> nth_error cat id = Some (n, P, ref) -> 0 < n ->
  exists c, count_rows_in_memory shuffle (db_manager db) id = Ok c /\
    (c = 0 \/ exists T, NoDup T /\ (forall r, In r T <-> length r = n /\ P r) /\ c = length T).
Proof.
  intros shuffle cat db id n P ref Hs HH Ec Hn. pose proof (history_inv _ _ _ Hs HH) as [I1 _ _].
  assert (Direct : forall id0 P0, nth_error cat id0 = Some (n, P0, None) -> exists c, match find_key Nat.eqb id0 (storage_map (db_manager db)) with
    | None => Panicked
    | Some om => match shuffle (map fst om) with [] => Panicked
      | o :: _ => bind (must (find_order o om)) (fun sid => bind (index (stored_tables (db_manager db)) sid) (fun st => Ok (storage_rows st))) end
    end = Ok c /\ (c = 0 \/ exists T, NoDup T /\ (forall r, In r T <-> length r = n /\ P0 r) /\ c = length T)).
  { intros id0 P0 E0. destruct (m_direct _ _ I1 id0 n P0 E0) as (_ & om & -> & Hne & Hom). pose proof (Hs (map fst om)) as HP.
    assert (Hperm : forall o' sid', In (o', sid') om -> permutes n o') by (intros o' sid' Hin; apply (Hom o' sid' Hin)).
    destruct (shuffle (map fst om)) as [|o l]; [apply Permutation_sym, Permutation_nil in HP; destruct om; [congruence|discriminate]|].
    assert (Ho : In o (map fst om)) by (apply (Permutation_in _ (Permutation_sym HP)); left; reflexivity). apply in_map_iff in Ho. destruct Ho as ([o' sid0] & Eo & Ho). cbn in Eo. subst o'.
    destruct (find_order_some n om o sid0 Hperm Ho) as (sid & Ef). rewrite Ef. cbn [must bind]. destruct (find_order_in n om o sid (Hperm o sid0 Ho) Hperm Ef) as (o' & Hin & _).
    destruct (Hom o' sid Hin) as (Hp & st & Es & HS). unfold index. rewrite Es. cbn [bind]. exists (storage_rows st). split; [reflexivity|]. destruct st as [|tr|srcs]; cbn [storage_rows]; auto.
    right. destruct HS as (_ & _ & HS). destruct (HS Hn) as [(_ & T & (HT1 & HT2) & _ & -> & _) _].
    destruct (lists_rearranged n o' P0 T Hp (sorted_NoDup T HT1) HT2) as (T' & H1 & H2 & H3). exists T'. auto. }
  unfold count_rows_in_memory, resolve_reference. destruct ref as [p|].
  - destruct (m_ref _ _ I1 id n P p Ec) as (id0 & P0 & _ & _ & Er & E0 & Hp & HP). rewrite Er. destruct (permutes_chain n PermModel.perm_default p (permutes_default n) Hp) as (q & Eq & _). rewrite Eq. cbn [must bind fst].
    destruct (Direct id0 P0 E0) as (c & E & Hc). exists c. split; [exact E|]. destruct Hc as [->|(T & H1 & H2 & ->)]; [auto|right].
    (* the rows of the reference are those of the table, rearranged *)
    pose proof (permutes_length n p Hp) as Lp. assert (Hi : permutes n (PermModel.invert p)).
    { destruct Hp as [B H]. split; [constructor; exact B|]. intros i Hi. destruct (PermProps.C16_invert p B i) as [G _]. rewrite (H i Hi) in G. exact G. }
    destruct (lists_rearranged n (PermModel.invert p) P T Hi H1) as (T' & A1 & A2 & A3).
    { intros r. rewrite H2. split; intros [Hl H]; (split; [exact Hl|]).
      - destruct (arranged_exists n p r Hp Hl) as (s & Hls & Ha). exists s. split; [exact Hls|]. split; [apply HP; [exact Hls|]; exists r; auto|].
        destruct Ha as [L1 Ha]. split; [congruence|]. intros j Hj. destruct (permutes_onto n p j Hp ltac:(unfold row in *; lia)) as (i & Hi' & <-).
        rewrite (proj1 (PermProps.C16_invert p (proj1 Hp) i)). symmetry. apply Ha. unfold row in *; lia.
      - destruct H as (s & Hls & HPs & [L1 Ha]). apply HP in HPs; [|exact Hls]. destruct HPs as (r' & Hlr' & HPr & [L2 Ha']). replace r with r'; [exact HPr|].
        apply ProjProofs3.nth_list_ext. intros i. destruct (Nat.lt_ge_cases i n) as [Hlt|Hge].
        + rewrite <- (Ha' i) by (unfold row in *; lia). rewrite <- (Ha (PermModel.get p i)).
          * rewrite (proj1 (PermProps.C16_invert p (proj1 Hp) i)). reflexivity.
          * rewrite Hls. apply (PermProofs.get_lt p n i (PermProps.built_wf p (proj1 Hp)) Lp). exact Hlt.
        + rewrite !(proj2 (nth_error_None _ _)) by (unfold row in *; lia). reflexivity. }
    exists T'. auto.
  - rewrite (proj1 (m_direct _ _ I1 id n P Ec)). cbn [bind fst]. apply (Direct id P Ec).
Qed.
Print Assumptions C39_count.

(* The order from which a new order is computed: one of the available orders with the least distance; the distance is 0
   exactly for equal orders, so an order that is available is taken. *)
Theorem C39_closest : forall orders order, (forall o, In o orders -> PermProps.built o) -> PermProps.built order ->
  (orders = [] /\ closest_order orders order = None \/
   exists c, closest_order orders order = Some c /\ In c orders /\ forall o, In o orders -> distance c order <= distance o order) /\
  (forall o, In o orders -> (distance o order = 0 <-> PermModel.perm_eqb o order = true)) /\
  (forall o, In o orders -> PermModel.perm_eqb o order = true -> exists c, closest_order orders order = Some c /\ PermModel.perm_eqb c order = true).
Proof.
  intros orders order Hb Ho.
  assert (Hz : forall o, In o orders -> (distance o order = 0 <-> PermModel.perm_eqb o order = true)).
  { intros o Hin. rewrite (PermProps.C16_equality o order (Hb o Hin) Ho). apply distance_zero; [apply Hb, Hin|exact Ho]. }
  split; [|split; [exact Hz|]].
  - destruct orders as [|o l]; [left; auto|right]. destruct (closest_in (o :: l) order ltac:(discriminate)) as (c & E & Hc). exists c. split; [exact E|]. apply closest_min, E.
  - intros o Hin E. destruct (closest_in orders order) as (c & Ec & Hc); [intros ->; destruct Hin|]. exists c. split; [exact Ec|]. apply Hz; [exact Hc|].
    destruct (closest_min _ _ _ Ec) as [_ Hm]. specialize (Hm o Hin). apply Hz in E; [|exact Hin]. lia.
Qed.
Print Assumptions C39_closest.

(* ---------- examples and refutations ---------- *)
Definition i64 (v : Z) : value := (Int64, v).
Definition keep (l : list perm) : list perm := l.
Definition order_of (v : list nat) : perm := match PermModel.from_vector v with Some p => p | None => PermModel.perm_default end.
Definition rows3 : list row := [[i64 1; i64 2; i64 3]; [i64 1; i64 5; i64 6]; [i64 2; i64 5; i64 6]].
Definition read_rows (fuel : nat) (db : database) (id : nat) (o : perm) : res (database * option (list row)) :=
  bind (table_trie keep fuel db id o) (fun r => match snd r with None => Ok (fst r, None) | Some tr => bind (row_iterator fuel tr) (fun rows => Ok (fst r, Some rows)) end).
Definition one_source (rows : list row) : source := mk_source 3 (Some rows).
Definition db3 : res database :=
  let (db, id) := register_table database_default 3 in db_add_sources db id PermModel.perm_default [one_source rows3].

(* a table from a source is read in three orders, one after the other *)
Example C39_read_example :
  bind db3 (fun db => bind (read_rows 60 db 0 (order_of [2; 1; 0])) (fun r1 => bind (read_rows 60 (fst r1) 0 (order_of [1; 2; 0])) (fun r2 =>
    bind (read_rows 60 (fst r2) 0 PermModel.perm_default) (fun r3 => Ok (snd r1, snd r2, snd r3))))) =
  Ok (Some [[i64 3; i64 2; i64 1]; [i64 6; i64 5; i64 1]; [i64 6; i64 5; i64 2]],
      Some [[i64 2; i64 3; i64 1]; [i64 5; i64 6; i64 1]; [i64 5; i64 6; i64 2]], Some rows3).
Proof. vm_compute. reflexivity. Qed.
Example C39_history_example : exists db cat, db3 = Ok db /\ history keep cat db /\ nth_error cat 0 <> None.
Proof.
  destruct (C39_register keep [] database_default) as (_ & H & _); [intros l; reflexivity|apply l_refl|].
  destruct (H 3 (fun r => In r rows3) PermModel.perm_default [one_source rows3]) as (db1 & db' & E1 & E2 & HH); [lia| |apply permutes_default|].
  { split; [discriminate|]. split.
    - intros s [<-|[]]. split; [reflexivity|]. exists rows3. split; [reflexivity|]. repeat constructor.
    - intros r. split; [intros Hr; exists (one_source rows3), rows3; cbn [In]; auto|]. intros (s & rows & [<-|[]] & E & Hr). injection E as <-. exact Hr. }
  exists db'. eexists. split; [|split; [exact HH|discriminate]]. unfold db3. rewrite E1. exact E2.
Qed.

(* A reference is read wrongly in an order that does not commute with its permutation: the table has the row (1, 2, 3), the
   reference with the first two columns swapped has (2, 1, 3); with its last two columns swapped this is (2, 3, 1), but
   the database answers (3, 1, 2). *)
Theorem C39_reference_refuted :
  bind db3 (fun db => let (db, id) := register_table db 3 in bind (db_add_reference db 0 id (order_of [1; 0; 2])) (fun db =>
    bind (read_rows 60 db id PermModel.perm_default) (fun r1 => bind (read_rows 60 (fst r1) id (order_of [0; 2; 1])) (fun r2 => Ok (snd r1, snd r2))))) =
  Ok (Some [[i64 2; i64 1; i64 3]; [i64 5; i64 1; i64 6]; [i64 5; i64 2; i64 6]],
      Some [[i64 3; i64 1; i64 2]; [i64 6; i64 1; i64 5]; [i64 6; i64 2; i64 5]]).
Proof. vm_compute. reflexivity. Qed.
Print Assumptions C39_reference_refuted.

(* TableManager::add_reference swaps the two tables: it makes the existing table a reference to the new one, which has
   no rows; afterwards neither of them can be read. *)
Theorem C39_table_manager_refuted : forall fuel o, exists db db' id, db3 = Ok db /\ table_manager_reference db 0 3 (order_of [1; 0; 2]) = Ok (db', id) /\
  table_trie keep fuel db' id o = Panicked /\ table_trie keep fuel db' 0 PermModel.perm_default = Panicked.
Proof. intros fuel o. do 3 eexists. split; [vm_compute; reflexivity|]. split; [vm_compute; reflexivity|]. split; vm_compute; reflexivity. Qed.
Print Assumptions C39_table_manager_refuted.

(* If a source fails, the table cannot be read again: the error of the first attempt becomes a panic. *)
Theorem C39_retry_refuted : forall fuel good rest, Forall (fun s => src_arity s = 3) (good ++ mk_source 3 None :: rest) ->
  exists db db', (let (db, id) := register_table database_default 3 in db_add_sources db id PermModel.perm_default (good ++ mk_source 3 None :: rest)) = Ok db /\
    table_trie keep fuel db 0 PermModel.perm_default = Ok (db', None) /\ table_trie keep fuel db' 0 PermModel.perm_default = Panicked.
Proof.
  intros fuel good rest Ha. set (srcs := good ++ mk_source 3 None :: rest) in *.
  assert (El : load_sources srcs = Ok None).
  { assert (Ep : provide_all srcs = None).
    { unfold srcs. clear. induction good as [|s good IH]; cbn [app provide_all src_rows]; [reflexivity|]. rewrite IH. destruct (src_rows s); reflexivity. }
    unfold load_sources. destruct srcs as [|s l] eqn:Es; [unfold srcs in Es; destruct good; discriminate|]. inversion Ha; subst.
    assert (Ef : forallb (fun s' => src_arity s' =? src_arity s) (s :: l) = true). { apply forallb_forall. intros s' Hs'. rewrite Forall_forall in Ha. rewrite (Ha s' Hs'), (Ha s (or_introl eq_refl)). reflexivity. }
    rewrite Ef, Ep. reflexivity. }
  do 2 eexists. split; [reflexivity|]. split.
  - unfold table_trie, trie_id, load, storage_trie. cbn -[load_sources]. rewrite El. reflexivity.
  - reflexivity.
Qed.
Print Assumptions C39_retry_refuted.

(* Sources added one after the other to a new table: as if they were given together, in this order. *)
Theorem C39_add_sources : forall shuffle cat db n db1 id o s srcs, shuffles shuffle -> history shuffle cat db -> permutes n o ->
  register_table db n = (db1, id) ->
  fold_left (fun r s => bind r (fun db => db_add_source db id o s)) (s :: srcs) (Ok db1) = db_add_sources db1 id o (s :: srcs).
Proof.
  intros shuffle cat db n db1 id o s srcs Hs HH Ho E1. pose proof (history_inv _ _ _ Hs HH) as [I1 I2 I3].
  assert (Hid : id = length cat /\ db_manager db1 = db_manager db) by (unfold register_table in E1; injection E1 as <- <-; auto). destruct Hid as [-> Hm].
  set (m := db_manager db1). assert (Hr : find_key Nat.eqb (length cat) (reference_map m) = None) by (unfold m; rewrite Hm; apply (m_rkeys _ _ I1); lia).
  assert (Hk : find_key Nat.eqb (length cat) (storage_map m) = None) by (unfold m; rewrite Hm; apply (m_skeys _ _ I1); lia).
  assert (Hall : forall l, db_add_sources db1 (length cat) o l = Ok (with_manager db1 (added m (length cat) o (FromSources l)))).
  { intros l. unfold db_add_sources, add_sources. fold m. rewrite add_storage_new; [reflexivity|exact Hr|intros om; rewrite Hk; discriminate]. }
  assert (Hnext : forall l s', db_add_source (with_manager db1 (added m (length cat) o (FromSources l))) (length cat) o s' =
    Ok (with_manager db1 (added m (length cat) o (FromSources (l ++ [s']))))).
  { intros l s'. unfold db_add_source, add_source, add_storage, resolve_reference, with_manager. cbn [db_manager]. unfold added. rewrite Hk. cbn [reference_map storage_map stored_tables app]. rewrite Hr. cbn [bind fst snd].
    rewrite find_put_nat, Nat.eqb_refl. unfold find_order. cbn [find_key]. assert (Eo : PermModel.perm_eqb o o = true) by (apply PermProps.C16_equality; [apply Ho|apply Ho|reflexivity]).
    rewrite Eo. cbn [bind fst snd]. unfold index. cbn [stored_tables]. rewrite nth_error_app2, Nat.sub_diag by lia. cbn [nth_error bind]. unfold set_storage. cbn [stored_tables storage_map reference_map].
    rewrite set_nth_last. reflexivity. }
  rewrite Hall. change (s :: srcs) with ([s] ++ srcs) at 2. cbn [fold_left bind].
  assert (Hfirst : db_add_source db1 (length cat) o s = Ok (with_manager db1 (added m (length cat) o (FromSources [s])))).
  { unfold db_add_source, add_source. fold m. unfold add_storage, resolve_reference. rewrite Hr. cbn [bind fst snd]. rewrite Hk. cbn [bind fst snd]. unfold index. cbn [stored_tables].
    rewrite nth_error_app2, Nat.sub_diag by lia. cbn [nth_error bind]. unfold set_storage. cbn [stored_tables storage_map reference_map]. rewrite set_nth_last. cbn [must bind fst snd]. unfold added. rewrite Hk. reflexivity. }
  rewrite Hfirst. generalize [s] as l. induction srcs as [|s' srcs IH]; intros l; cbn [fold_left]; [rewrite app_nil_r; reflexivity|].
  cbn [bind]. rewrite Hnext, IH, <- app_assoc. reflexivity.
Qed.
Print Assumptions C39_add_sources.

(* Adding a source to a table that was read in another order leaves the other orders as they were, and drops what was in
   memory: the same table has different rows in different orders. *)
Theorem C39_stale_refuted :
  bind db3 (fun db => bind (read_rows 60 db 0 (order_of [2; 1; 0])) (fun r1 =>
    bind (db_add_source (fst r1) 0 PermModel.perm_default (one_source [[i64 7; i64 8; i64 9]])) (fun db =>
    bind (read_rows 60 db 0 (order_of [2; 1; 0])) (fun r2 => bind (read_rows 60 (fst r2) 0 PermModel.perm_default) (fun r3 => Ok (snd r2, snd r3)))))) =
  Ok (Some [[i64 3; i64 2; i64 1]; [i64 6; i64 5; i64 1]; [i64 6; i64 5; i64 2]], Some [[i64 7; i64 8; i64 9]]).
Proof. vm_compute. reflexivity. Qed.
Print Assumptions C39_stale_refuted.
