(* C17 and C18: columns return what was put in, and scans are cursors. *)
From Coq Require Import List ZArith Bool Lia Sorted.
From Verif Require Import ColumnModel ColumnSpec ColumnProofs ColumnProofs2 ColumnProofs3 ColumnProofs4.
Import ListNotations.
Local Open Scope nat_scope.

(* The column types of nemo; checked says whether the arithmetic is compiled with overflow checks.
   Floats are represented by their rank in the order on floats, and have no steps but zero. *)
Definition u32 (checked : bool) : kind := mk_kind 0 (2 ^ 32 - 1) (- 2 ^ 15) (2 ^ 15 - 1) checked.
Definition u64 (checked : bool) : kind := mk_kind 0 (2 ^ 64 - 1) (- 2 ^ 15) (2 ^ 15 - 1) checked.
Definition i64 (checked : bool) : kind := mk_kind (- 2 ^ 63) (2 ^ 63 - 1) (- 2 ^ 15) (2 ^ 15 - 1) checked.
Definition f32 (checked : bool) : kind := mk_kind (- 2 ^ 32) (2 ^ 32) 0 0 checked.
Definition f64 (checked : bool) : kind := mk_kind (- 2 ^ 64) (2 ^ 64) 0 0 checked.
Definition column_type (k : kind) : Prop :=
  exists d, k = u32 d \/ k = u64 d \/ k = i64 d \/ k = f32 d \/ k = f64 d.

Definition of_type (k : kind) (v : Z) : Prop := (vmin k <= v <= vmax k)%Z.

(* no more than 2^48 values (a column of 2^48 values would fill two petabytes) *)
Definition storable (data : list Z) : Prop := (Z.of_nat (length data) <= 2 ^ 48)%Z.

(* repeated calls of next return the list, and then nothing *)
Inductive yields (k : kind) : cscan -> list Z -> Prop :=
| yields_end : forall s s', cnext k s = Ok (s', None) -> yields k s []
| yields_more : forall s s' v l, cnext k s = Ok (s', Some v) -> yields k s' l -> yields k s (v :: l).

(* one action on a scan of the code; next and seek return something *)
Definition perform (k : kind) (x : action) (s : cscan) : res (cscan * option (option Z)) :=
  match x with
  | Next => bind (cnext k s) (fun r => Ok (fst r, Some (snd r)))
  | Seek v => bind (cseek k v s) (fun r => Ok (fst r, Some (snd r)))
  | Narrow a b => bind (cnarrow a b s) (fun s => Ok (s, None))
  | Reset => Ok (creset s, None)
  end.
Definition returns (data : list Z) (x : action) (c : cursor) : option (option Z) :=
  match x with Next | Seek _ => Some (value data c) | Narrow _ _ | Reset => None end.

(* the scan behaves like the cursor in this history *)
Fixpoint agrees (k : kind) (data : list Z) (s : cscan) (c : cursor) (l : list action) : Prop :=
  ccurrent s = Ok (value data c) /\ cposition s = Ok (position c) /\
  match l with
  | [] => True
  | x :: l' =>
      exists s', perform k x s = Ok (s', returns data x (step data x c)) /\ agrees k data s' (step data x c) l'
  end.
Fixpoint all_permitted (data : list Z) (c : cursor) (l : list action) : Prop :=
  match l with
  | [] => True
  | x :: l' => permitted data x c /\ all_permitted data (step data x c) l'
  end.
(* values sought are values of the type; with overflow checks, differences must be values as well *)
Definition can_seek (k : kind) (data : list Z) (l : list action) : Prop :=
  forall v, In (Seek v) l -> of_type k v /\ (debug k = true -> forall x, In x data -> (x < v)%Z -> of_type k (v - x)).

(* ---------- the conditions of the proofs hold for the types of nemo ---------- *)

Lemma type_zero : forall k, column_type k -> (smin k <= 0 <= smax k)%Z.
Proof. intros k (d & [ -> |[ -> |[ -> |[ -> | -> ]]]]); cbn; lia. Qed.

Lemma type_fits : forall k n, column_type k -> (Z.of_nat n <= 2 ^ 48)%Z -> fits k n.
Proof.
  intros k n (d & [ -> |[ -> |[ -> |[ -> | -> ]]]]) H; [left; reflexivity|left; reflexivity|right|right|right]; intros i s Hi Hs; apply in_kind_iff; cbn in Hs |- *.
  - cbn in H. nia.
  - assert (s = 0%Z) by lia. subst s. lia.
  - assert (s = 0%Z) by lia. subst s. lia.
Qed.

Lemma type_typed : forall k data, (forall v, In v data -> of_type k v) -> typed k data.
Proof. intros k data H. apply Forall_forall. intros v Hv. apply in_kind_iff, H, Hv. Qed.

(* ---------- refinement ---------- *)

Definition crep (k : kind) (data : list Z) (s : cscan) (c : cursor) : Prop :=
  match s with
  | VScan s => vrep data s c
  | RScan s => exists es, expand es = data /\ good k es /\ rrep es s c
  end.

Lemma crep_new : forall k col data, represents k col data -> exists s, citer col = Ok s /\ crep k data s (mk_cursor 0 (length data) None).
Proof.
  intros k [l|r] data H; cbn in H.
  - subst l. eexists. split; [reflexivity|]. apply vnew_rep.
  - destruct H as (es & -> & He & Hg). destruct (rnew_rep es (g_filled _ _ Hg)) as (s & E & Hr). cbn [citer]. rewrite E. cbn [bind].
    eexists. split; [reflexivity|]. exists es. split; [exact He|]. split; [exact Hg|]. rewrite <- He, expand_length. exact Hr.
Qed.

Lemma crep_observe : forall k data s c, crep k data s c -> ccurrent s = Ok (value data c) /\ cposition s = Ok (position c).
Proof.
  intros k data [s|s] c H; cbn in H |- *.
  - destruct (vobserve data s c H) as [H1 H2]. rewrite H1, H2. auto.
  - destruct H as (es & <- & Hg & Hr). destruct (robserve es s c (g_filled _ _ Hg) Hr) as [H1 H2]. rewrite H1, H2. auto.
Qed.

Lemma crep_step : forall k data s c x, crep k data s c -> permitted data x c ->
  (forall v, x = Seek v -> seekable k v data) ->
  exists s', perform k x s = Ok (s', returns data x (step data x c)) /\ crep k data s' (step data x c).
Proof.
  intros k data [s|s] c x H Hp Hs; cbn in H.
  - destruct x as [|v|a b|]; cbn [perform cnext cseek cnarrow creset returns].
    + destruct (vnext_rep data s c H) as (s' & E & Hr). rewrite E. cbn [bind fst snd]. exists (VScan s'). split; [reflexivity|exact Hr].
    + destruct (vseek_rep data s c v H Hp) as (s' & E & Hr). rewrite E. cbn [bind fst snd]. exists (VScan s'). split; [reflexivity|exact Hr].
    + destruct (vnarrow_rep data s c a b H Hp) as (s' & E & Hr). rewrite E. cbn [bind fst snd]. exists (VScan s'). split; [reflexivity|exact Hr].
    + eexists. split; [reflexivity|]. apply vreset_rep, H.
  - destruct H as (es & <- & Hg & Hr0). destruct x as [|v|a b|]; cbn [perform cnext cseek cnarrow creset returns].
    + destruct (rnext_rep k es s c Hg Hr0) as (s' & E & Hr). rewrite E. cbn [bind fst snd]. exists (RScan s'). split; [reflexivity|]. exists es. split; [reflexivity|]. split; [exact Hg|exact Hr].
    + destruct (rseek_rep k es s c v Hg Hr0 Hp (Hs v eq_refl)) as (s' & E & Hr). rewrite E. cbn [bind fst snd]. exists (RScan s'). split; [reflexivity|]. exists es. split; [reflexivity|]. split; [exact Hg|exact Hr].
    + cbn in Hp. rewrite expand_length in Hp. destruct (rnarrow_rep es s c a b (g_filled _ _ Hg) Hr0 Hp) as (s' & E & Hr). rewrite E. cbn [bind fst snd]. exists (RScan s'). split; [reflexivity|]. exists es. split; [reflexivity|]. split; [exact Hg|exact Hr].
    + eexists. split; [reflexivity|]. exists es. split; [reflexivity|]. split; [exact Hg|]. apply rreset_rep, Hr0.
Qed.

Lemma crep_yields : forall k data n s c, crep k data s c ->
  let q := match cat c with None => ca c | Some p => Nat.min (p + 1) (cb c) end in
  cb c <= length data -> n = cb c - q -> q <= cb c -> yields k s (slice data q (cb c)).
Proof.
  intros k data. induction n as [|n IH]; intros s c H q Hb Hn Hq.
  - destruct (crep_step k data s c Next H I ltac:(discriminate)) as (s' & E & Hr). cbn [perform returns step] in E. fold q in E.
    assert (Eq : q = cb c) by lia. rewrite Eq, value_end in E. rewrite Eq, slice_empty. destruct (cnext k s) as [r| |] eqn:Ec; try discriminate.
    cbn [bind] in E. apply (yields_end k s s'). rewrite Ec. destruct r. cbn in E. congruence.
  - destruct (crep_step k data s c Next H I ltac:(discriminate)) as (s' & E & Hr). cbn [perform returns step] in E, Hr. fold q in E, Hr.
    destruct (nth_error data q) as [x|] eqn:Ex; [|apply nth_error_None in Ex; lia].
    rewrite (value_at _ _ _ _ x) in E by (lia || exact Ex). rewrite (slice_cons _ q _ x) by (lia || exact Ex).
    destruct (cnext k s) as [r| |] eqn:Ec; try discriminate. cbn [bind] in E. apply (yields_more k s s').
    + rewrite Ec. destruct r. cbn in E. congruence.
    + specialize (IH s' _ Hr). cbn [cat ca cb] in IH. rewrite Nat.min_l in IH by lia. apply IH; lia.
Qed.

(* ---------- C17 ---------- *)

(* Whatever the limits of the adaptive builder are (threshold, target): the column that is built
   from a sequence of values has its length, its values, and is iterated in its order. *)
Theorem C17_column_contents : forall k threshold target data,
  column_type k -> storable data -> (forall v, In v data -> of_type k v) ->
  exists col, build_column k threshold target data = Ok col /\
    clen col = length data /\
    (forall i v, nth_error data i = Some v -> cget k col i = Ok v) /\
    (exists s, citer col = Ok s /\ yields k s data).
Proof.
  intros k t g data Hk Hn Ht. destruct (build_represents k t g data (type_zero k Hk) (type_typed k data Ht) (type_fits k _ Hk Hn)) as (c & E & Hc).
  exists c. split; [exact E|]. split; [|split].
  - destruct c as [l|r]; cbn in Hc |- *; [congruence|]. destruct Hc as (es & -> & He & _). rewrite rlen_total, <- expand_length, He. reflexivity.
  - intros i v Hv. destruct c as [l|r]; cbn in Hc |- *; [subst l; apply index_Ok, Hv|]. destruct Hc as (es & -> & He & Hg).
    assert (Hi : i < length data) by (apply nth_error_Some; congruence). destruct (rget_ok k es i Hg) as (w & Ew & Hw); [rewrite <- expand_length, He; exact Hi|].
    rewrite Ew. congruence.
  - destruct (crep_new k c data Hc) as (s & Es & Hs). exists s. split; [exact Es|].
    pose proof (crep_yields k data (length data) s _ Hs) as H. cbn [cat ca cb] in H. rewrite <- (slice_all data) at 1. apply H; lia.
Qed.

(* The plain run-length builder, and any number of values added *)
Theorem C17_run_length_contents : forall k data,
  column_type k -> storable data -> (forall v, In v data -> of_type k v) ->
  exists b, fold_left (fun r v => bind r (radd k v)) data (Ok rnew) = Ok b /\
    rcount b = length data /\ rlen (rfinalize b) = length data /\
    (forall i v, nth_error data i = Some v -> rget k (rfinalize b) i = Ok v) /\
    riter k (rfinalize b) = Ok data.
Proof.
  intros k data Hk Hn Ht.
  assert (G : forall l done b, built k b done -> exists b', fold_left (fun r v => bind r (radd k v)) l (Ok b) = Ok b' /\ built k b' (done ++ l)).
  { induction l as [|v l IH]; intros done b Hb; [exists b; rewrite app_nil_r; auto|]. cbn [fold_left bind].
    destruct (radd_built k b done v (type_zero k Hk) Hb) as (b1 & E1 & Hb1). rewrite E1. destruct (IH _ _ Hb1) as (b' & E' & Hb'). exists b'. rewrite <- app_assoc in Hb'. auto. }
  destruct (G data [] rnew) as (b & E & Hb). { unfold built. cbn. repeat split; try constructor. congruence. intros e []. }
  cbn [app] in Hb. exists b. pose proof (built_good k b data (type_zero k Hk) (type_typed k data Ht) (type_fits k _ Hk Hn) Hb) as Hg.
  pose proof Hb as (Hex & _ & _ & _ & Hcnt & _). split; [exact E|]. split; [exact Hcnt|]. unfold rfinalize.
  split; [rewrite rlen_total, <- expand_length, Hex; reflexivity|]. split.
  - intros i v Hv. assert (Hi : i < length data) by (apply nth_error_Some; congruence).
    destruct (rget_ok k _ i Hg) as (w & Ew & Hw); [rewrite <- expand_length, Hex; exact Hi|]. rewrite Ew, Hex in *. congruence.
  - rewrite riter_ok by exact Hg. rewrite Hex. reflexivity.
Qed.

(* ---------- C18 ---------- *)

(* Every history of next, seek, narrow and reset on a column gives the results of the cursor. *)
Theorem C18_scan_is_cursor : forall k threshold target data l,
  column_type k -> storable data -> (forall v, In v data -> of_type k v) ->
  all_permitted data (mk_cursor 0 (length data) None) l ->
  can_seek k data l ->
  exists col s, build_column k threshold target data = Ok col /\ citer col = Ok s /\
    agrees k data s (mk_cursor 0 (length data) None) l.
Proof.
  intros k t g data l Hk Hn Ht Hp Hs. destruct (build_represents k t g data (type_zero k Hk) (type_typed k data Ht) (type_fits k _ Hk Hn)) as (c & E & Hc).
  destruct (crep_new k c data Hc) as (s & Es & Hrep). exists c, s. split; [exact E|]. split; [exact Es|].
  revert s Es Hrep Hp. generalize (mk_cursor 0 (length data) None). clear E. intros c0 s _. revert c0 s.
  induction l as [|x l IH]; intros c0 s Hrep Hp; cbn [agrees]; destruct (crep_observe k data s c0 Hrep) as [H1 H2]; split; [exact H1| |exact H1|]; split; [exact H2|exact I|exact H2|].
  cbn in Hp. destruct Hp as [Hp1 Hp2]. destruct (crep_step k data s c0 x Hrep Hp1) as (s' & E' & Hr').
  - intros v ->. destruct (Hs v (or_introl eq_refl)) as [Hv Hd]. split; [apply in_kind_iff, Hv|]. destruct (debug k); [right|left; reflexivity].
    intros y Hy Hlt. apply in_kind_iff. apply Hd; auto.
  - exists s'. split; [exact E'|]. apply IH; [|exact Hr'|exact Hp2]. intros v Hv. apply Hs. right. exact Hv.
Qed.

(* The meaning of one seek, spelled out: on a sorted column, the value returned is the first one at
   or behind the current position that is at least v, and nothing is returned iff there is none. *)
Theorem C18_seek_meaning : forall data a b p v,
  a <= p -> p <= b -> b <= length data ->
  let c' := step data (Seek v) (mk_cursor a b (Some p)) in
  match value data c' with
  | Some x => exists q, position c' = Some q /\ p <= q < b /\ nth_error data q = Some x /\ (v <= x)%Z /\
                (forall i y, p <= i -> i < q -> nth_error data i = Some y -> (y < v)%Z)
  | None => forall i y, p <= i -> i < b -> nth_error data i = Some y -> (y < v)%Z
  end.
Proof.
  intros data a b p v Ha Hp Hb. cbn [step ca cb cat].
  assert (G : forall n q, n = b - q -> q <= b -> let r := q + smaller_prefix v (slice data q b) in
     q <= r <= b /\ (forall i y, q <= i -> i < r -> nth_error data i = Some y -> (y < v)%Z) /\
     (r < b -> exists x, nth_error data r = Some x /\ (v <= x)%Z)).
  { induction n as [|n IH]; intros q Hn Hq r.
    - assert (q = b) by lia. subst q. unfold r. rewrite slice_empty. cbn. split; [lia|]. split; [intros; lia|lia].
    - destruct (nth_error data q) as [x|] eqn:Ex; [|apply nth_error_None in Ex; lia]. unfold r. rewrite (slice_cons _ q _ x) by (lia || exact Ex). cbn [smaller_prefix].
      destruct (Z.ltb_spec x v) as [Hlt|Hge].
      + destruct (IH (q + 1) ltac:(lia) ltac:(lia)) as (H1 & H2 & H3). replace (q + S (smaller_prefix v (slice data (q + 1) b))) with (q + 1 + smaller_prefix v (slice data (q + 1) b)) by lia.
        split; [lia|]. split; [|exact H3]. intros i y Hi1 Hi2 Hy. destruct (Nat.eq_dec i q) as [->|Hne]; [congruence|]. apply (H2 i); [lia|lia|exact Hy].
      + rewrite Nat.add_0_r. split; [lia|]. split; [intros; lia|]. intros _. eauto. }
  destruct (G (b - p) p eq_refl Hp) as (H1 & H2 & H3). set (r := p + smaller_prefix v (slice data p b)) in *.
  unfold value, position. cbn [cat cb]. destruct (Nat.ltb_spec r b) as [Hr|Hr].
  - destruct (H3 Hr) as (x & Hx & Hvx). rewrite Hx. exists r. split; [reflexivity|]. split; [lia|]. auto.
  - intros i y Hi1 Hi2. apply H2; lia.
Qed.

(* Without the condition on differences, a seek on a column of signed integers fails if overflow
   checks are compiled in. *)
Definition ex_min_column : list Z := map (fun i => (- 2 ^ 63 + Z.of_nat i)%Z) (seq 0 60).
Theorem C18_checked_seek_refuted :
  exists data v, (forall x, In x data -> of_type (i64 true) x) /\ of_type (i64 true) v /\
    all_permitted data (mk_cursor 0 (length data) None) [Seek v] /\
    exists col s, build_column (i64 true) (Some 100) 50 data = Ok col /\ citer col = Ok s /\
      perform (i64 true) (Seek v) s = Panicked.
Proof.
  exists ex_min_column, (2 ^ 63 - 1)%Z. split.
  { intros x Hx. apply in_map_iff in Hx. destruct Hx as (i & <- & Hi). apply in_seq in Hi. unfold of_type, i64, u64; cbn [vmin vmax]; lia. }
  split; [unfold of_type, i64, u64; cbn [vmin vmax]; lia|]. split.
  { split; [|exact I]. cbn [permitted ca cb]. rewrite slice_all. unfold ex_min_column. cbn. repeat constructor; cbn; lia. }
  eexists. eexists. split; [vm_compute; reflexivity|]. split; [vm_compute; reflexivity|]. vm_compute. reflexivity.
Qed.

(* ---------- examples ---------- *)

(* 1, 2, 3, 10, 10, 10, 7: three blocks if the column stays run-length encoded (target 1), a vector
   otherwise (target 50) *)
Definition ex_data : list Z := [1; 2; 3; 10; 10; 10; 17]%Z.
Definition ex_history : list action := [Next; Seek 3; Next; Next; Seek 11; Next; Reset; Narrow 1 5; Seek 4; Next; Next].
Example C17_ex : column_type (u64 false) /\ storable ex_data /\ (forall v, In v ex_data -> of_type (u64 false) v) /\
  build_column (u64 false) None 1 ex_data = Ok (Rle (mk_rcol [1; 10; 17]%Z [3; 6; 7] [1; 0; 0]%Z)) /\
  build_column (u64 false) (Some 100) 50 ex_data = Ok (Vector ex_data) /\
  riter (u64 false) (mk_rcol [1; 10; 17]%Z [3; 6; 7] [1; 0; 0]%Z) = Ok ex_data.
Proof.
  split; [exists false; auto|]. split; [unfold storable; cbn; lia|]. split; [|vm_compute; repeat split].
  intros v [<-|[<-|[<-|[<-|[<-|[<-|[<-|[]]]]]]]]; unfold of_type, i64, u64; cbn [vmin vmax]; lia.
Qed.
Example C18_ex : all_permitted ex_data (mk_cursor 0 7 None) ex_history /\ can_seek (u64 true) ex_data ex_history /\
  (exists s, bind (rscan_new (mk_rcol [1; 10; 17]%Z [3; 6; 7] [1; 0; 0]%Z)) (fun s => rseek (u64 true) 4 s) = Ok (s, Some 10%Z) /\ rposition s = Ok (Some 3)).
Proof.
  split; [|split].
  - unfold ex_history. cbn. repeat split; repeat constructor; try lia; cbn; lia.
  - intros v Hv. unfold ex_history in Hv. cbn in Hv.
    assert (v = 3%Z \/ v = 11%Z \/ v = 4%Z) as Hv' by (intuition congruence). split; [unfold of_type, i64, u64; cbn [vmin vmax]; lia|].
    intros _ x Hx Hlt. cbn in Hx. unfold of_type, i64, u64; cbn [vmin vmax]; lia.
  - eexists. vm_compute. repeat split.
Qed.

Print Assumptions C17_column_contents.
Print Assumptions C17_run_length_contents.
Print Assumptions C18_scan_is_cursor.
Print Assumptions C18_seek_meaning.
Print Assumptions C18_checked_seek_refuted.
