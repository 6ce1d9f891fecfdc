(* Encodings: the bytes that are stored determine the values. *)
From Coq Require Import List ZArith Bool Lia.
From Verif Require Import ColumnModel BufferModel BytesDictModel BytesDictSpec BytesDictProofs DictModel DictSpec.
Import ListNotations.
Local Open Scope Z_scope.

Lemma byte_at_eq : forall n k, byte_at n (Z.of_nat k) = (n / 256 ^ Z.of_nat k) mod 256.
Proof.
  intros n k. unfold byte_at. change 255 with (Z.ones 8). rewrite Z.land_ones by lia. rewrite Z.shiftr_div_pow2 by lia. rewrite Z.pow_mul_r by lia. reflexivity.
Qed.
Lemma fold_be : forall k n acc, fold_left (fun acc x => acc * 256 + x) (be_bytes k n) acc = acc * 256 ^ Z.of_nat k + n mod 256 ^ Z.of_nat k.
Proof.
  induction k as [|k IH]; intros n acc; cbn [be_bytes fold_left].
  - cbn [Z.of_nat]. rewrite Z.pow_0_r, Z.mod_1_r. lia.
  - rewrite IH, byte_at_eq, Nat2Z.inj_succ, Z.pow_succ_r by lia. rewrite (Z.mul_comm 256 (256 ^ _)).
    rewrite (Z.rem_mul_r n (256 ^ Z.of_nat k) 256) by lia. ring.
Qed.
Lemma from_be_be : forall k n, from_be (be_bytes k n) = n mod 256 ^ Z.of_nat k.
Proof. intros. unfold from_be. rewrite fold_be. lia. Qed.
Lemma length_be : forall k n, length (be_bytes k n) = k.
Proof. induction k; intros; cbn; auto. Qed.
Lemma take_app : forall x y, take (length x) (x ++ y) = Ok (x, y).
Proof.
  intros x y. unfold take. rewrite app_length. destruct (Nat.leb_spec (length x) (length x + length y)) as [_|H]; [|lia]. rewrite firstn_app, Nat.sub_diag, firstn_all, skipn_app, Nat.sub_diag, skipn_all.
  cbn [firstn skipn]. rewrite app_nil_r. reflexivity.
Qed.
Lemma take_be : forall k n y, take k (be_bytes k n ++ y) = Ok (be_bytes k n, y).
Proof. intros k n y. pose proof (take_app (be_bytes k n) y) as H. rewrite length_be in H. exact H. Qed.

(* ---- pairs ---- *)
Lemma below64 : forall f : Z -> bool, forallb f (map Z.of_nat (seq 0 64)) = true -> forall x, 0 <= x < 64 -> f x = true.
Proof.
  intros f H x Hx. rewrite forallb_forall in H. apply H. rewrite <- (Z2Nat.id x) by lia. apply in_map. apply in_seq. lia.
Qed.
Lemma masks : forall x, 0 <= x < 64 ->
  Z.land x 192 = 0 /\ Z.land (Z.lor x 64) 192 = 64 /\ Z.land (Z.lor x 128) 192 = 128 /\ Z.land (Z.lor x 192) 192 = 192 /\
  Z.land (Z.lor x 64) 63 = x /\ Z.land (Z.lor x 128) 63 = x /\ Z.land (Z.lor x 192) 63 = x.
Proof.
  intros x Hx.
  pose proof (below64 (fun x => (Z.land x 192 =? 0) && (Z.land (Z.lor x 64) 192 =? 64) && (Z.land (Z.lor x 128) 192 =? 128) && (Z.land (Z.lor x 192) 192 =? 192) &&
    (Z.land (Z.lor x 64) 63 =? x) && (Z.land (Z.lor x 128) 63 =? x) && (Z.land (Z.lor x 192) 63 =? x)) ltac:(vm_compute; reflexivity) x Hx) as H.
  cbn beta in H. rewrite !andb_true_iff, !Z.eqb_eq in H. tauto.
Qed.
Lemma max1 : MAX_ID_1B = 64. Proof. reflexivity. Qed.
Lemma max2 : MAX_ID_2B = 16384. Proof. reflexivity. Qed.
Lemma max3 : MAX_ID_3B = 4194304. Proof. reflexivity. Qed.
Lemma max4 : MAX_ID_4B = 1073741824. Proof. reflexivity. Qed.
Lemma first_byte : forall k n, 0 <= n < 64 * 256 ^ Z.of_nat k -> 0 <= byte_at n (Z.of_nat k) < 64 /\ from_be (be_bytes (S k) n) = n.
Proof.
  intros k n Hn. assert (Hp : 0 < 256 ^ Z.of_nat k) by (apply Z.pow_pos_nonneg; lia). split.
  - rewrite byte_at_eq. assert (0 <= n / 256 ^ Z.of_nat k < 64) by (split; [apply Z.div_pos; lia|apply Z.div_lt_upper_bound; lia]). rewrite Z.mod_small; lia.
  - rewrite from_be_be, Nat2Z.inj_succ, Z.pow_succ_r by lia. apply Z.mod_small. nia.
Qed.
Lemma split_pair_bytes : forall fid rare pb, 0 <= fid -> pair_bytes fid rare = Ok pb -> split_pair pb = Ok (fid, rare).
Proof.
  intros fid rare pb H0 E. unfold pair_bytes in E. rewrite max1, max2, max3, max4 in E.
  destruct (Z.ltb_spec fid 64) as [H1|H1]; [|destruct (Z.ltb_spec fid 16384) as [H2|H2]; [|destruct (Z.ltb_spec fid 4194304) as [H3|H3]; [|destruct (Z.ltb_spec fid 1073741824) as [H4|H4]; [|discriminate]]]];
    assert (Epb : pb = pb) by reflexivity; match type of E with Ok ?x = Ok _ => assert (E' : pb = x) by congruence; clear E Epb; subst pb end.
  - destruct (first_byte 0 fid) as [Hb Hf]; [cbn; lia|]. destruct (masks _ Hb) as (M1 & M2 & M3 & M4 & M5 & M6 & M7).
    unfold split_pair, index. cbn [be_bytes app nth_error bind]. unfold FTYPE_BIT_MASK. rewrite M1. cbn [Z.eqb]. change (byte_at fid (Z.of_nat 0) :: rare) with (be_bytes 1 fid ++ rare). rewrite take_be. cbn [bind fst snd be_bytes Nat.eqb].
    change [byte_at fid (Z.of_nat 0)] with (be_bytes 1 fid). rewrite Hf. reflexivity.
  - destruct (first_byte 1 fid) as [Hb Hf]; [cbn; lia|]. destruct (masks _ Hb) as (M1 & M2 & M3 & M4 & M5 & M6 & M7).
    assert (Et : forall a, take 2 (a :: be_bytes 1 fid ++ rare) = Ok (a :: be_bytes 1 fid, rare)) by (intros a; exact (take_app (a :: be_bytes 1 fid) rare)).
    unfold split_pair, index. change (be_bytes 2 fid) with (byte_at fid (Z.of_nat 1) :: be_bytes 1 fid). cbn [or_first app nth_error bind]. unfold FTYPE_BIT_MASK, FID_BIT_MASK. rewrite M2. change (64 =? 0) with false. change (64 =? 64) with true. cbv iota. rewrite Et. cbn [bind fst snd Nat.eqb]. rewrite M5.
    change (byte_at fid (Z.of_nat 1) :: be_bytes 1 fid) with (be_bytes 2 fid). rewrite Hf. reflexivity.
  - destruct (first_byte 2 fid) as [Hb Hf]; [cbn; lia|]. destruct (masks _ Hb) as (M1 & M2 & M3 & M4 & M5 & M6 & M7).
    assert (Et : forall a, take 3 (a :: be_bytes 2 fid ++ rare) = Ok (a :: be_bytes 2 fid, rare)) by (intros a; exact (take_app (a :: be_bytes 2 fid) rare)).
    unfold split_pair, index. change (be_bytes 3 fid) with (byte_at fid (Z.of_nat 2) :: be_bytes 2 fid). cbn [or_first app nth_error bind]. unfold FTYPE_BIT_MASK, FID_BIT_MASK. rewrite M3. change (128 =? 0) with false. change (128 =? 64) with false. change (128 =? 128) with true. cbv iota. rewrite Et. cbn [bind fst snd Nat.eqb]. rewrite M6.
    change (byte_at fid (Z.of_nat 2) :: be_bytes 2 fid) with (be_bytes 3 fid). rewrite Hf. reflexivity.
  - destruct (first_byte 3 fid) as [Hb Hf]; [cbn; lia|]. destruct (masks _ Hb) as (M1 & M2 & M3 & M4 & M5 & M6 & M7).
    assert (Et : forall a, take 4 (a :: be_bytes 3 fid ++ rare) = Ok (a :: be_bytes 3 fid, rare)) by (intros a; exact (take_app (a :: be_bytes 3 fid) rare)).
    unfold split_pair, index. change (be_bytes 4 fid) with (byte_at fid (Z.of_nat 3) :: be_bytes 3 fid). cbn [or_first app nth_error bind]. unfold FTYPE_BIT_MASK, FID_BIT_MASK. rewrite M4. change (192 =? 0) with false. change (192 =? 64) with false. change (192 =? 128) with false. cbv iota. rewrite Et. cbn [bind fst snd Nat.eqb]. rewrite M7.
    change (byte_at fid (Z.of_nat 3) :: be_bytes 3 fid) with (be_bytes 4 fid). rewrite Hf. reflexivity.
Qed.

(* ---- strings with language tags ---- *)
Lemma split_at_greater_app : forall x y, ~ In 62 x -> split_at_greater (x ++ 62 :: y) = Some (x, y).
Proof.
  induction x as [|c x IH]; intros y H; cbn [app split_at_greater].
  - reflexivity.
  - destruct (Z.eqb_spec c GREATER) as [->|_]; [destruct H; left; reflexivity|]. rewrite IH; [reflexivity|]. intros Hi. apply H. right. exact Hi.
Qed.
Lemma escape_id : forall s, ~ In 92 s -> ~ In 62 s -> escape s = s.
Proof.
  intros s H1 H2. unfold escape. assert (E : flat_map (fun c => if c =? BACKSLASH then [BACKSLASH; BACKSLASH] else [c]) s = s).
  { clear H2. induction s as [|c s IH]; [reflexivity|]. cbn [flat_map]. destruct (Z.eqb_spec c BACKSLASH) as [->|_]; [destruct H1; left; reflexivity|]. cbn [app]. rewrite IH; [reflexivity|]. intros Hi. apply H1. right. exact Hi. }
  rewrite E. clear E H1. induction s as [|c s IH]; [reflexivity|]. cbn [flat_map]. destruct (Z.eqb_spec c GREATER) as [->|_]; [destruct H2; left; reflexivity|]. cbn [app]. rewrite IH; [reflexivity|]. intros Hi. apply H2. right. exact Hi.
Qed.
Lemma two_strings_ok : forall s tag, tag <> [] -> (Z.of_nat (length tag) <= 127 \/ (~ In 92 tag /\ ~ In 62 tag)) ->
  exists x, two_strings_to_one s tag = Ok x /\ one_string_to_two x = Some (s, tag).
Proof.
  intros s tag Ht H. unfold two_strings_to_one. destruct tag as [|c t] eqn:Etag; [contradiction|]. rewrite <- Etag in *. clear c t Etag. unfold lenz. destruct (Z.leb_spec (Z.of_nat (length tag)) 127) as [Hl|Hl].
  - eexists. split; [reflexivity|]. unfold one_string_to_two. destruct (Z.gtb_spec (Z.of_nat (length tag)) 0) as [Hp|Hp].
    + unfold lenz. rewrite app_length. destruct (Z.ltb_spec (Z.of_nat (length tag + length s)) (Z.of_nat (length tag))) as [Hx|_]; [lia|]. rewrite Nat2Z.id, firstn_app, skipn_app, Nat.sub_diag, firstn_all, skipn_all. cbn. rewrite app_nil_r. reflexivity.
    + destruct tag as [|a tag]; [contradiction|cbn in Hp; lia].
  - destruct H as [H|[H1 H2]]; [lia|]. rewrite escape_id by assumption. eexists. split; [reflexivity|]. unfold one_string_to_two. change (0 >? 0) with false. cbv iota. change (tag ++ [GREATER] ++ s) with (tag ++ 62 :: s). rewrite split_at_greater_app by assumption. reflexivity.
Qed.

(* ---- IRIs and other values ---- *)
Lemma iri_pair_app : forall s, fst (iri_pair s) ++ snd (iri_pair s) = s.
Proof. intros s. apply firstn_skipn. Qed.
Lemma other_round : forall v f r, supported v -> other_pair v = Some (f, r) -> pair_to_other f r = v.
Proof.
  intros v f r H E. destruct H; try discriminate; cbn in E; inversion E; subst; unfold pair_to_other.
  - change (bytes_eqb XSD_BOOLEAN XSD_BOOLEAN) with true. destruct b; reflexivity.
  - destruct (bytes_eqb f XSD_BOOLEAN) eqn:Eb; [apply bytes_eqb_eq in Eb; contradiction|reflexivity].
Qed.

(* ---- tuples ---- *)
(* a type byte is left out when it and all later ones are equal to the one before *)
Fixpoint trim (prev : Z) (ts : list Z) : list Z :=
  match ts with [] => [] | t :: ts => match trim t ts with [] => if t =? prev then [] else [t] | l => t :: l end end.
Definition push_all (es : list (Z * bytes)) (s : tuple_state) : tuple_state := fold_left push_element es s.
Lemma push_all_end : forall es s, (ts_change s <= length (ts_type s))%nat ->
  ts_content (push_all es s) = ts_content s ++ concat (map snd es) /\
  firstn (ts_change (push_all es s)) (ts_type (push_all es s)) =
    match trim (ts_prev s) (map fst es) with [] => firstn (ts_change s) (ts_type s) | l => ts_type s ++ l end.
Proof.
  unfold push_all. induction es as [|e es IH]; intros s Hs; cbn [fold_left map concat trim].
  - rewrite app_nil_r. auto.
  - assert (Hs' : (ts_change (push_element s e) <= length (ts_type (push_element s e)))%nat).
    { unfold push_element. destruct (fst e =? ts_prev s); cbn [ts_change ts_type]; rewrite ?app_length; cbn; lia. }
    destruct (IH _ Hs') as [E1 E2]. split.
    + rewrite E1. unfold push_element. destruct (fst e =? ts_prev s); cbn [ts_content]; rewrite app_assoc; reflexivity.
    + rewrite E2. unfold push_element. destruct (Z.eqb_spec (fst e) (ts_prev s)) as [Ee|Ee]; cbn [ts_content ts_type ts_prev ts_change].
      * rewrite <- Ee. destruct (trim (fst e) (map fst es)) as [|t l]; [|rewrite <- app_assoc; reflexivity]. rewrite firstn_app. assert (Hz : (ts_change s - length (ts_type s) = 0)%nat) by lia. rewrite Hz. cbn. rewrite app_nil_r. reflexivity.
      * destruct (trim (fst e) (map fst es)) as [|t l]; [|rewrite <- app_assoc; reflexivity]. apply firstn_all.
Qed.
Lemma tuple_end_eq : forall lab es, (lab = [] \/ es <> []) -> Forall (fun e => fst e <> TYPE_NOTYPE) es ->
  tuple_end (push_all es (tuple_start lab)) = (lab ++ trim TYPE_NOTYPE (map fst es), concat (map snd es)).
Proof.
  intros lab es Hl Hes. destruct (push_all_end es (tuple_start lab)) as [E1 E2]; [cbn; lia|]. unfold tuple_end. rewrite E1, E2. cbn [tuple_start ts_prev ts_content ts_type ts_change]. f_equal.
  destruct (trim TYPE_NOTYPE (map fst es)) as [|t l] eqn:Et; [|reflexivity]. cbn. rewrite app_nil_r. destruct Hl as [->|Hne]; [reflexivity|].
  exfalso. destruct es as [|e es]; [contradiction|]. cbn in Et. apply Forall_inv in Hes. destruct (trim (fst e) (map fst es)); [|discriminate]. destruct (Z.eqb_spec (fst e) TYPE_NOTYPE); [contradiction|discriminate].
Qed.
(* reading: [ok] says that an element is read from its bytes *)
Lemma read_all : forall get (es : list (Z * bytes)) vs, Forall2 (fun e v => snd e <> [] /\ forall rest, read_element get (fst e) (snd e ++ rest) = Ok (v, rest)) es vs ->
  forall fuel cur, (length (concat (map snd es)) <= fuel)%nat -> read_elements get fuel cur (trim cur (map fst es)) (concat (map snd es)) = Ok vs.
Proof.
  unfold bytes. intros get es vs H. induction H as [|e v es vs [Hne Hr] H IH]; intros fuel cur Hf.
  - destruct fuel; reflexivity.
  - cbn [map concat trim] in *. rewrite app_length in Hf. destruct (snd e) as [|c content] eqn:Ec; [contradiction|]. destruct fuel as [|fuel]; [cbn in Hf; lia|].
    assert (Hf' : (length (concat (map snd es)) <= fuel)%nat) by (cbn in Hf; lia).
    assert (Hgo : forall ty, ty = fst e -> bind (read_element get ty (c :: content ++ concat (map snd es))) (fun q => bind (read_elements get fuel ty (trim ty (map fst es)) (snd q)) (fun vs => Ok (fst q :: vs))) = Ok (v :: vs)).
    { intros ty ->. change (c :: content ++ concat (map snd es)) with ((c :: content) ++ concat (map snd es)). rewrite Hr. cbn [bind fst snd]. rewrite IH by exact Hf'. reflexivity. }
    cbn [read_elements app]. pose proof (Hgo _ eq_refl) as Hg. destruct (trim (fst e) (map fst es)) as [|t l]; [|exact Hg].
    destruct (Z.eqb_spec (fst e) cur) as [Ee|Ee]; [rewrite <- Ee|]; exact Hg.
Qed.
