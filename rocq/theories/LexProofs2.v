(** The hand-written scanner for decimals. *)
From Coq Require Import List ZArith Bool Lia String.
From Verif Require Import LexModel LexSpec LexProofs1.
Import ListNotations.
Open Scope Z_scope.
Open Scope list_scope.

Fixpoint strip0 (s : str) : str :=
  match s with [] => [] | c :: s' => if c =? 48 then strip0 s' else s end.
Definition rstrip0 (s : str) : str := rev (strip0 (rev s)).
Definition emptyb (s : str) : bool := match s with [] => true | _ => false end.

Lemma rstrip0_snoc s c : rstrip0 (s ++ [c]) = if c =? 48 then rstrip0 s else s ++ [c].
Proof.
  unfold rstrip0. rewrite rev_app_distr. cbn [rev app strip0]. destruct (c =? 48); auto.
  cbn [rev]. now rewrite rev_involutive.
Qed.

Lemma scan_all_app : forall a st b, scan_all st (a ++ b) = match scan_all st a with Some st' => scan_all st' b | None => None end.
Proof.
  induction a as [|c a IH]; intros st b; cbn [app scan_all]; auto. destruct (scan_char st c); auto.
Qed.

Lemma scan_char_digit st c : is_digit c ->
  scan_char st c =
    if c =? 48 then
      Some (mkscan (if in_leading_zeros st then trimmed st else trimmed st ++ [48]) false (in_leading_zeros st)
                 (in_fraction st) (len_at_trailing_zeros st) (sign_plus st) (is_zero st) (has_nonzero_fraction st) true)
    else
      Some (mkscan (trimmed st ++ [c]) (before_sign st) false (in_fraction st)
                 (if in_fraction st then List.length (trimmed st ++ [c]) else len_at_trailing_zeros st)
                 (sign_plus st) false (if in_fraction st then true else has_nonzero_fraction st) true).
Proof.
  unfold is_digit. intros H. unfold scan_char.
  destruct (Z.eqb_spec c 45); [lia|]. destruct (Z.eqb_spec c 43); [lia|]. cbn [andb].
  destruct (Z.eqb_spec c 48).
  - subst. reflexivity.
  - destruct (Z.leb_spec 49 c); [|lia]. destruct (Z.leb_spec c 57); [|lia]. reflexivity.
Qed.

(** Digits before the point, from a state in which no digit other than 0 has been seen. *)
Lemma scan_ip : forall ip T bs sp sd, Forall is_digit ip ->
  exists bs', scan_all (mkscan T bs true false 0 sp true false sd) ip =
    Some (mkscan (T ++ strip0 ip) bs' (emptyb (strip0 ip)) false 0 sp (emptyb (strip0 ip)) false (sd || negb (emptyb ip))).
Proof.
  assert (forall ip T bs sp sd, Forall is_digit ip ->
    exists bs', scan_all (mkscan T bs false false 0 sp false false sd) ip =
      Some (mkscan (T ++ ip) bs' false false 0 sp false false (sd || negb (emptyb ip)))) as G.
  { induction ip as [|c ip IH]; intros T bs sp sd H.
    - exists bs. cbn. now rewrite app_nil_r, orb_false_r.
    - inversion H; subst. cbn [scan_all]. rewrite scan_char_digit by auto.
      cbn [trimmed before_sign in_leading_zeros in_fraction len_at_trailing_zeros sign_plus is_zero has_nonzero_fraction saw_digit].
      destruct (Z.eqb_spec c 48) as [->|N].
      + destruct (IH (T ++ [48]) false sp true H3) as (bs' & E). exists bs'. rewrite E. f_equal. f_equal.
        * now rewrite <- app_assoc.
        * cbn. now rewrite orb_true_r.
      + destruct (IH (T ++ [c]) bs sp true H3) as (bs' & E). exists bs'. rewrite E. f_equal. f_equal.
        * now rewrite <- app_assoc.
        * cbn. now rewrite orb_true_r. }
  induction ip as [|c ip IH]; intros T bs sp sd H.
  - exists bs. cbn. now rewrite app_nil_r, orb_false_r.
  - inversion H; subst. cbn [scan_all]. rewrite scan_char_digit by auto.
    cbn [trimmed before_sign in_leading_zeros in_fraction len_at_trailing_zeros sign_plus is_zero has_nonzero_fraction saw_digit].
    cbn [strip0]. destruct (Z.eqb_spec c 48) as [->|N].
    + destruct (IH T false sp true H3) as (bs' & E). exists bs'. rewrite E. cbn [orb]. f_equal. f_equal.
      cbn. now rewrite orb_true_r.
    + destruct (G ip (T ++ [c]) bs sp true H3) as (bs' & E). exists bs'. rewrite E. f_equal. f_equal.
      * now rewrite <- app_assoc.
      * cbn. now rewrite orb_true_r.
Qed.

(** Digits after the point. *)
Lemma scan_fp P bs sp iz sd : forall fp, Forall is_digit fp ->
  exists bs', scan_all (mkscan (P ++ [46]) bs false true (List.length P) sp iz false sd) fp =
    Some (mkscan (P ++ [46] ++ fp) bs' false true
            (if emptyb (rstrip0 fp) then List.length P else List.length (P ++ [46] ++ rstrip0 fp))
            sp (iz && emptyb (rstrip0 fp)) (negb (emptyb (rstrip0 fp))) (sd || negb (emptyb fp))).
Proof.
  induction fp as [|c fp IH] using rev_ind; intros H.
  - exists bs. cbn. now rewrite orb_false_r, andb_true_r.
  - apply Forall_app in H as [H1 H2]. inversion H2; subst. destruct (IH H1) as (bs' & E).
    rewrite scan_all_app, E. cbn [scan_all]. rewrite scan_char_digit by auto.
    cbn [trimmed before_sign in_leading_zeros in_fraction len_at_trailing_zeros sign_plus is_zero has_nonzero_fraction saw_digit].
    rewrite rstrip0_snoc. assert (emptyb (fp ++ [c]) = false) as Ee by (destruct fp; auto). rewrite Ee. cbn [negb].
    rewrite orb_true_r. destruct (Z.eqb_spec c 48) as [->|N].
    + eexists. f_equal. rewrite <- !app_assoc. reflexivity.
    + eexists. rewrite Ee. cbn [negb]. rewrite andb_false_r. f_equal. rewrite <- !app_assoc. reflexivity.
Qed.

Definition sign_prefix (sg : str) : str := match sg with [c] => if c =? 45 then [45] else [] | _ => [] end.
Definition sign_is_plus (sg : str) : bool := match sg with [c] => negb (c =? 45) | _ => true end.
Definition ip_canon (ip : str) : str := if emptyb (strip0 ip) then [48] else strip0 ip.

Lemma scan_sign sg sgn : sign sg sgn ->
  exists bs, scan_all scan0 sg = Some (mkscan (sign_prefix sg) bs true false 0 (sign_is_plus sg) true false false).
Proof. intros H. inversion H; subst; eexists; reflexivity. Qed.

(** Literals without a point. *)
Theorem scan_integer sg sgn ip : sign sg sgn -> Forall is_digit ip -> exists st,
  scan_all scan0 (sg ++ ip) = Some st /\ trimmed st = sign_prefix sg ++ strip0 ip /\ in_fraction st = false /\
  sign_plus st = sign_is_plus sg /\ is_zero st = emptyb (strip0 ip) /\ saw_digit st = negb (emptyb ip).
Proof.
  intros S H. destruct (scan_sign sg sgn S) as (bs & E).
  destruct (scan_ip ip (sign_prefix sg) bs (sign_is_plus sg) false H) as (bs' & E').
  eexists. rewrite scan_all_app, E, E'. repeat split.
Qed.

(** Literals with a point. *)
Theorem scan_decimal sg sgn ip fp : sign sg sgn -> Forall is_digit ip -> Forall is_digit fp -> exists st,
  scan_all scan0 (sg ++ ip ++ [46] ++ fp) = Some st /\ in_fraction st = true /\
  firstn (len_at_trailing_zeros st) (trimmed st) =
    sign_prefix sg ++ ip_canon ip ++ (if emptyb (rstrip0 fp) then [] else 46 :: rstrip0 fp) /\
  has_nonzero_fraction st = negb (emptyb (rstrip0 fp)) /\
  saw_digit st = negb (emptyb (ip ++ fp)).
Proof.
  intros S H H'. destruct (scan_sign sg sgn S) as (bs & E).
  destruct (scan_ip ip (sign_prefix sg) bs (sign_is_plus sg) false H) as (bs' & E').
  pose (P := sign_prefix sg ++ ip_canon ip).
  destruct (scan_fp P bs' (sign_is_plus sg) (emptyb (strip0 ip)) (false || negb (emptyb ip)) fp H') as (bs2 & E2).
  eexists. rewrite scan_all_app, E, scan_all_app, E'. cbn [app scan_all].
  assert (scan_char (mkscan (sign_prefix sg ++ strip0 ip) bs' (emptyb (strip0 ip)) false 0 (sign_is_plus sg)
             (emptyb (strip0 ip)) false (false || negb (emptyb ip))) 46 =
          Some (mkscan (P ++ [46]) bs' false true (List.length P) (sign_is_plus sg) (emptyb (strip0 ip)) false
             (false || negb (emptyb ip)))) as E3.
  { unfold scan_char. cbn [trimmed before_sign in_leading_zeros in_fraction len_at_trailing_zeros sign_plus is_zero has_nonzero_fraction saw_digit].
    change (46 =? 45) with false. change (46 =? 43) with false. change ((49 <=? 46) && (46 <=? 57)) with false.
    change (46 =? 48) with false. change (46 =? 46) with true. cbn [andb]. cbv iota.
    assert ((if emptyb (strip0 ip) then (sign_prefix sg ++ strip0 ip) ++ [48] else sign_prefix sg ++ strip0 ip) = P) as ->; [|reflexivity].
    unfold P, ip_canon. destruct (strip0 ip) eqn:Es; cbn [emptyb]; auto. now rewrite app_nil_r. }
  rewrite E3, E2. split; [reflexivity|].
  cbn [trimmed before_sign in_leading_zeros in_fraction len_at_trailing_zeros sign_plus is_zero has_nonzero_fraction saw_digit].
  split; [reflexivity|]. split; [|split; [reflexivity|destruct ip; reflexivity]].
  unfold rstrip0 at 2. destruct (emptyb (rstrip0 fp)) eqn:Ee.
  - rewrite firstn_app, Nat.sub_diag, firstn_all. cbn [firstn]. unfold P. rewrite !app_nil_r. reflexivity.
  - assert (exists zs, fp = rstrip0 fp ++ zs) as (zs & Ez).
    { clear. induction fp as [|c fp [zs IH]] using rev_ind; [exists []; auto|].
      rewrite rstrip0_snoc. destruct (c =? 48).
      - exists (zs ++ [c]). rewrite app_assoc, <- IH. auto.
      - exists []. now rewrite app_nil_r. }
    fold (rstrip0 fp). set (R := rstrip0 fp) in *.
    cbn [app]. assert (P ++ 46 :: fp = (P ++ 46 :: R) ++ zs) as -> by (rewrite Ez at 1; now rewrite <- app_assoc).
    rewrite firstn_app, Nat.sub_diag, firstn_all. cbn [firstn].
    rewrite app_nil_r. unfold P. rewrite <- !app_assoc. reflexivity.
Qed.

(** Nothing else is accepted. *)
Definition signless (st : scan) : Prop := before_sign st = false \/ trimmed st <> [].

Lemma scan_char_signless st c st' : signless st -> scan_char st c = Some st' ->
  signless st' /\ (is_digit c /\ in_fraction st' = in_fraction st \/ c = 46 /\ in_fraction st = false /\ in_fraction st' = true).
Proof.
  intros Hs. unfold scan_char, is_digit.
  assert (negb (nonempty (trimmed st)) && before_sign st = false) as Hn.
  { destruct Hs as [H|H]; [rewrite H; apply andb_false_r|]. destruct (trimmed st); [congruence|reflexivity]. }
  rewrite <- !andb_assoc, Hn, !andb_false_r.
  destruct ((49 <=? c) && (c <=? 57)) eqn:E1.
  { apply andb_true_iff in E1 as [A B]. apply Z.leb_le in A, B. intros [= <-]. split.
    - right. cbn. destruct (trimmed st); discriminate.
    - left. split; [lia|reflexivity]. }
  destruct (Z.eqb_spec c 48) as [->|N].
  { intros [= <-]. split; [left; reflexivity|left; split; [lia|reflexivity]]. }
  destruct (Z.eqb_spec c 46) as [->|N']; [|discriminate].
  destruct (in_fraction st) eqn:Ef; [discriminate|]. intros [= <-]. split.
  - right. cbn. destruct (in_leading_zeros st), (trimmed st); discriminate.
  - right. auto.
Qed.

Lemma scan_frac_inv : forall s st st', signless st -> in_fraction st = true -> scan_all st s = Some st' -> Forall is_digit s.
Proof.
  induction s as [|c s IH]; intros st st' Hs Hf H; [constructor|]. cbn [scan_all] in H.
  destruct (scan_char st c) as [st1|] eqn:E; [|discriminate].
  destruct (scan_char_signless st c st1 Hs E) as (Hs1 & [[D F1]|(_ & F1 & _)]); [|congruence].
  constructor; auto. apply (IH st1 st'); congruence.
Qed.

Lemma scan_body_inv : forall s st st', signless st -> in_fraction st = false -> scan_all st s = Some st' ->
  Forall is_digit s \/ exists a b, s = a ++ [46] ++ b /\ Forall is_digit a /\ Forall is_digit b.
Proof.
  induction s as [|c s IH]; intros st st' Hs Hf H; [left; constructor|]. cbn [scan_all] in H.
  destruct (scan_char st c) as [st1|] eqn:E; [|discriminate].
  destruct (scan_char_signless st c st1 Hs E) as (Hs1 & [[D F1]|(-> & F1 & F2)]).
  - destruct (IH st1 st') as [Fd|(a & b & -> & Fa & Fb)]; [auto|congruence|auto| |].
    + left. constructor; auto.
    + right. exists (c :: a), b. repeat split; auto.
  - right. exists [], s. repeat split; auto. eapply scan_frac_inv; eauto.
Qed.

Theorem scan_inv s st : scan_all scan0 s = Some st -> exists sg sgn ip fp, sign sg sgn /\ Forall is_digit ip /\ Forall is_digit fp /\
  (s = sg ++ ip /\ fp = [] \/ s = sg ++ ip ++ [46] ++ fp).
Proof.
  intros H. destruct s as [|c s].
  { exists [], 1, [], []. split; [constructor|]. split; [constructor|]. split; [constructor|]. left. split; reflexivity. }
  assert (forall sg sgn st1, sign sg sgn -> signless st1 -> in_fraction st1 = false -> scan_all st1 s = Some st -> c :: s = sg ++ s ->
    exists sg sgn ip fp, sign sg sgn /\ Forall is_digit ip /\ Forall is_digit fp /\
      (c :: s = sg ++ ip /\ fp = [] \/ c :: s = sg ++ ip ++ [46] ++ fp)) as K.
  { intros sg sgn st1 Sg Hs Hf E Ec. destruct (scan_body_inv s st1 st Hs Hf E) as [Fd|(a & b & Es & Fa & Fb)].
    - exists sg, sgn, s, []. split; [auto|]. split; [auto|]. split; [constructor|]. left. auto.
    - exists sg, sgn, a, b. split; [auto|]. split; [auto|]. split; [auto|]. right. rewrite Ec, Es at 1. reflexivity. }
  cbn [scan_all] in H. destruct (Z.eq_dec c 45) as [->|N45]; [|destruct (Z.eq_dec c 43) as [->|N43]].
  - apply (K [45] (-1) (mkscan [45] false true false 0 false true false false) minus_sign); [left; reflexivity|reflexivity|exact H|reflexivity].
  - apply (K [43] 1 (mkscan [] false true false 0 true true false false) plus_sign); [left; reflexivity|reflexivity|exact H|reflexivity].
  - destruct (scan_char scan0 c) as [st1|] eqn:E; [|discriminate].
    unfold scan_char in E. destruct (Z.eqb_spec c 45); [congruence|]. destruct (Z.eqb_spec c 43); [congruence|]. cbn [andb] in E.
    destruct ((49 <=? c) && (c <=? 57)) eqn:E1.
    { apply andb_true_iff in E1 as [A B]. apply Z.leb_le in A, B. injection E as <-.
      
      assert (Forall is_digit s \/ exists a b, s = a ++ [46] ++ b /\ Forall is_digit a /\ Forall is_digit b)
        as [Fd|(a & b & Es & Fa & Fb)]
        by (eapply scan_body_inv; [| |exact H]; [right; discriminate|reflexivity]).
      - exists [], 1, (c :: s), []. split; [constructor|]. split; [constructor; [unfold is_digit; lia|auto]|]. split; [constructor|]. now left.
      - exists [], 1, (c :: a), b. split; [constructor|]. split; [constructor; [unfold is_digit; lia|auto]|]. split; [auto|]. right. cbn. now rewrite Es. }
    destruct (Z.eqb_spec c 48) as [->|N48].
    { injection E as <-. 
      assert (Forall is_digit s \/ exists a b, s = a ++ [46] ++ b /\ Forall is_digit a /\ Forall is_digit b)
        as [Fd|(a & b & Es & Fa & Fb)]
        by (eapply scan_body_inv; [| |exact H]; [left; reflexivity|reflexivity]).
      - exists [], 1, (48 :: s), []. split; [constructor|]. split; [constructor; [unfold is_digit; lia|auto]|]. split; [constructor|]. now left.
      - exists [], 1, (48 :: a), b. split; [constructor|]. split; [constructor; [unfold is_digit; lia|auto]|]. split; [auto|]. right. cbn. now rewrite Es. }
    destruct (Z.eqb_spec c 46) as [->|N46]; [|discriminate]. cbn in E. injection E as <-.
    exists [], 1, [], s. split; [constructor|]. split; [constructor|]. split; [|now right].
    eapply scan_frac_inv; [| |exact H]; [right; discriminate|reflexivity].
Qed.
