(** Equality, hashing and order of data values. *)
From Coq Require Import List ZArith Bool Lia String.
From Verif Require Import LexModel LexSpec LexProofs1 LexProofs4 LexProofs5.
Import ListNotations.
Open Scope Z_scope.
Open Scope list_scope.

(** ** Strings *)
Lemma str_cmp_eq : forall a b, str_cmp a b = Eq <-> a = b.
Proof.
  induction a as [|x a IH]; intros [|y b]; cbn; split; try congruence; auto.
  - destruct (Z.compare_spec x y); try discriminate. subst. intros H. f_equal. now apply IH.
  - intros [= -> ->]. rewrite Z.compare_refl. now apply IH.
Qed.
Lemma str_cmp_sym : forall a b, str_cmp b a = CompOpp (str_cmp a b).
Proof.
  induction a as [|x a IH]; intros [|y b]; cbn; auto. rewrite (Z.compare_antisym x y). destruct (x ?= y); cbn; auto.
Qed.
Lemma str_cmp_trans : forall a b c, str_cmp a b = Lt -> str_cmp b c = Lt -> str_cmp a c = Lt.
Proof.
  induction a as [|x a IH]; intros [|y b] [|z c]; cbn; try discriminate; auto.
  destruct (Z.compare_spec x y), (Z.compare_spec y z); try discriminate; subst; intros A B.
  - rewrite Z.compare_refl. eauto.
  - destruct (Z.compare_spec y z); lia || auto.
  - destruct (Z.compare_spec x z); lia || auto.
  - destruct (Z.compare_spec x z); lia || auto.
Qed.
Lemma then_cmp_eq c d : then_cmp c d = Eq <-> c = Eq /\ d = Eq.
Proof. destruct c; cbn; split; [tauto|tauto|discriminate|intros []; discriminate|discriminate|intros []; discriminate]. Qed.
Lemma then_cmp_opp c d : then_cmp (CompOpp c) (CompOpp d) = CompOpp (then_cmp c d).
Proof. destruct c; reflexivity. Qed.
Lemma pair_cmp_trans a a' b b' c c' : then_cmp (str_cmp a b) (str_cmp a' b') = Lt -> then_cmp (str_cmp b c) (str_cmp b' c') = Lt ->
  then_cmp (str_cmp a c) (str_cmp a' c') = Lt.
Proof.
  intros A B. destruct (str_cmp a b) eqn:E1; cbn in A; try discriminate; destruct (str_cmp b c) eqn:E2; cbn in B; try discriminate.
  - apply str_cmp_eq in E1, E2. subst. assert (str_cmp c c = Eq) as -> by now apply str_cmp_eq. cbn. eapply str_cmp_trans; eauto.
  - apply str_cmp_eq in E1. subst. now rewrite E2.
  - apply str_cmp_eq in E2. subst. now rewrite E1.
  - now rewrite (str_cmp_trans _ _ _ E1 E2).
Qed.

Section P.
Context {F : float_ops} (G : good_floats F).
Notation dval := (dval F).

Definition is_int (v : dval) : Prop := match v with VLong _ | VULong _ => True | _ => False end.

Lemma raw_range (v : dval) : valid v -> is_int v -> i64_lo <= raw_int v <= u64_hi.
Proof. destruct v; cbn [is_int valid raw_int]; try tauto; unfold i64_lo, u64_hi; lia. Qed.

(** ** Equality *)
Lemma int_eqb (v w : dval) : is_int v -> is_int w -> valid v -> valid w -> dval_eqb v w = (raw_int v =? raw_int w).
Proof.
  destruct v; cbn [is_int]; try tauto; destruct w; cbn [is_int]; try tauto; intros _ _; cbn [valid dval_eqb fits_i64 fits_u64 raw_int]; intros V W.
  - cbn [andb]. apply Z.eqb_sym.
  - destruct (Z.leb_spec 0 z0); cbn [andb]; [apply Z.eqb_sym|]. symmetry. apply Z.eqb_neq. lia.
  - unfold i64_hi. destruct (Z.leb_spec z0 (2 ^ 63 - 1)); cbn [andb]; [apply Z.eqb_sym|]. symmetry. apply Z.eqb_neq. lia.
  - cbn [andb]. apply Z.eqb_sym.
Qed.
Lemma int_eqb_other (v w : dval) : is_int v -> ~ is_int w -> dval_eqb v w = false /\ dval_eqb w v = false.
Proof. destruct v; cbn [is_int]; try tauto; destruct w; cbn [is_int]; try tauto; intros _ _; split; reflexivity. Qed.
Lemma is_int_dec v : is_int v \/ ~ is_int v. Proof. destruct v; cbn; tauto. Qed.

Theorem eqb_refl (v : dval) : valid v -> dval_eqb v v = true.
Proof.
  intros V. destruct (is_int_dec v) as [I|N]; [rewrite int_eqb by auto; apply Z.eqb_refl|].
  destruct v; cbn in N; try tauto; cbn [dval_eqb]; rewrite ?str_eqb_refl; auto.
  - apply (gf_refl32 F G).
  - apply (gf_refl64 F G).
  - apply Bool.eqb_reflx.
Qed.
Theorem eqb_sym (v w : dval) : valid v -> valid w -> dval_eqb v w = dval_eqb w v.
Proof.
  intros V W. destruct (is_int_dec v) as [I|N], (is_int_dec w) as [I'|N'].
  - rewrite !int_eqb by auto. apply Z.eqb_sym.
  - destruct (int_eqb_other v w I N') as [-> ->]. auto.
  - destruct (int_eqb_other w v I' N) as [-> ->]. auto.
  - destruct v; cbn in N; try tauto; destruct w; cbn in N'; try tauto; cbn [dval_eqb]; auto.
    + apply str_eqb_sym.
    + now rewrite (str_eqb_sym s s0), (str_eqb_sym tag tag0).
    + apply str_eqb_sym.
    + apply (gf_sym32 F G).
    + apply (gf_sym64 F G).
    + destruct b, b0; reflexivity.
    + now rewrite (str_eqb_sym lex lex0), (str_eqb_sym dt dt0).
Qed.
Theorem eqb_trans (u v w : dval) : valid u -> valid v -> valid w -> dval_eqb u v = true -> dval_eqb v w = true -> dval_eqb u w = true.
Proof.
  intros U V W A B. destruct (is_int_dec u) as [I|N], (is_int_dec v) as [I'|N'].
  - destruct (is_int_dec w) as [I2|N2]; [|destruct (int_eqb_other v w I' N2); congruence].
    rewrite int_eqb in * by auto. apply Z.eqb_eq in A, B. apply Z.eqb_eq. lia.
  - destruct (int_eqb_other u v I N'); congruence.
  - destruct (int_eqb_other v u I' N); congruence.
  - destruct (is_int_dec w) as [I2|N2]; [destruct (int_eqb_other w v I2 N'); congruence|].
    destruct u; cbn in N; try tauto; destruct v; cbn in N'; try tauto; try discriminate A; destruct w; cbn in N2; try tauto; try discriminate B;
      cbn [dval_eqb] in *; rewrite ?andb_true_iff, ?str_eqb_eq in *; try (intuition congruence).
    + eapply (gf_trans32 F G); eauto.
    + eapply (gf_trans64 F G); eauto.
    + destruct b, b0, b1; auto.
Qed.

(** ** Hashing *)
Lemma int_domain (v w : dval) : is_int v -> is_int w -> valid v -> valid w -> raw_int v = raw_int w -> value_domain v = value_domain w.
Proof.
  destruct v; cbn [is_int]; try tauto; destruct w; cbn [is_int]; try tauto; intros _ _; cbn [valid raw_int value_domain]; intros V W E; subst; auto;
    unfold ulong_domain, long_domain, i32_max, i32_min, u32_max, i64_hi.
  - destruct (Z.leb_spec 0 z0); [|lia]. destruct (z0 <=? 2 ^ 31 - 1); auto. destruct (z0 <=? 2 ^ 32 - 1); auto. destruct (Z.leb_spec z0 (2 ^ 63 - 1)); auto. lia.
  - destruct (Z.leb_spec 0 z0); [|lia]. destruct (z0 <=? 2 ^ 31 - 1); auto. destruct (z0 <=? 2 ^ 32 - 1); auto. destruct (Z.leb_spec z0 (2 ^ 63 - 1)); auto. lia.
Qed.
Theorem eqb_hash (v w : dval) : valid v -> valid w -> ~ is_float v -> dval_eqb v w = true -> hash_input v = hash_input w.
Proof.
  intros V W NF E. destruct (is_int_dec v) as [I|N], (is_int_dec w) as [I'|N'].
  - rewrite int_eqb in E by auto. apply Z.eqb_eq in E. unfold hash_input. rewrite (int_domain v w) by auto. f_equal.
    destruct v; cbn in I; try tauto; destruct w; cbn in I'; try tauto; cbn [raw_int] in E; now subst.
  - destruct (int_eqb_other v w I N'); congruence.
  - destruct (int_eqb_other w v I' N); congruence.
  - destruct v; cbn in N, NF; try tauto; destruct w; cbn in N'; try tauto; try discriminate E;
      cbn [dval_eqb] in E; rewrite ?andb_true_iff, ?str_eqb_eq in E; try (destruct E; congruence); try congruence.
    destruct b, b0; auto; discriminate.
Qed.

(** ** Order *)
Definition pos (v : dval) := domain_position (value_domain v).
Lemma int_pos (v w : dval) : is_int v -> is_int w -> valid v -> valid w -> pos v < pos w -> raw_int v < raw_int w.
Proof.
  unfold pos. destruct v; cbn [is_int]; try tauto; destruct w; cbn [is_int]; try tauto; intros _ _; cbn [valid raw_int value_domain]; intros V W;
    unfold ulong_domain, long_domain, i32_max, i32_min, u32_max, i64_hi;
    repeat match goal with |- context [if ?a <=? ?b then _ else _] => destruct (Z.leb_spec a b) end;
    cbn [domain_position]; lia.
Qed.
Lemma int_pos_range (v : dval) : is_int v <-> 100 <= pos v.
Proof.
  unfold pos. destruct v; cbn [is_int value_domain domain_position]; try (split; [tauto|lia]); split; auto; intros _;
    unfold ulong_domain, long_domain;
    repeat match goal with |- context [if ?a <=? ?b then _ else _] => destruct (Z.leb_spec a b) end;
    cbn [domain_position]; lia.
Qed.

Theorem int_cmp (v w : dval) : is_int v -> is_int w -> valid v -> valid w -> dval_cmp v w = Some (raw_int v ?= raw_int w).
Proof.
  intros I I' V W. unfold dval_cmp. fold (pos v) (pos w). destruct (Z.compare_spec (pos v) (pos w)) as [E|E|E].
  - destruct v; cbn in I; try tauto; destruct w; cbn in I'; try tauto; cbn [fits_i64 fits_u64 raw_int]; auto.
    + destruct (Z.leb_spec 0 z0); auto. exfalso. revert E. unfold pos. cbn [value_domain]. cbn [valid] in V, W.
      unfold ulong_domain, long_domain, i32_max, i32_min, u32_max, i64_hi.
      repeat match goal with |- context [if ?a <=? ?b then _ else _] => destruct (Z.leb_spec a b) end; cbn [domain_position]; lia.
    + destruct (Z.leb_spec z0 i64_hi); auto. exfalso. revert E. unfold pos. cbn [value_domain]. cbn [valid] in V, W.
      unfold ulong_domain, long_domain, i32_max, i32_min, u32_max, i64_hi in *.
      repeat match goal with |- context [if ?a <=? ?b then _ else _] => destruct (Z.leb_spec a b) end; cbn [domain_position]; lia.
  - f_equal. symmetry. apply int_pos in E; auto.
  - f_equal. symmetry. apply int_pos in E; auto. now apply Z.compare_gt_iff.
Qed.

(** The position of a value among the kinds (integers are one kind) and the comparison within a kind. *)
Definition kind (v : dval) : Z := Z.min (pos v) 100.
Definition inner (v w : dval) : comparison :=
  match v, w with
  | VString a, VString b => str_cmp a b
  | VIri a, VIri b => str_cmp a b
  | VLang a t, VLang b u => then_cmp (str_cmp a b) (str_cmp t u)
  | VFloat a, VFloat b => f32_cmp F a b
  | VDouble a, VDouble b => f64_cmp F a b
  | VBool a, VBool b => bool_cmp a b
  | VOther a t, VOther b u => then_cmp (str_cmp a b) (str_cmp t u)
  | _, _ => raw_int v ?= raw_int w
  end.
Lemma kind_int v : is_int v -> kind v = 100.
Proof. intros I. apply int_pos_range in I. unfold kind. lia. Qed.
Lemma kind_other v : ~ is_int v -> kind v = pos v /\ pos v < 100.
Proof. intros I. assert (~ 100 <= pos v) by (intros H; apply I, int_pos_range; auto). unfold kind. lia. Qed.

Lemma cmp_kind (v w : dval) : valid v -> valid w ->
  dval_cmp v w = Some (then_cmp (kind v ?= kind w) (inner v w)).
Proof.
  intros V W. destruct (is_int_dec v) as [I|N], (is_int_dec w) as [I'|N'].
  - rewrite int_cmp by auto. rewrite (kind_int v), (kind_int w) by auto. rewrite Z.compare_refl. cbn [then_cmp].
    f_equal. destruct v; cbn in I; try tauto; destruct w; cbn in I'; try tauto; reflexivity.
  - rewrite (kind_int v) by auto. destruct (kind_other w N') as [-> L]. apply int_pos_range in I. unfold dval_cmp. fold (pos v) (pos w).
    assert ((pos v ?= pos w) = Gt) as -> by (apply Z.compare_gt_iff; lia). assert ((100 ?= pos w) = Gt) as -> by (apply Z.compare_gt_iff; lia). reflexivity.
  - rewrite (kind_int w) by auto. destruct (kind_other v N) as [-> L]. apply int_pos_range in I'. unfold dval_cmp. fold (pos v) (pos w).
    assert ((pos v ?= pos w) = Lt) as -> by (apply Z.compare_lt_iff; lia). assert ((pos v ?= 100) = Lt) as -> by (apply Z.compare_lt_iff; lia). reflexivity.
  - destruct (kind_other v N) as [-> _]. destruct (kind_other w N') as [-> _]. unfold dval_cmp. fold (pos v) (pos w).
    destruct v; cbn in N; try tauto; destruct w; cbn in N'; try tauto; reflexivity.
Qed.

Lemma kind_eq (v w : dval) : kind v = kind w ->
  (is_int v /\ is_int w) \/ (~ is_int v /\ ~ is_int w /\
    match v, w with
    | VString _, VString _ | VIri _, VIri _ | VLang _ _, VLang _ _ | VFloat _, VFloat _ | VDouble _, VDouble _
    | VBool _, VBool _ | VOther _ _, VOther _ _ => True
    | _, _ => False
    end).
Proof.
  intros E. destruct (is_int_dec v) as [I|N], (is_int_dec w) as [I'|N'].
  - auto.
  - rewrite (kind_int v) in E by auto. destruct (kind_other w N'). lia.
  - rewrite (kind_int w) in E by auto. destruct (kind_other v N). lia.
  - right. split; auto. split; auto. destruct (kind_other v N) as [E1 _]. destruct (kind_other w N') as [E2 _].
    rewrite E1, E2 in E. unfold pos in E.
    destruct v; cbn in N; try tauto; destruct w; cbn in N'; try tauto; cbn in E; try discriminate; auto.
Qed.

Lemma inner_eq (v w : dval) : valid v -> valid w -> kind v = kind w -> (inner v w = Eq <-> dval_eqb v w = true).
Proof.
  intros V W K. destruct (kind_eq v w K) as [[I I']|(N & N' & M)].
  - rewrite int_eqb by auto. rewrite Z.eqb_eq, <- Z.compare_eq_iff.
    destruct v; cbn in I; try tauto; destruct w; cbn in I'; try tauto; reflexivity.
  - destruct v; try contradiction; destruct w; try contradiction; cbn [inner dval_eqb];
      rewrite ?then_cmp_eq, ?andb_true_iff, ?str_cmp_eq, ?str_eqb_eq; try tauto.
    + apply (gf_cmp32 F G).
    + apply (gf_cmp64 F G).
    + destruct b, b0; cbn; split; congruence.
Qed.
Lemma inner_sym (v w : dval) : kind v = kind w -> inner w v = CompOpp (inner v w).
Proof.
  intros K. destruct (kind_eq v w K) as [[I I']|(N & N' & M)].
  - destruct v; cbn in I; try tauto; destruct w; cbn in I'; try tauto; apply Z.compare_antisym.
  - destruct v; try contradiction; destruct w; try contradiction; cbn [inner].
    + apply str_cmp_sym.
    + rewrite (str_cmp_sym s), (str_cmp_sym tag). apply then_cmp_opp.
    + apply str_cmp_sym.
    + apply (gf_cmp_sym32 F G).
    + apply (gf_cmp_sym64 F G).
    + destruct b, b0; reflexivity.
    + rewrite (str_cmp_sym lex), (str_cmp_sym dt). apply then_cmp_opp.
Qed.
Lemma inner_trans (u v w : dval) : kind u = kind v -> kind v = kind w -> inner u v = Lt -> inner v w = Lt -> inner u w = Lt.
Proof.
  intros K1 K2. destruct (kind_eq u v K1) as [[I I']|(N & N' & M)].
  - destruct (kind_eq v w K2) as [[_ I2]|(N & _)]; [|contradiction].
    assert (forall a b : dval, is_int a -> is_int b -> inner a b = (raw_int a ?= raw_int b)) as Q.
    { intros a b Ia Ib. destruct a; cbn in Ia; try tauto; destruct b; cbn in Ib; try tauto; reflexivity. }
    rewrite !Q by auto. rewrite !Z.compare_lt_iff. lia.
  - destruct (kind_eq v w K2) as [[I _]|(_ & N2 & M2)]; [contradiction|].
    destruct u; try contradiction; destruct v; try contradiction; destruct w; try contradiction; cbn [inner].
    + apply str_cmp_trans.
    + apply pair_cmp_trans.
    + apply str_cmp_trans.
    + apply (gf_cmp_trans32 F G).
    + apply (gf_cmp_trans64 F G).
    + destruct b, b0, b1; cbn; congruence.
    + apply pair_cmp_trans.
Qed.

Theorem cmp_total (v w : dval) : valid v -> valid w -> exists c, dval_cmp v w = Some c /\ dval_cmp w v = Some (CompOpp c) /\ (c = Eq <-> dval_eqb v w = true).
Proof.
  intros V W. rewrite !cmp_kind by auto. exists (then_cmp (kind v ?= kind w) (inner v w)). split; auto.
  destruct (Z.compare_spec (kind v) (kind w)) as [E|E|E]; cbn [then_cmp].
  - rewrite E, Z.compare_refl. cbn [then_cmp]. rewrite (inner_sym v w E). split; auto. now apply inner_eq.
  - assert ((kind w ?= kind v) = Gt) as -> by (apply Z.compare_gt_iff; lia). split; auto. split; [discriminate|]. intros H. exfalso.
    destruct (is_int_dec v) as [I|N], (is_int_dec w) as [I'|N'].
    + rewrite (kind_int v), (kind_int w) in E by auto. lia.
    + destruct (int_eqb_other v w I N'); congruence.
    + destruct (int_eqb_other w v I' N); congruence.
    + destruct (kind_other v N) as [E1 _]. destruct (kind_other w N') as [E2 _]. rewrite E1, E2 in E. unfold pos in E.
      destruct v; cbn in N; try tauto; destruct w; cbn in N'; try tauto; try discriminate H; cbn in E; lia.
  - assert ((kind w ?= kind v) = Lt) as -> by (apply Z.compare_lt_iff; lia). split; auto. split; [discriminate|]. intros H. exfalso.
    destruct (is_int_dec v) as [I|N], (is_int_dec w) as [I'|N'].
    + rewrite (kind_int v), (kind_int w) in E by auto. lia.
    + destruct (int_eqb_other v w I N'); congruence.
    + destruct (int_eqb_other w v I' N); congruence.
    + destruct (kind_other v N) as [E1 _]. destruct (kind_other w N') as [E2 _]. rewrite E1, E2 in E. unfold pos in E.
      destruct v; cbn in N; try tauto; destruct w; cbn in N'; try tauto; try discriminate H; cbn in E; lia.
Qed.
Theorem cmp_trans (u v w : dval) : valid u -> valid v -> valid w -> dval_cmp u v = Some Lt -> dval_cmp v w = Some Lt -> dval_cmp u w = Some Lt.
Proof.
  intros U V W. rewrite !cmp_kind by auto. intros [= A] [= B]. f_equal.
  destruct (Z.compare_spec (kind u) (kind v)) as [E|E|E]; cbn [then_cmp] in A; try discriminate;
    destruct (Z.compare_spec (kind v) (kind w)) as [E'|E'|E']; cbn [then_cmp] in B; try discriminate.
  - rewrite E, E', Z.compare_refl. cbn [then_cmp]. eapply inner_trans; eauto.
  - assert ((kind u ?= kind w) = Lt) as -> by (apply Z.compare_lt_iff; lia). reflexivity.
  - assert ((kind u ?= kind w) = Lt) as -> by (apply Z.compare_lt_iff; lia). reflexivity.
  - assert ((kind u ?= kind w) = Lt) as -> by (apply Z.compare_lt_iff; lia). reflexivity.
Qed.

Lemma num_canon_valid (v : dval) : num_canon v -> valid v.
Proof. destruct v; cbn [num_canon valid]; auto; unfold i64, i64_lo, i64_hi, u64_hi; lia. Qed.
Lemma typed_valid s dt (v : dval) : new_from_typed_literal s dt = POk v -> valid v.
Proof.
  intros E. destruct (typed_result s dt v E) as [C|C]; [now apply num_canon_valid|]. destruct v; cbn; tauto.
Qed.
End P.
