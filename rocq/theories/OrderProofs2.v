(** Proofs about OrderModel: the orders of all rules. *)
From Coq Require Import List Arith ZArith Bool Lia Permutation Sorted.
From Verif Require Import TableModel EngineModel PermModel PermProofs OrderModel OrderSpec EngineProofs1 EngineProofs4 EngineProofs5 OrderProofs.
Import ListNotations.

(** ** Sets of column orders *)
Definition cwf (c : corders) : Prop := forall p l y, co_get c p = Some l -> In y l -> wfp y.
(** A column order equivalent to [x] is available. *)
Definition avail (c : corders) (p : tag) (x : perm) : Prop :=
  exists l y, co_get c p = Some l /\ In y l /\ forall i, get y i = get x i.
Definition cmono (c c' : corders) : Prop := forall p x, avail c p x -> avail c' p x.

Lemma co_get_set c p l q : co_get (co_set c p l) q = if q =? p then Some l else co_get c q.
Proof.
  induction c as [|[r l0] c IH]; simpl.
  - destruct (q =? p); auto.
  - destruct (Nat.eqb_spec p r) as [->|Hn]; simpl.
    + destruct (q =? r); auto.
    + destruct (Nat.eqb_spec q r) as [->|]; auto. destruct (Nat.eqb_spec r p); auto. congruence.
Qed.

Lemma co_add_spec c p x : cwf c -> wfp x -> cwf (co_add c p x) /\ cmono c (co_add c p x) /\ avail (co_add c p x) p x.
Proof.
  intros Hc Hx. unfold co_add. set (l := match co_get c p with Some l => l | None => [] end).
  assert (Hl : forall y, In y l -> wfp y).
  { intros y Hy. unfold l in Hy. destruct (co_get c p) as [l0|] eqn:E; [eapply Hc; eauto|destruct Hy]. }
  set (l' := if existsb (perm_eqb x) l then l else l ++ [x]).
  assert (Hi : incl l l') by (unfold l'; destruct (existsb (perm_eqb x) l); [intros y; auto|apply incl_appl; intros y; auto]).
  split; [|split].
  - intros q m y Hm Hy. rewrite co_get_set in Hm. destruct (Nat.eqb_spec q p) as [->|]; [|eapply Hc; eauto].
    injection Hm as <-. unfold l' in Hy. destruct (existsb (perm_eqb x) l); auto. apply in_app_iff in Hy. destruct Hy as [|[<-|[]]]; auto.
  - intros q z (m & y & Hm & Hy & Hg). destruct (Nat.eq_dec q p) as [->|Hn].
    + exists l', y. rewrite co_get_set, Nat.eqb_refl. split; auto. split; auto. apply Hi. unfold l. now rewrite Hm.
    + exists m, y. rewrite co_get_set. destruct (Nat.eqb_spec q p); [congruence|]. auto.
  - destruct (existsb (perm_eqb x) l) eqn:E.
    + apply existsb_exists in E. destruct E as (y & Hy & Ey). exists l', y. rewrite co_get_set, Nat.eqb_refl. split; auto. split; auto.
      intros i. symmetry. revert i. apply eqb_spec; auto.
    + exists l', x. rewrite co_get_set, Nat.eqb_refl. split; auto. split; auto. unfold l'. apply in_app_iff. simpl. auto.
Qed.

(** ** The choice of the next variable *)
Lemma count_orders_total c L atoms : NoDup L -> forall acc, exists r, count_orders c (canon L) atoms acc = Some r.
Proof.
  intros HL. induction atoms as [|[p xs] atoms IH]; intros acc; simpl; eauto. destruct (co_get c p); auto.
  destruct (column_order_spec L xs HL) as (x & E & _). unfold canon in *. rewrite E. apply IH.
Qed.

Lemma mapM_total {A B} (f : A -> option B) l : (forall x, In x l -> exists y, f x = Some y) -> exists ys, mapM f l = Some ys.
Proof.
  induction l as [|x l IH]; simpl; eauto. intros H. destruct (H x) as (y & ->); auto. destruct IH as (ys & ->); auto. eauto.
Qed.
Lemma mapM_Forall2 {A B} (f : A -> option B) l : forall ys, mapM f l = Some ys -> Forall2 (fun x y => f x = Some y) l ys.
Proof.
  induction l as [|x l IH]; simpl; intros ys H; [injection H as <-; constructor|].
  destruct (f x) eqn:E; [|discriminate]. destruct (mapM f l); [|discriminate]. injection H as <-. constructor; auto.
Qed.

Lemma min_ratio_in l : l <> [] -> exists m, min_ratio l = Some m /\ In m l.
Proof.
  destruct l as [|x l]; [congruence|]. intros _. simpl.
  assert (H : forall x, In (fold_left (fun m y => if ratio_lt y m then y else m) l x) (x :: l)).
  { induction l as [|y l IH]; intros z; simpl; auto. destruct (ratio_lt y z).
    - destruct (IH y) as [<-|]; auto.
    - destruct (IH z) as [<-|]; auto. }
  eexists. split; [reflexivity|]. apply H.
Qed.

Lemma filter_tries_spec vs L atoms c pf : NoDup L -> vs <> [] -> (forall v, In v vs -> ~ In v L) ->
  exists l, filter_tries vs (canon L) atoms c pf = Some l /\ l <> [] /\ incl l vs.
Proof.
  intros HL Hne Hd. unfold filter_tries.
  destruct (mapM_total (ratio c (canon L) (filter (fun a => pf (fst a)) atoms)) vs) as (rs & E).
  { intros v Hv. unfold ratio. rewrite push_canon by auto. apply count_orders_total. apply NoDup_snoc; auto. }
  rewrite E. apply mapM_Forall2 in E.
  destruct (min_ratio_in rs) as (m & -> & Hm).
  { intros ->. inversion E; subst; auto. }
  eexists. split; [reflexivity|]. split.
  - apply In_nth_error in Hm. destruct Hm as (k & Hk).
    assert (Hl : length vs = length rs) by (clear - E; induction E; simpl; auto).
    destruct (nth_error vs k) as [v|] eqn:Ev; [|apply nth_error_None in Ev; assert (k < length rs) by (apply nth_error_Some; congruence); lia].
    assert (Hin : In (v, m) (combine vs rs)).
    { clear - Hk Ev. revert vs rs Hk Ev. induction k as [|k IH]; intros [|w vs] [|r rs] Hk Ev; try discriminate; simpl in *.
      - injection Hk as ->. injection Ev as ->. auto.
      - right. auto. }
    set (f := fun vr : var * (nat * nat) => (fst (snd vr) =? fst m) && (snd (snd vr) =? snd m)).
    assert (Hc : In v (map fst (filter f (combine vs rs)))).
    { apply in_map_iff. exists (v, m). split; auto. apply filter_In. split; auto. unfold f. simpl. now rewrite !Nat.eqb_refl. }
    intros E0. fold f in E0. rewrite E0 in Hc. destruct Hc.
  - intros v Hv. apply in_map_iff in Hv. destruct Hv as ([w r] & <- & Hw). apply filter_In in Hw. destruct Hw as [Hw _].
    now apply in_combine_l in Hw.
Qed.

Lemma next_var_spec c idb atoms todo L : NoDup L -> todo <> [] -> (forall v, In v todo -> ~ In v L) ->
  exists v, next_var c idb atoms todo (canon L) = Some v /\ In v todo /\ forall u w, In u L -> In w todo -> linked atoms u w -> exists u', In u' L /\ linked atoms u' v.
Proof.
  intros HL Hne Hd. unfold next_var. set (cart := filter_cartesian todo (canon L) atoms).
  assert (Hlk : forall v, existsb (fun a : atom => memv v (snd a) && existsb (vo_contains (canon L)) (snd a)) atoms = true <->
            exists u, In u L /\ linked atoms u v).
  { intros v. rewrite existsb_exists. split.
    - intros (a & Ha & H). apply andb_prop in H. destruct H as [H1 H2]. apply memv_in in H1. apply existsb_exists in H2.
      destruct H2 as (u & Hu & Hc). apply contains_canon in Hc. exists u. split; auto. exists a. auto.
    - intros (u & Hu & a & Ha & H1 & H2). exists a. split; auto. apply andb_true_intro. split; [now apply memv_in|].
      apply existsb_exists. exists u. split; auto. now apply contains_canon. }
  assert (Hc : cart <> [] /\ incl cart todo /\ forall v, In v cart -> forall u w, In u L -> In w todo -> linked atoms u w -> exists u', In u' L /\ linked atoms u' v).
  { unfold cart, filter_cartesian. set (f := fun v => _). destruct (filter f todo) as [|x l] eqn:Ef.
    - split; auto. split; [intros x; auto|]. intros v Hv u w Hu Hw Hl. exfalso.
      assert (Hin : In w (filter f todo)) by (apply filter_In; split; auto; apply Hlk; eauto). rewrite Ef in Hin. destruct Hin.
    - split; [discriminate|]. rewrite <- Ef. split; [intros y Hy; apply filter_In in Hy; tauto|].
      intros v Hv u w _ _ _. apply filter_In in Hv. apply Hlk. tauto. }
  destruct Hc as (C1 & C2 & C3).
  destruct (filter_tries_spec cart L atoms c idb HL C1) as (l1 & -> & N1 & I1); [auto|].
  destruct (filter_tries_spec l1 L atoms c (fun p => negb (idb p)) HL N1) as (l2 & -> & N2 & I2); [auto|].
  destruct l2 as [|v l2]; [congruence|]. exists v. simpl. split; auto.
  assert (Hv : In v cart) by (apply I1, I2; simpl; auto). split; auto. intros u w Hu Hw Hl. eapply C3; eauto.
Qed.

(** ** The loop for one rule *)
Definition covered (c : corders) (atoms : list atom) (L : list var) : Prop :=
  forall p xs, In (p, xs) atoms -> xs <> [] -> incl xs L -> exists x, column_order_for xs (canon L) = Some x /\ avail c p x.

Lemma cmono_trans c1 c2 c3 : cmono c1 c2 -> cmono c2 c3 -> cmono c1 c3.
Proof. intros H1 H2 p x H. auto. Qed.

Lemma update_orders_spec atoms L v : NoDup L -> forall c, cwf c -> exists c', update_orders c (canon L) v atoms = Some c' /\ cwf c' /\ cmono c c' /\
  forall p xs, In (p, xs) atoms -> In v xs -> incl xs L -> exists x, column_order_for xs (canon L) = Some x /\ avail c' p x.
Proof.
  intros HL. induction atoms as [|[p xs] atoms IH]; intros c Hc; cbn [update_orders].
  - exists c. split; auto. split; auto. split; [intros ? ? ?; auto|intros ? ? []].
  - destruct (memv v xs && forallb (vo_contains (canon L)) xs) eqn:E.
    + destruct (column_order_spec L xs HL) as (x & Ex & Hx & _). rewrite Ex. destruct (co_add_spec c p x Hc Hx) as (A1 & A2 & A3).
      destruct (IH _ A1) as (c' & -> & B1 & B2 & B3). exists c'. split; auto. split; auto. split; [eapply cmono_trans; eauto|].
      intros q ys [Eq|Hq] Hv Hi; [|eauto]. injection Eq as <- <-. exists x. auto.
    + destruct (IH c Hc) as (c' & -> & B1 & B2 & B3). exists c'. split; auto. split; auto. split; auto.
      intros q ys [Eq|Hq] Hv Hi; [|eauto]. injection Eq as <- <-. exfalso. apply andb_false_iff in E. destruct E as [E|E].
      * apply memv_false in E. auto.
      * assert (forallb (vo_contains (canon L)) xs = true); [|congruence]. apply forallb_forall. intros w Hw. apply contains_canon. auto.
Qed.

Definition conn_from (atoms : list atom) (L M : list var) : Prop :=
  forall M1 v M2, M = M1 ++ v :: M2 -> forall u w, In u (L ++ M1) -> In w M2 -> linked atoms u w ->
    exists u', In u' (L ++ M1) /\ linked atoms u' v.

Lemma order_loop_spec idb atoms : forall fuel c todo L, cwf c -> NoDup (L ++ todo) -> length todo <= fuel -> covered c atoms L ->
  exists M c', order_loop fuel c idb atoms todo (canon L) = Some (canon (L ++ M), c') /\ Permutation M todo /\ cwf c' /\ cmono c c' /\ conn_from atoms L M /\ covered c' atoms (L ++ M).
Proof.
  induction fuel as [|f IH]; intros c todo L Hc Hn Hf Hcov.
  - destruct todo; [|simpl in Hf; lia]. exists [], c. rewrite app_nil_r. simpl. split; auto. split; auto. split; auto.
    split; [intros ? ? ?; auto|]. split; auto. intros M1 v M2 E. destruct M1; discriminate.
  - destruct todo as [|r0 rem0] eqn:Er.
    { exists [], c. rewrite app_nil_r. simpl. split; auto. split; auto. split; auto.
      split; [intros ? ? ?; auto|]. split; auto. intros M1 v M2 E. destruct M1; discriminate. }
    rewrite <- Er in *. assert (Hne : todo <> []) by (rewrite Er; discriminate).
    assert (Eu : order_loop (S f) c idb atoms todo (canon L) =
      match next_var c idb atoms todo (canon L) with
      | None => None
      | Some v => match update_orders c (vo_push (canon L) v) v atoms with
                  | None => None
                  | Some c' => order_loop f c' idb atoms (filter (fun w => negb (w =? v)) todo) (vo_push (canon L) v)
                  end
      end) by (rewrite Er; reflexivity).
    rewrite Eu. clear Eu Er r0 rem0.
    assert (HL : NoDup L) by (eapply NoDup_app_l; eauto).
    assert (Hd : forall v, In v todo -> ~ In v L).
    { intros v Hv Hl. apply in_split in Hv. destruct Hv as (a & b & ->). rewrite app_assoc in Hn. apply NoDup_remove_2 in Hn. apply Hn. rewrite !in_app_iff. auto. }
    destruct (next_var_spec c idb atoms todo L HL Hne Hd) as (v & -> & Hv & Hl).
    rewrite push_canon by auto.
    assert (HL' : NoDup (L ++ [v])) by (apply NoDup_snoc; auto).
    destruct (update_orders_spec atoms (L ++ [v]) v HL' c Hc) as (c1 & -> & U1 & U2 & U3).
    assert (Hrem : NoDup todo). { clear - Hn. induction L; auto. inversion Hn; auto. }
    assert (Hp : Permutation todo (v :: filter (fun w => negb (w =? v)) todo)).
    { apply NoDup_Permutation; auto.
      - constructor; [|now apply NoDup_filter]. intros Hc'. apply filter_In in Hc'. rewrite Nat.eqb_refl in Hc'. destruct Hc'. discriminate.
      - intros w. simpl. rewrite filter_In. destruct (Nat.eqb_spec w v) as [->|Hw]; [split; auto|]. simpl.
        split; [auto|]. intros [?|[? _]]; auto. congruence. }
    destruct (IH c1 (filter (fun w => negb (w =? v)) todo) (L ++ [v])) as (M & c' & E & P1 & P2 & P3 & P4 & P5); auto.
    + rewrite <- app_assoc. simpl. eapply Permutation_NoDup; [|exact Hn]. now apply Permutation_app_head.
    + apply Permutation_length in Hp. simpl in Hp. lia.
    + intros p xs Hin Hx Hi. destruct (in_dec Nat.eq_dec v xs) as [Hvx|Hvx]; [apply U3; auto|].
      assert (Hi' : incl xs L). { intros w Hw. specialize (Hi w Hw). apply in_app_iff in Hi. destruct Hi as [|[<-|[]]]; auto. contradiction. }
      destruct (Hcov p xs Hin Hx Hi') as (x & Ex & Ax). exists x. split; auto. rewrite column_order_more; auto.
    + rewrite E. exists (v :: M), c'. rewrite <- app_assoc. rewrite <- app_assoc in P5. simpl in *. split; auto. split; [rewrite Hp; auto|]. split; auto.
      split; [eapply cmono_trans; eauto|]. split; auto.
      intros M1 z M2 EM u w Hu Hw Hlk. destruct M1 as [|m M1]; simpl in EM.
      * injection EM as -> ->. rewrite app_nil_r in *. assert (Hq := Permutation_in w P1 Hw). apply filter_In in Hq.
        apply (Hl u w); auto; apply Hq.
      * injection EM as -> ->. replace (L ++ m :: M1) with ((L ++ [m]) ++ M1) in * by (rewrite <- app_assoc; reflexivity).
        eapply P4; eauto.
Qed.

(** ** The order of one rule *)
Lemma permute_by_spec {A} (idx : list nat) (data : list A) : Permutation idx (seq 0 (length data)) ->
  exists l, permute_by idx data = Some l /\ Permutation l data.
Proof.
  intros H. pose proof (Permutation_length H) as Hl. rewrite seq_length in Hl. unfold permute_by. rewrite Hl, Nat.ltb_irrefl, Nat.sub_diag. simpl.
  rewrite app_nil_r.
  destruct (mapM_total (nth_error data) idx) as (l & E).
  { intros i Hi. apply (Permutation_in i) in H; auto. apply in_seq in H. destruct (nth_error data i) as [y|] eqn:Ei; eauto.
    apply nth_error_None in Ei. lia. }
  exists l. split; auto.
  apply mapM_Forall2 in E.
  destruct data as [|d data'] eqn:Ed; [apply Permutation_sym, Permutation_nil in H; subst; inversion E; constructor|]. rewrite <- Ed in *. clear Ed data'.
  assert (El : l = map (fun i => nth i data d) idx).
  { clear - E. induction E as [|i y idx l Hi _ IH]; simpl; auto. rewrite IH. f_equal. now rewrite (nth_error_nth _ _ d Hi). }
  assert (Es : map (fun i => nth i data d) (seq 0 (length data)) = data).
  { apply nth_ext with (d := d) (d' := d); [now rewrite map_length, seq_length|]. intros n Hn. rewrite map_length, seq_length in Hn.
    rewrite (nth_indep _ d (nth 0 data d)) by (rewrite map_length, seq_length; auto).
    rewrite (map_nth (fun i => nth i data d)), seq_nth by auto. reflexivity. }
  apply (Permutation_map (fun i => nth i data d)) in H. rewrite Es in H. now rewrite El.
Qed.

Lemma keys_length it n : length (iteration_keys it n) = n.
Proof.
  destruct it; unfold iteration_keys; rewrite ?rev_length, ?seq_length; auto. rewrite app_length, rev_length, !map_length, !seq_length.
  assert (n / 2 <= n) by (apply Nat.div_le_upper_bound; lia). lia.
Qed.
Lemma permuted_spec {A} it (data : list A) : exists l, permuted it data = Some l /\ Permutation l data.
Proof.
  apply permute_by_spec. rewrite <- (keys_length it (length data)) at 2. apply sort_idx_spec.
  - intros a b. destruct (Nat.leb_spec a b); auto. right. apply Nat.leb_le. lia.
  - intros a b c Ha Hb. apply Nat.leb_le in Ha, Hb. apply Nat.leb_le. lia.
Qed.

Definition good_order (atoms : list atom) (c : corders) (o : vorder) : Prop :=
  exists L, o = canon L /\ lists_exactly L (atom_vars atoms) /\ connected atoms L /\ covered c atoms L.

Lemma dedup_spec l : NoDup (dedup l) /\ forall v, In v (dedup l) <-> In v l.
Proof.
  unfold dedup. destruct (dedup_acc l []) as (t & -> & H1 & H2 & H3). simpl in *. split; [apply H2; constructor|].
  intros v. split; auto.
Qed.

Lemma order_for_rule_spec it c idb atoms : cwf c -> exists o c', order_for_rule it c idb atoms = Some (o, c') /\ cwf c' /\ cmono c c' /\ good_order atoms c' o.
Proof.
  intros Hc. unfold order_for_rule. destruct (dedup_spec (atom_vars atoms)) as [D1 D2].
  destruct (permuted_spec it (dedup (atom_vars atoms))) as (l & -> & Hp).
  destruct (order_loop_spec idb atoms (length l) c l []) as (M & c' & E & P1 & P2 & P3 & P4 & P5); auto.
  - simpl. eapply Permutation_NoDup; [apply Permutation_sym, Hp|auto].
  - intros p xs _ Hx Hi. destruct xs as [|x xs]; [congruence|]. exfalso. apply (Hi x). simpl. auto.
  - change (canon []) with ([] : vorder) in E. rewrite E. simpl in *. exists (canon M), c'. split; auto. split; auto. split; auto.
    exists M. split; auto. split; [|split; auto].
    + assert (Hq : Permutation M (dedup (atom_vars atoms))) by now rewrite P1.
      split; [eapply Permutation_NoDup; [apply Permutation_sym, Hq|auto]|].
      intros v. rewrite <- D2. split; apply Permutation_in; auto using Permutation_sym.
Qed.

Lemma good_mono atoms c c' o : cmono c c' -> good_order atoms c o -> good_order atoms c' o.
Proof.
  intros Hm (L & H1 & H2 & H3 & H4). exists L. split; auto. split; auto. split; auto.
  intros p xs Hp Hx Hi. destruct (H4 p xs Hp Hx Hi) as (x & Ex & Ax). exists x. auto.
Qed.

(** ** All rules *)
Lemma best_rule_in c idb rules : rules <> [] -> exists x, best_rule c idb rules = Some x /\ In x rules.
Proof.
  destruct rules as [|x l]; [congruence|]. intros _. simpl. eexists. split; [reflexivity|].
  revert x. induction l as [|y l IH]; intros z; simpl; auto. destruct (present_lt _ _).
  - destruct (IH z) as [<-|]; auto.
  - destruct (IH y) as [<-|]; auto.
Qed.

Definition result_ok (bodies : list (list atom)) (c : corders) (res : list (nat * vorder)) : Prop :=
  forall i o, In (i, o) res -> exists atoms, nth_error bodies i = Some atoms /\ good_order atoms c o.

Lemma rules_loop_spec it idb bodies : forall fuel c rules res, cwf c -> NoDup (map fst rules) -> length rules <= fuel ->
  (forall i atoms, In (i, atoms) rules -> nth_error bodies i = Some atoms) -> result_ok bodies c res ->
  exists res' c', rules_loop fuel it c idb rules res = Some (res', c') /\ cwf c' /\ cmono c c' /\ result_ok bodies c' res' /\
    Permutation (map fst res') (map fst res ++ map fst rules).
Proof.
  induction fuel as [|f IH]; intros c rules res Hc Hn Hf Hr Hres.
  - destruct rules; [|simpl in Hf; lia]. exists res, c. simpl. rewrite app_nil_r. split; auto. split; auto. split; [intros ? ? ?; auto|auto].
  - destruct rules as [|r0 l0] eqn:Er.
    { exists res, c. simpl. rewrite app_nil_r. split; auto. split; auto. split; [intros ? ? ?; auto|auto]. }
    rewrite <- Er in *. destruct (best_rule_in c idb rules) as ([i atoms] & Eb & Hin); [rewrite Er; discriminate|].
    destruct (order_for_rule_spec it c idb atoms Hc) as (o & c1 & Eo & O1 & O2 & O3).
    assert (Eu : rules_loop (S f) it c idb rules res =
       rules_loop f it c1 idb (filter (fun x => negb (fst x =? i)) rules) (res ++ [(i, o)])).
    { rewrite Er in *. cbn [rules_loop]. rewrite Eb, Eo. reflexivity. }
    rewrite Eu. clear Eu Er r0 l0.
    assert (Hp : Permutation (map fst rules) (i :: map fst (filter (fun x => negb (fst x =? i)) rules))).
    { clear - Hn Hin. induction rules as [|[j a] rules IH]; [destruct Hin|]. simpl in *. inversion Hn as [|? ? N1 N2]; subst.
      destruct (Nat.eqb_spec j i) as [->|Hd]; simpl.
      - constructor. assert (E : filter (fun x : nat * list atom => negb (fst x =? i)) rules = rules); [|now rewrite E].
        apply filter_all. intros [k b] Hk. simpl. apply negb_true_iff, Nat.eqb_neq. intros ->. apply N1. apply in_map_iff. exists (i, b). auto.
      - destruct Hin as [E|Hin]; [congruence|]. rewrite (IH N2 Hin). apply perm_swap. }
    destruct (IH c1 (filter (fun x => negb (fst x =? i)) rules) (res ++ [(i, o)])) as (res' & c' & E & R1 & R2 & R3 & R4); auto.
    + apply (Permutation_NoDup Hp) in Hn. now inversion Hn.
    + apply Permutation_length in Hp. simpl in Hp. rewrite !map_length in Hp. lia.
    + intros j a Hj. apply filter_In in Hj. apply Hr. tauto.
    + intros j o' Hj. apply in_app_iff in Hj. destruct Hj as [Hj|[Hj|[]]].
      * destruct (Hres j o' Hj) as (a & Ha & Hg). exists a. split; auto. eapply good_mono; eauto.
      * injection Hj as <- <-. exists atoms. split; auto.
    + exists res', c'. split; auto. split; auto. split; [eapply cmono_trans; eauto|]. split; auto.
      rewrite R4, map_app, <- app_assoc. simpl. rewrite Hp. reflexivity.
Qed.

(** sorting by key *)
Lemma ins_key_perm {A} (x : nat * A) l : Permutation (x :: l) (ins_key x l).
Proof. induction l as [|y l IH]; simpl; auto. destruct (fst y <=? fst x); auto. rewrite perm_swap. constructor. exact IH. Qed.
Lemma sort_key_perm {A} (l : list (nat * A)) : Permutation l (sort_key l).
Proof.
  unfold sort_key. assert (H : forall acc, Permutation (acc ++ l) (fold_left (fun acc x => ins_key x acc) l acc)); [|apply (H [])].
  induction l as [|x l IH]; intros acc; simpl; [now rewrite app_nil_r|]. rewrite <- IH. rewrite <- (ins_key_perm x acc). simpl. symmetry. apply Permutation_middle.
Qed.
Lemma ins_key_sorted {A} (x : nat * A) l : StronglySorted le (map fst l) -> StronglySorted le (map fst (ins_key x l)).
Proof.
  induction l as [|y l IH]; simpl; intros H; [repeat constructor|]. inversion H as [|? ? H1 H2]; subst. rewrite Forall_forall in H2.
  destruct (Nat.leb_spec (fst y) (fst x)); simpl.
  - constructor; auto. rewrite Forall_forall. intros z Hz. apply (Permutation_in z (Permutation_sym (Permutation_map fst (ins_key_perm x l)))) in Hz.
    destruct Hz as [<-|Hz]; auto.
  - constructor; auto. constructor; [lia|]. rewrite Forall_forall. intros z Hz. specialize (H2 z Hz). lia.
Qed.
Lemma sort_key_sorted {A} (l : list (nat * A)) : StronglySorted le (map fst (sort_key l)).
Proof.
  unfold sort_key. assert (H : forall acc, StronglySorted le (map fst acc) -> StronglySorted le (map fst (fold_left (fun acc x => ins_key x acc) l acc))).
  { induction l as [|x l IH]; simpl; auto. intros acc Ha. apply IH. now apply ins_key_sorted. }
  apply H. constructor.
Qed.

Lemma sorted_perm_eq (l : list nat) : forall l', StronglySorted le l -> StronglySorted le l' -> Permutation l l' -> l = l'.
Proof.
  induction l as [|x l IH]; intros l' Hs Hs' Hp; [apply Permutation_nil in Hp; auto|].
  destruct l' as [|y l']; [apply Permutation_sym, Permutation_nil in Hp; discriminate|].
  inversion Hs as [|? ? S1 S2]; inversion Hs' as [|? ? S1' S2']; subst. rewrite Forall_forall in *.
  assert (x = y).
  { assert (Hx : In x (y :: l')) by (apply (Permutation_in x Hp); simpl; auto).
    assert (Hy : In y (x :: l)) by (apply (Permutation_in y (Permutation_sym Hp)); simpl; auto).
    destruct Hx as [?|Hx]; auto. destruct Hy as [?|Hy]; auto. specialize (S2 y Hy). specialize (S2' x Hx). lia. }
  subst y. f_equal. apply IH; auto. now apply Permutation_cons_inv in Hp.
Qed.
Lemma seq_sorted n : forall k, StronglySorted le (seq k n).
Proof.
  induction n as [|n IH]; intros k; simpl; constructor; auto. rewrite Forall_forall. intros x Hx. apply in_seq in Hx. lia.
Qed.

Lemma enumerate_spec {A} (l : list A) : map fst (enumerate l) = seq 0 (length l) /\ forall i x, In (i, x) (enumerate l) -> nth_error l i = Some x.
Proof.
  unfold enumerate. assert (H : forall k, map fst (combine (seq k (length l)) l) = seq k (length l) /\
    forall i x, In (i, x) (combine (seq k (length l)) l) -> k <= i /\ nth_error l (i - k) = Some x).
  { induction l as [|y l IH]; intros k; simpl; [split; auto; tauto|]. destruct (IH (S k)) as [H1 H2]. split; [now rewrite H1|].
    intros i x [E|Hi].
    - injection E as <- <-. rewrite Nat.sub_diag. auto.
    - destruct (H2 i x Hi) as [H3 H4]. split; [lia|]. replace (i - k) with (S (i - S k)) by lia. exact H4. }
  destruct (H 0) as [H1 H2]. split; auto. intros i x Hi. destruct (H2 i x Hi) as [_ E]. now rewrite Nat.sub_0_r in E.
Qed.

Lemma build_for_spec it c idb bodies : cwf c -> exists os c', build_for it c idb bodies = Some (os, c') /\ cwf c' /\
  Forall2 (fun atoms o => good_order atoms c' o) bodies os.
Proof.
  intros Hc. unfold build_for. destruct (enumerate_spec bodies) as [E1 E2].
  destruct (rules_loop_spec it idb bodies (length bodies) c (enumerate bodies) []) as (res & c' & -> & R1 & R2 & R3 & R4); auto.
  - rewrite E1. apply seq_NoDup.
  - unfold enumerate. rewrite combine_length, seq_length. lia.
  - intros ? ? [].
  - simpl. exists (map snd (sort_key res)), c'. split; auto. split; auto. simpl in R4. rewrite E1 in R4.
    assert (Ek : map fst (sort_key res) = seq 0 (length bodies)).
    { apply sorted_perm_eq; [apply sort_key_sorted|apply seq_sorted|]. rewrite <- R4. apply Permutation_map, Permutation_sym, sort_key_perm. }
    assert (Ho : result_ok bodies c' (sort_key res)).
    { intros i o Hi. apply R3. eapply Permutation_in; [apply Permutation_sym, sort_key_perm|auto]. }
    clear - Ek Ho. revert Ek Ho. generalize (sort_key res) as l. intros l Ek Ho.
    assert (H : forall k b l, map fst l = seq k (length b) -> (forall i o, In (i, o) l -> exists atoms, nth_error b (i - k) = Some atoms /\ good_order atoms c' o) ->
              Forall2 (fun atoms o => good_order atoms c' o) b (map snd l)).
    { clear. intros k b. revert k. induction b as [|a b IH]; intros k l Hl H; simpl in Hl.
      - destruct l; [constructor|discriminate].
      - destruct l as [|[i o] l]; [discriminate|]. simpl in Hl. injection Hl as -> Hl. simpl. constructor.
        + destruct (H k o) as (a' & Ea & Hg); simpl; auto. rewrite Nat.sub_diag in Ea. injection Ea as <-. auto.
        + apply (IH (S k)); auto. intros j o' Hj. destruct (H j o') as (a' & Ea & Hg); simpl; auto.
          assert (Hjk : S k <= j). { assert (In j (map fst l)) by (apply in_map_iff; exists (j, o'); auto). rewrite Hl in H0. apply in_seq in H0. lia. }
          exists a'. split; auto. replace (j - k) with (S (j - S k)) in Ea by lia. exact Ea. }
    apply (H 0); auto. intros i o Hi. rewrite Nat.sub_0_r. auto.
Qed.

(** good for some set of column orders *)
Definition some_good (atoms : list atom) (o : vorder) : Prop := exists c, good_order atoms c o.

Lemma add_orders_spec bodies : forall all os, Forall2 (fun atoms l => Forall (some_good atoms) l) bodies all ->
  Forall2 some_good bodies os -> exists all', add_orders all os = Some all' /\
  Forall2 (fun atoms l => l <> [] /\ Forall (some_good atoms) l) bodies all'.
Proof.
  induction bodies as [|b bodies IH]; intros all os Ha Ho; inversion Ha as [|? l ? all1 A1 A2]; inversion Ho as [|? o ? os1 O1 O2]; subst.
  - exists []. split; auto.
  - destruct (IH _ _ A2 O2) as (all' & E & H). simpl. rewrite E. simpl. eexists. split; [reflexivity|]. constructor; auto.
    destruct (existsb (fun x => vo_eqb x o) l) eqn:Ex.
    + split; auto. intros ->. discriminate.
    + split; [destruct l; discriminate|]. apply Forall_app. split; auto.
Qed.

Lemma Forall2_weak {A B} (P Q : A -> B -> Prop) l l' : (forall x y, P x y -> Q x y) -> Forall2 P l l' -> Forall2 Q l l'.
Proof. intros H. induction 1; constructor; auto. Qed.

Lemma variants_loop_spec c idb bodies : cwf c -> forall its all cs,
  Forall2 (fun atoms l => (its = [] -> l <> []) /\ Forall (some_good atoms) l) bodies all -> Forall cwf cs ->
  exists all' cs', variants_loop its c idb bodies all cs = Some (all', cs ++ cs') /\ length cs' = length its /\ Forall cwf (cs ++ cs') /\
    Forall2 (fun atoms l => l <> [] /\ Forall (some_good atoms) l) bodies all'.
Proof.
  intros Hc. induction its as [|it its IH]; intros all cs Ha Hcs; cbn [variants_loop].
  - exists all, []. rewrite app_nil_r. split; auto. split; auto. split; auto. eapply Forall2_weak; [|exact Ha]. simpl. intros x y [H1 H2]. auto.
  - destruct (build_for_spec it c idb bodies Hc) as (os & c' & -> & Hc' & Hos).
    destruct (add_orders_spec bodies all os) as (all' & -> & Hall).
    { eapply Forall2_weak; [|exact Ha]. simpl. tauto. }
    { eapply Forall2_weak; [|exact Hos]. intros x y Hg. exists c'. auto. }
    destruct (IH all' (cs ++ [c'])) as (all2 & cs2 & E & L2 & F2 & G2).
    { eapply Forall2_weak; [|exact Hall]. simpl. tauto. }
    { apply Forall_app. split; auto. }
    exists all2, (c' :: cs2). rewrite <- app_assoc in *. simpl in *. split; auto.
Qed.

Lemma build_orders_spec c idb bodies : cwf c -> exists all c1 c2 c3, build_orders c idb bodies = Some (all, [c1; c2; c3]) /\ cwf c1 /\
  Forall2 (fun atoms l => l <> [] /\ Forall (some_good atoms) l) bodies all.
Proof.
  intros Hc. unfold build_orders. destruct (variants_loop_spec c idb bodies Hc [Forward; Backward; InsideOut] (map (fun _ => []) bodies) []) as (all & cs & E & L & F & G); auto.
  - clear. induction bodies; simpl; constructor; auto. split; [discriminate|constructor].
  - simpl in *. destruct cs as [|c1 [|c2 [|c3 [|]]]]; try discriminate. exists all, c1, c2, c3. split; auto. split; auto. now inversion F.
Qed.

Lemma initial_orders_wf pr : cwf (initial_orders pr).
Proof.
  unfold initial_orders. assert (H : forall l c, cwf c -> cwf (fold_left (fun c p => co_set c p [perm_default]) l c)).
  { induction l as [|p l IH]; simpl; auto. intros c Hc. apply IH. intros q m y Hm Hy. rewrite co_get_set in Hm.
    destruct (q =? p); [|eapply Hc; eauto]. injection Hm as <-. destruct Hy as [<-|[]]. apply default_wfp. }
  apply H. intros p l y Hl. discriminate.
Qed.

Lemma aux_body_vars r v : In v (head_vars r) <-> In v (atom_vars (aux_body r)) /\ In v (rule_vars r).
Proof.
  unfold aux_body. destruct (norm_head (r_head r) (S (list_max (rule_vars r)))) as [[atoms os] k'] eqn:E.
  assert (Hle : forall w, In w (rule_vars r) -> w <= list_max (rule_vars r)).
  { intros w Hw. assert (H := proj1 (list_max_le (rule_vars r) _) (le_n _)). rewrite Forall_forall in H. auto. }
  destruct (norm_head_spec _ _ _ _ _ E) as (_ & _ & H & _).
  { intros w Hw. assert (w <= list_max (rule_vars r)); [|lia]. apply Hle. apply in_app_iff. auto. }
  rewrite H. split.
  - intros Hv. split; auto. apply in_app_iff. auto.
  - intros [[Hv|Hv] Hr]; auto. specialize (Hle v Hr). lia.
Qed.

Lemma set_orders_spec c r o : cwf c -> some_good (r_pos r) o -> exists order ex,
  set_orders c r o = Some (mkRule (r_head r) (r_pos r) (r_neg r) (r_ops r) (r_agg r) order ex) /\
  lists_exactly order (rule_vars r) /\
  (exists first rest, order = first ++ rest /\ lists_exactly first (atom_vars (r_pos r)) /\ connected (r_pos r) first) /\
  (is_existential r = true -> lists_exactly ex (head_vars r)) /\ (is_existential r = false -> ex = []).
Proof.
  intros Hc (c0 & L & -> & [HL1 HL2] & Hconn & _). unfold set_orders.
  destruct (extend_canon (rule_vars r) L HL1) as (t & -> & Hn & H1 & H2). rewrite list_canon by auto.
  assert (Hex : lists_exactly (L ++ t) (rule_vars r)).
  { split; auto. intros v. split; auto. intros Hv. apply in_app_iff in Hv. destruct Hv as [Hv|Hv]; auto.
    apply HL2 in Hv. unfold rule_vars. rewrite !in_app_iff. auto. }
  destruct (is_existential r).
  - unfold order_for_aux. destruct (build_orders_spec c (fun _ => false) [aux_body r] Hc) as (all & c1 & c2 & c3 & -> & _ & G).
    inversion G as [|? l ? l' [G1 G2] G3]; subst. inversion G3; subst. destruct l as [|a l]; [congruence|]. inversion G2 as [|? ? G4 _]; subst.
    destruct G4 as (c4 & M & -> & [HM1 HM2] & _).
    rewrite restrict_canon by (auto; apply NoDup_nodup). rewrite list_canon by now apply NoDup_filter. simpl.
    eexists _, _. split; [reflexivity|]. split; auto. split; [exists L, t; repeat split; auto; apply HL2|]. split; [|discriminate].
    intros _. split; [now apply NoDup_filter|]. intros v. rewrite filter_In, memv_in, nodup_In, HM2. symmetry. apply aux_body_vars.
  - eexists _, _. split; [reflexivity|]. split; auto. split; [exists L, t; repeat split; auto; apply HL2|]. split; [discriminate|auto].
Qed.

Definition orders_ok (r r' : rule) : Prop :=
  r_head r' = r_head r /\ r_pos r' = r_pos r /\ r_neg r' = r_neg r /\ r_ops r' = r_ops r /\ r_agg r' = r_agg r /\
  lists_exactly (r_order r') (rule_vars r) /\
  (exists first rest, r_order r' = first ++ rest /\ lists_exactly first (atom_vars (r_pos r)) /\ connected (r_pos r) first) /\
  (is_existential r = true -> lists_exactly (r_exorder r') (head_vars r)).

Lemma compute_orders_spec pr : exists rs, compute_orders pr = Some rs /\ Forall2 orders_ok (p_rules pr) rs.
Proof.
  unfold compute_orders. destruct (build_orders_spec (initial_orders pr) (derived (p_rules pr)) (map r_pos (p_rules pr)) (initial_orders_wf pr))
    as (all & c1 & c2 & c3 & -> & Hc & G).
  destruct (mapM_total pop all) as (os & E).
  { intros l Hl. assert (Hne : l <> []). { clear - G Hl. revert G. generalize (map r_pos (p_rules pr)). intros bs G. induction G as [|? ? ? ? [H1 H2] H3 IH]; [destruct Hl|]. destruct Hl as [<-|Hl]; [exact H1|exact (IH Hl)]. }
    unfold pop. destruct (rev l) as [|x m] eqn:Er; [|exists x; reflexivity]. exfalso. apply Hne. rewrite <- (rev_involutive l), Er. reflexivity. }
  rewrite E. apply mapM_Forall2 in E.
  assert (Hos : Forall2 (fun r o => some_good (r_pos r) o) (p_rules pr) os).
  { revert os E. remember (map r_pos (p_rules pr)) as bodies eqn:Eb. revert Eb. generalize (p_rules pr) as rules. 
    induction G as [|b l bodies all [G1 G2] _ IH]; intros rules Eb os E; destruct rules as [|r rules]; try discriminate; inversion E as [|? o ? os' P1 P2]; subst; constructor.
    - simpl in Eb. injection Eb as -> Eb. rewrite Forall_forall in G2. apply G2. unfold pop in P1. apply in_rev. destruct (rev l); [discriminate|]. injection P1 as <-. simpl. auto.
    - simpl in Eb. injection Eb as -> Eb. apply IH; auto. }
  clear E G. revert Hos. generalize (p_rules pr) as rules. clear all. revert os. intros os rules H. induction H as [|r o rules os H _ IH].
  - exists []. split; auto.
  - destruct IH as (rs & E & Hr). destruct (set_orders_spec c1 r o Hc H) as (order & ex & Es & S1 & S2 & S3 & S4).
    cbn [combine mapM fst snd]. rewrite Es, E. eexists. split; [reflexivity|]. constructor; auto. repeat split; simpl; auto; try apply S1; try apply S3; auto.
Qed.
