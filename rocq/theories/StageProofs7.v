(** Proofs: bodies of rules with several factors. *)
From Coq Require Import List Arith ZArith Bool Lia Permutation Sorted.
From Verif Require Import TableModel EngineModel EngineSpec EngineProofs1 EngineProofs2 EngineProofs3 EngineProofs13.
From Verif Require Import StageModel StageSpec StageProofs1 StageProofs2 StageProofs3 StageProofs4 StageProofs5 StageProofs6.
Import ListNotations.

Lemma applications_lt steps : forall prev, StronglySorted lt (prev :: steps) -> forall l c, In (l, c) (applications prev steps) -> l < c /\ In c steps.
Proof.
  induction steps as [|c0 steps IH]; intros prev Hso l c; [intros []|]. cbn [applications]. apply StronglySorted_inv in Hso. destruct Hso as [Hso Hf].
  intros [E|Hi].
  - injection E as <- <-. rewrite Forall_forall in Hf. split; [apply Hf|]; simpl; auto.
  - destruct (IH c0 Hso l c Hi). simpl. auto.
Qed.

Lemma latest (D : tag -> nat -> row -> Prop) cur nu (l : list atom) : l <> [] -> (forall a, In a l -> exists s, s < cur /\ D (fst a) s (map nu (snd a))) ->
  exists m, m < cur /\ (forall a, In a l -> exists s, s <= m /\ D (fst a) s (map nu (snd a))) /\ exists a, In a l /\ D (fst a) m (map nu (snd a)).
Proof.
  induction l as [|a l IH]; intros Hne H; [contradiction|]. destruct (H a) as (s & Hs & Hd); [simpl; auto|].
  destruct l as [|b l].
  - exists s. split; auto. split; [intros x [<-|[]]; eauto|]. exists a. simpl. auto.
  - destruct IH as (m & Hm & H1 & c & Hc & Hdc); [discriminate | intros x Hx; apply H; simpl in *; auto|].
    destruct (le_lt_dec s m) as [Hle|Hlt].
    + exists m. split; auto. split; [|exists c; simpl in *; auto]. intros x [<-|Hx]; eauto.
    + exists s. split; auto. split; [|exists a; simpl; auto]. intros x [<-|Hx]; eauto. destruct (H1 x Hx) as (u & Hu & Hdu). exists u. split; auto. lia.
Qed.

Section Many.
Context (rd : reader) (D : tag -> nat -> row -> Prop) (Hrd : rd_ok rd D).
Context (r : irule) (G : good_body r) (M : many_factors r).
Context (steps : list nat) (Hso : StronglySorted lt (0 :: steps)).
Context (cur last : nat) (Happ : In (last, cur) (applications 0 steps)) (Hcur : forall c, In c steps -> c <= cur).
Context (Hplan : forall l c, In (l, c) (applications 0 steps) -> exists ns, factor_tables rd r c l = Some ns).
Context (S : interp) (imp : tag -> list row) (Hreq : requested rd r (applications 0 steps) S imp).

Let ps := fold_left add_atom (i_pos r) [].
Let fs := map (fun p : partition_t => FAtoms (snd p)) ps.

Lemma factors_several : length fs <> 1 /\ is_single_join fs = false.
Proof.
  assert (Hl : length ps <> 1).
  { intros E. destruct (m_several r M) as (a & b & Ha & Hb & Hn). apply Hn. pose proof (fold_parts (i_pos r)) as [H1 _ _ _]. fold ps in H1.
    destruct ps as [|p [|q ps']] eqn:Ep; try discriminate. cbn in H1. rewrite app_nil_r in H1.
    apply (fold_linked (i_pos r) p); [fold ps; rewrite Ep; simpl; auto| |]; apply (Permutation_in _ (Permutation_sym H1)); auto. }
  unfold fs. split; [now rewrite map_length|]. unfold is_single_join.
  assert (E : forall l : list partition_t, (forall p, In p l -> snd p <> []) ->
    filter (fun f => match f with FAtoms (_ :: _) => true | _ => false end) (map (fun p : partition_t => FAtoms (snd p)) l) = map (fun p : partition_t => FAtoms (snd p)) l).
  { induction l as [|p l IH]; intros Hl'; [reflexivity|]. cbn [map filter]. destruct (snd p) as [|x y] eqn:Ex; [exfalso; apply (Hl' p); simpl; auto|].
    rewrite IH; [reflexivity|]. intros q Hq. apply Hl'. simpl. auto. }
  rewrite E by apply (fold_parts (i_pos r)). rewrite map_length. now apply Nat.eqb_neq.
Qed.

Lemma tables_nodes c l ns : factor_tables rd r c l = Some ns ->
  exists res, factor_nodes rd (i_order r) fs (i_ops r) (i_neg r) c l = Some res /\ ns = map fst (fst (fst res)).
Proof.
  unfold factor_tables. rewrite (partition_none r G). fold ps fs. destruct (factor_nodes rd (i_order r) fs (i_ops r) (i_neg r) c l) as [res|]; [|discriminate].
  cbn. intros E. injection E as <-. eauto.
Qed.

(** Imported rows are all rows of matches. *)
Lemma match_imported nu p xs : (forall o, body_op (plain r) o -> holds nu o) ->
  (forall q ys, In (q, ys) (i_neg r) -> ~ neg_match (plain r) (before D cur) nu q ys) ->
  (forall a, In a (i_pos r) -> exists s, s < cur /\ D (fst a) s (map nu (snd a))) ->
  In (p, xs) (i_pimp r ++ i_nimp r) -> S p (map nu xs) -> In (map nu xs) (imp p).
Proof.
  intros Ho Hn Hp Hi Hsx. destruct Hreq as [_ Hc]. apply (Hc nu); auto.
  intros k l0 c0 ns0 n0 Ha0 Hns0 Hk0. destruct (tables_nodes c0 l0 ns0 Hns0) as (res0 & Er0 & ->).
  assert (Hall : forall q, In q ps -> factor_of r (snd q) /\ incl (snd q) (i_pos r)).
  { intros q Hq. apply part_factor; auto. apply (m_nonempty r M). }
  destruct (applications_lt steps 0 Hso l0 c0 Ha0) as [Hlt0 _].
  destruct (factors_fit rd D Hrd r G M c0 l0 (Nat.lt_le_incl _ _ Hlt0) ps (i_ops r) (i_neg r) res0) as [L0 _]; auto.
  { apply incl_refl. }
  { exists (fun _ => true). clear. induction (i_neg r) as [|a l IH]; simpl; congruence. }
  { intros q ys o _ (Hoo & _). exact Hoo. }
  assert (Hk : k < length ps). { rewrite <- L0, <- (map_length fst). apply nth_error_Some. congruence. }
  destruct (nth_error ps k) as [q|] eqn:Eq; [|apply nth_error_None in Eq; lia].
  pose proof (nth_error_In _ _ Eq) as Hq. destruct (Hall q Hq) as [Hf Hin].
  destruct (latest D cur nu (snd q)) as (m & Hm & H1 & a & Ha & Hda); [apply (fold_parts (i_pos r)); exact Hq | intros x Hx; apply Hp, Hin, Hx|].
  destruct (applications_lt steps 0 Hso last cur Happ) as [_ Hcs].
  destruct (applications_cover steps 0 m Hso ltac:(lia)) as (l & c & Hlc & Hb); [eauto|].
  destruct (applications_lt steps 0 Hso l c Hlc) as [Hltc Hcc]. pose proof (Hcur c Hcc) as Hcle.
  destruct (Hplan l c Hlc) as (ns & Hns). destruct (tables_nodes c l ns Hns) as (res & Er & Ens).
  destruct (factors_fit rd D Hrd r G M c l (Nat.lt_le_incl _ _ Hltc) ps (i_ops r) (i_neg r) res) as [L R]; auto.
  { apply incl_refl. }
  { exists (fun _ => true). clear. induction (i_neg r) as [|x y IH]; simpl; congruence. }
  { intros q' ys o _ (Hoo & _). exact Hoo. }
  destruct (nth_error (fst (fst res)) k) as [[n vs]|] eqn:En; [|apply nth_error_None in En; lia].
  exists l, c, ns, n. split; auto. split; auto. split; [rewrite Ens, nth_error_map, En; reflexivity|].
  apply (R k q n vs nu); auto.
  - intros q' ys Hq' (nu' & K1 & (s & Hs & K2) & K3). apply (Hn q' ys Hq'). exists nu'. split; auto. split; auto. exists s. split; auto. lia.
  - intros x Hx. destruct (H1 x Hx) as (s & Hs & Hd). exists s. split; auto. lia.
  - exists a, m. split; auto.
Qed.

Theorem many_factors_body n vs ops : import_body rd (fun _ => imp) r cur last = Some (n, vs, ops) ->
  wfn n /\ (forall v, In v (nvars n) <-> bound (plain r) v) /\
  (incl (atom_vars (i_pimp r)) (atom_vars (i_pos r)) \/ i_neg r <> [] \/ (exists o, body_op (plain r) o) -> nvars n = vs) /\
  forall nu, fits nu n <-> import_matches r (before D cur) S nu /\ new_match r D last cur nu.
Proof.
  intros H. unfold import_body in H. rewrite (partition_none r G) in H. fold ps fs in H.
  destruct (g_order r G) as [Ond Oin]. destruct factors_several as [Hl1 Hsj].
  destruct (applications_lt steps 0 Hso last cur Happ) as [Hlt _].
  destruct (factor_nodes rd (i_order r) fs (i_ops r) (i_neg r) cur last) as [[[ns ops2] negs2]|]; [|discriminate].
  apply Nat.eqb_neq in Hl1. rewrite Hl1, Hsj in H. cbv iota in H.
  rewrite negated_none in H by (intros [p xs] o Ha Ho Hi; apply (m_nimp r M p xs o Ha Ho Hi)).
  set (order := restrict (i_order r) (atom_vars (i_pos r) ++ atom_vars (i_pimp r))) in *.
  assert (NDo : NoDup order) by (apply NoDup_filter; exact Ond).
  assert (Hord : forall v, In v order <-> In v (atom_vars (i_pos r ++ i_pimp r))).
  { intros v. unfold order. rewrite atom_vars_app. apply restrict_all. rewrite <- atom_vars_app. exact Oin. }
  destruct (seminaive_spec rd D Hrd true (i_pos r) order cur last) as (j & Ej & J1 & J2 & J3); auto.
  { intros [p xs] Ha. apply (g_atoms r G p). apply in_app_iff. auto. }
  { intros v Hv. apply Hord. rewrite atom_vars_app, in_app_iff. auto. }
  { cbn. lia. }
  rewrite Ej in H.
  destruct (gen_ffn order (i_ops r) (i_neg r)) as [[[[[[vs' fns] fl] l] ops5] kept]|] eqn:Eg; [|discriminate].
  match type of H with match ?t with _ => _ end = _ => destruct t as [j2|] eqn:Ej2; [|discriminate] end.
  destruct (ffn_node rd (vs', fns, fl, l) j2 cur last) as [n2|] eqn:En2; [|discriminate]. cbn [option_map] in H.
  pose proof (f_equal (fun x => match x with Some (m, _, _) => m | None => n2 end) H) as En. cbn in En.
  pose proof (f_equal (fun x => match x with Some (_, w, _) => w | None => vs end) H) as Ev. cbn in Ev.
  subst n2. clear H.
  assert (Hnd2 : forall a, In a (i_pimp r ++ i_nimp r) -> NoDup (snd a)).
  { intros [p xs] Ha. apply (g_atoms r G p), in_app_iff. right. apply in_app_iff. auto. }
  destruct (import_join_spec imp order j (i_pimp r) (i_nimp r) j2 J2 NDo Hnd2) as (K1 & K2 & K3); auto.
  { intros [p xs] Ha v Hv. apply Hord. apply (g_nimp r G p xs Ha v Hv). }
  assert (C : forall v, clo order (i_ops r) v <-> bound (plain r) v).
  { intros v. rewrite bound_plain. apply clo_ext. exact Hord. }
  destruct (ffn_spec rd D Hrd order (i_ops r) (i_neg r) cur last j2 (vs', fns, fl, l) ops5 kept n K1 K2) as (L1 & L2 & L3 & L4 & L5 & L6).
  { intros [p xs] Ha. apply (g_atoms r G p), in_app_iff. right. apply in_app_iff. auto. }
  { intros i k [p xs] [q ys] v Hi Hk Hne Ha Hb _ _. apply C. apply (g_local r G i k p xs q ys v); auto. }
  { exact Eg. }
  { exact En2. }
  split; auto. split; [intros v; rewrite L3; apply C|]. split.
  { intros Hout. rewrite L2. cbn [fst]. rewrite <- Ev.
    pose proof Eg as Eg'. unfold gen_ffn in Eg'. destruct (gen_function_spec order (i_ops r)) as (va & fa & ra & Ef & F1 & F2 & F3 & F4).
    rewrite Ef in Eg'. destruct (gen_filter va ra) as [fb rb] eqn:Efi. destruct (gen_negation va (i_neg r) rb) as [[la ka] oa] eqn:En.
    injection Eg' as E1 E2 E3 E4 _ _. subst va fa fb la.
    destruct fns as [|f fns]; [|reflexivity]. destruct fl as [|f fl]; [|reflexivity]. destruct l as [|x l]; [|reflexivity].
    cbn in F1. rewrite app_nil_r in F1. subst vs'. destruct Hout as [Hincl|[Hneg|(o & Ho & Hv)]].
    - unfold restrict at 1. assert (Ex : forall zs, (forall v, In v zs -> In v (atom_vars (i_pos r))) -> filter (fun v => memv v (atom_vars (i_pos r))) zs = zs).
      { induction zs as [|z zs IH]; intros Hz; [reflexivity|]. simpl. assert (Hm : In z (atom_vars (i_pos r))) by (apply Hz; simpl; auto).
        apply memv_in in Hm. rewrite Hm. f_equal. apply IH. intros v Hv. apply Hz. simpl. auto. }
      symmetry. apply Ex. intros v Hv. apply Hord in Hv. rewrite atom_vars_app, in_app_iff in Hv. destruct Hv; auto.
    - exfalso. destruct (i_neg r) as [|[p xs] negs] eqn:Eneg; [contradiction|].
      destruct (g_neg r G p xs) as (v & Hv & Hb); [rewrite Eneg; simpl; auto|]. apply C in Hb. apply (gen_function_clo _ _ _ _ _ Ef) in Hb.
      cbn [gen_negation] in En. destruct (forallb (fun v => negb (memv v order)) (snd (p, xs))) eqn:Efb.
      + rewrite forallb_forall in Efb. specialize (Efb v Hv). apply negb_true_iff, memv_false in Efb. auto.
      + destruct (gen_filter (order ++ snd (p, xs)) rb) as [g1 g2]. destruct (gen_negation order negs g2) as [[g3 g4] g5]. discriminate.
    - exfalso. cbn in F3. destruct (gen_filter_spec _ _ _ _ Efi) as (_ & P2 & _). apply (P2 o). split.
      + apply (Permutation_in _ F3). exact Ho.
      + intros w Hw. apply (gen_function_clo _ _ _ _ _ Ef), C. auto. }
  intros nu. change (fits nu n) with (msat nu n). rewrite L6, K3, J3.
  assert (Hnb : forall p xs, In (p, xs) (i_neg r) -> (neg_match (plain r) (before D cur) nu p xs <->
    exists nu', (forall v, clo order (i_ops r) v -> nu' v = nu v) /\ before D cur p (map nu' xs) /\
      forall o, In o (i_ops r) -> (exists w, In w (op_vars o) /\ ~ clo order (i_ops r) w) -> (forall w, In w (op_vars o) -> clo order (i_ops r) w \/ In w xs) -> holds nu' o)).
  { intros p xs Hp. rewrite (neg_before D r cur p xs nu Hp). split; intros (nu' & H1 & H2 & H3); exists nu'; split; auto.
    - intros v Hv. apply H1, C, Hv.
    - split; auto. intros o Ho (w & Hw & Hnw) Hv. apply H3; auto; [exists w; split; auto; now rewrite <- C|]. intros x Hx. rewrite <- C. auto.
    - intros v Hv. apply H1, C, Hv.
    - split; auto. intros o Ho (w & Hw & Hnw) Hv. apply H3; auto; [exists w; split; auto; now rewrite C|]. intros x Hx. rewrite C. auto. }
  assert (Hsh : forall p xs, In (p, xs) (i_neg r) -> exists w, In w xs /\ clo order (i_ops r) w).
  { intros p xs Hp. destruct (g_neg r G p xs Hp) as (w & Hw & Hb). exists w. split; auto. now apply C. }
  destruct Hreq as [Hsound _].
  split.
  - intros [[[Hp Hnew] [Hpi Hni]] [Ho Hn]].
    assert (HO : forall o, body_op (plain r) o -> holds nu o) by (intros o [Hoo Hb]; apply Ho; auto; intros w Hw; apply C; auto).
    assert (HN : forall q ys, In (q, ys) (i_neg r) -> ~ neg_match (plain r) (before D cur) nu q ys).
    { intros q ys Hq. rewrite (Hnb q ys Hq). apply (Hn (q, ys) Hq). apply (Hsh q ys Hq). }
    split; [constructor; auto|].
    + intros p xs Hi. destruct (Hp (p, xs) Hi) as (s & Hs & Hd). exists s. auto.
    + intros p xs Hi. apply Hsound, (Hpi (p, xs) Hi).
    + intros p xs Hi. rewrite (nimp_match r G S p xs nu Hi). intros Hsx. apply (Hni (p, xs) Hi). apply match_imported; auto. apply in_app_iff. auto.
    + destruct Hnew as [?|([p xs] & s & Hi & Hr & Hd)]; [exfalso; now apply (m_pos r M)|]. exists p, xs, s. auto.
  - intros [[Hp Hpi Ho Hn Hni] (p0 & xs0 & s0 & Hi0 & Hr0 & Hd0)].
    assert (HP : forall a, In a (i_pos r) -> exists s, s < cur /\ D (fst a) s (map nu (snd a))) by (intros [p xs] Ha; apply (Hp p xs Ha)).
    split; [split; [split; [exact HP|right; exists (p0, xs0), s0; auto]|split]|split].
    + intros [p xs] Ha. cbn [fst snd]. apply (match_imported nu p xs Ho Hn HP); [apply in_app_iff; auto|apply (Hpi p xs Ha)].
    + intros [p xs] Ha Hx. apply (Hni p xs Ha). apply (nimp_match r G S p xs nu Ha). apply Hsound, Hx.
    + intros o Hoo Hv. apply Ho. split; auto. intros w Hw. apply C. auto.
    + intros [p xs] Ha _. cbn [fst snd]. rewrite <- (Hnb p xs Ha). apply (Hn p xs Ha).
Qed.
End Many.
