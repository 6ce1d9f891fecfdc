(** Proofs: factors, and the join with imports. *)
From Coq Require Import List Arith ZArith Bool Lia Permutation.
From Verif Require Import TableModel EngineModel EngineSpec EngineProofs1 EngineProofs2 EngineProofs3 StageModel StageSpec StageProofs1.
Import ListNotations.

(** ** Constant operations *)
Lemma constant_pass_none body ops : (forall v e, In (OEq v e) ops -> e_vars e = [] -> In v body) -> constant_pass body [] ops = ([], [], ops).
Proof.
  induction ops as [|o ops IH]; intros H; [reflexivity|]. cbn [constant_pass].
  rewrite IH by (intros v e Hi; apply H; auto). destruct o as [v e|e]; [|reflexivity].
  destruct (e_vars e) as [|w ws] eqn:E.
  - assert (Hv : In v body) by (apply (H v e); auto). apply memv_in in Hv. rewrite Hv. reflexivity.
  - replace (inclb (w :: ws) []) with false by reflexivity. rewrite andb_false_r. reflexivity.
Qed.

(** ** Partition of atoms *)
Definition disjoint (p q : partition_t) : Prop := forall v, In v (fst p) -> ~ In v (fst q).
Record parts (l : list atom) (ps : list partition_t) : Prop := {
  pt_perm : Permutation (flat_map snd ps) l;
  pt_vars : forall p v, In p ps -> (In v (fst p) <-> exists a, In a (snd p) /\ In v (snd a));
  pt_ne : forall p, In p ps -> snd p <> [];
  pt_disj : ForallOrdPairs disjoint ps }.

Lemma fop_filter {A} (R : A -> A -> Prop) f l : ForallOrdPairs R l -> ForallOrdPairs R (filter f l).
Proof.
  induction 1 as [|a l Ha _ IH]; simpl; [constructor|]. destruct (f a); auto. constructor; auto.
  rewrite Forall_forall in *. intros x Hx. apply filter_In in Hx. apply Ha. tauto.
Qed.
Lemma fop_snoc {A} (R : A -> A -> Prop) l x : ForallOrdPairs R l -> (forall y, In y l -> R y x) -> ForallOrdPairs R (l ++ [x]).
Proof.
  induction 1 as [|a l Ha _ IH]; intros Hx; simpl; [repeat constructor|]. constructor; auto.
  rewrite Forall_forall in *. intros y Hy. apply in_app_iff in Hy. destruct Hy as [Hy|[<-|[]]]; auto.
Qed.
Lemma partition_filter {A} (f : A -> bool) l : partition f l = (filter f l, filter (fun x => negb (f x)) l).
Proof. induction l as [|x l IH]; simpl; auto. rewrite IH. destruct (f x); reflexivity. Qed.
Lemma filter_perm {A B} (f : A -> bool) (g : A -> list B) l : Permutation (flat_map g (filter (fun x => negb (f x)) l) ++ flat_map g (filter f l)) (flat_map g l).
Proof.
  induction l as [|x l IH]; simpl; auto. destruct (f x); simpl.
  - rewrite app_assoc, (Permutation_app_comm _ (g x)), <- app_assoc. now apply Permutation_app_head.
  - rewrite <- app_assoc. now apply Permutation_app_head.
Qed.

Lemma fop_in {A} (R : A -> A -> Prop) l a b : ForallOrdPairs R l -> In a l -> In b l -> a = b \/ R a b \/ R b a.
Proof.
  induction 1 as [|x l Hx _ IH]; intros Ha Hb; [destruct Ha|]. rewrite Forall_forall in Hx.
  destruct Ha as [<-|Ha], Hb as [<-|Hb]; auto.
Qed.

Lemma add_parts l ps a : parts l ps -> parts (l ++ [a]) (add_atom ps a).
Proof.
  intros [H1 H2 H3 H4]. unfold add_atom. rewrite partition_filter. set (f := fun p : partition_t => existsb (fun v => memv v (snd a)) (fst p)).
  assert (Hf : forall p, f p = true <-> exists v, In v (fst p) /\ In v (snd a)).
  { intros p. unfold f. rewrite existsb_exists. split; intros (v & K1 & K2); exists v; split; auto; now apply memv_in. }
  constructor.
  - rewrite flat_map_app. simpl. rewrite app_nil_r. transitivity (flat_map snd (filter (fun p => negb (f p)) ps) ++ flat_map snd (filter f ps) ++ [a]).
    + apply Permutation_app_head. apply Permutation_cons_append.
    + rewrite app_assoc. apply Permutation_app_tail. rewrite filter_perm. exact H1.
  - intros p v Hp. apply in_app_iff in Hp. destruct Hp as [Hp|[<-|[]]]; [apply filter_In in Hp; apply H2; tauto|]. simpl.
    rewrite in_app_iff, in_flat_map. split.
    + intros [Hv|(p & Hp & Hv)]; [exists a; auto|]. apply filter_In in Hp. destruct Hp as [Hp Hfp].
      apply (H2 p v Hp) in Hv. destruct Hv as (b & Hb & Hv). exists b. split; auto. right. apply in_flat_map. exists p. split; auto. now apply filter_In.
    + intros (b & [<-|Hb] & Hv); [auto|]. apply in_flat_map in Hb. destruct Hb as (p & Hp & Hb). right. exists p. split; auto.
      apply filter_In in Hp. apply (H2 p v); [tauto|]. exists b. auto.
  - intros p Hp. apply in_app_iff in Hp. destruct Hp as [Hp|[<-|[]]]; [apply filter_In in Hp; apply H3; tauto|]. simpl. discriminate.
  - apply fop_snoc; [now apply fop_filter|]. intros p Hp v Hv. apply filter_In in Hp. destruct Hp as [Hp Hn].
    apply negb_true_iff in Hn. simpl. rewrite in_app_iff, in_flat_map. intros [Hva|(q & Hq & Hvq)].
    + rewrite <- not_true_iff_false in Hn. apply Hn, Hf. eauto.
    + apply filter_In in Hq. destruct Hq as [Hq Hfq]. destruct (fop_in _ _ p q H4 Hp Hq) as [->|[Hd|Hd]]; [rewrite <- not_true_iff_false in Hn; apply Hn; exact Hfq| |].
      * apply (Hd v); auto.
      * apply (Hd v); auto.
Qed.

Lemma fold_parts l : parts l (fold_left add_atom l []).
Proof.
  induction l as [|a l IH] using rev_ind.
  - constructor; [constructor | intros p v [] | intros p [] | constructor].
  - rewrite fold_left_app. simpl. now apply add_parts.
Qed.

Lemma linked_one l ps : parts l ps -> l <> [] -> (forall a, In a l -> snd a <> []) -> (forall a b, In a l -> In b l -> linked l a b) ->
  exists vs l', ps = [(vs, l')] /\ Permutation l' l.
Proof.
  intros [H1 H2 H3 H4] Hl Hne Hlink.
  assert (Hin : forall p a, In p ps -> In a (snd p) -> In a l).
  { intros p a Hp Ha. apply (Permutation_in _ H1), in_flat_map. eauto. }
  destruct ps as [|[vs l'] [|q ps]].
  - exfalso. apply Permutation_nil in H1. auto.
  - exists vs, l'. split; auto. simpl in H1. now rewrite app_nil_r in H1.
  - exfalso. set (p := (vs, l')) in *. destruct (snd p) as [|a pl] eqn:Ep; [apply (H3 p); auto|].
    destruct (snd q) as [|b ql] eqn:Eq; [apply (H3 q); auto|].
    assert (Ha : In a (snd p)) by (rewrite Ep; auto). assert (Hb : In b (snd q)) by (rewrite Eq; auto).
    inversion H4 as [|x y Hf Hr]; subst x y. rewrite Forall_forall in Hf.
    assert (Move : forall c d, linked l c d -> In c (snd p) -> In d (snd p)).
    { intros c d Hc. induction Hc as [c Hc|c d e v Hc Hv1 Hv2 Hde IH]; auto. intros Hcp. apply IH.
      assert (Hd : In d l) by (clear - Hde; inversion Hde; auto).
      apply (Permutation_in _ (Permutation_sym H1)), in_flat_map in Hd. destruct Hd as (p' & Hp' & Hd).
      destruct Hp' as [<-|Hp']; auto. exfalso. apply (Hf p' Hp' v).
      - apply (H2 p v); auto. exists c. auto.
      - apply (H2 p' v); auto. exists d. auto. }
    assert (Hbp : In b (snd p)) by (apply (Move a b); auto; apply Hlink; [apply (Hin p)|apply (Hin q)]; auto).
    destruct (snd b) as [|v vb] eqn:Eb; [apply (Hne b); auto; apply (Hin q); auto|].
    apply (Hf q (or_introl eq_refl) v).
    + apply (H2 p v); auto. exists b. rewrite Eb. auto.
    + apply (H2 q v); auto. exists b. rewrite Eb. auto.
Qed.

(** ** Imports *)
Lemma import_node_spec imp a : NoDup (snd a) -> wfn (import_node imp a) /\ forall nu, msat nu (import_node imp a) <-> In (map nu (snd a)) (imp (fst a)).
Proof.
  intros H. split.
  - constructor; simpl; auto. intros r Hr. apply filter_In in Hr. now apply Nat.eqb_eq.
  - intros nu. unfold msat. simpl. rewrite filter_In, map_length, Nat.eqb_refl. tauto.
Qed.

Lemma negated_none atoms ops : (forall a o, In a atoms -> In o ops -> ~ incl (op_vars o) (snd a)) ->
  negated_imports atoms ops = (map (fun a => (a, [])) atoms, ops).
Proof.
  induction atoms as [|a atoms IH]; intros H; [reflexivity|]. cbn [negated_imports].
  assert (E : gen_filter (snd a) ops = ([], ops)).
  { unfold gen_filter. rewrite partition_filter. assert (Hx : forall o, In o ops -> inclb (op_vars o) (snd a) = false).
    { intros o Ho. rewrite <- not_true_iff_false, inclb_incl. apply H; auto. }
    f_equal.
    - revert Hx. clear. induction ops as [|o ops IH]; intros H; simpl; auto. rewrite H by auto. auto.
    - revert Hx. clear. induction ops as [|o ops IH]; intros H; simpl; auto. rewrite H by auto. simpl. f_equal. auto. }
  rewrite E, IH; [reflexivity|]. intros b o Hb. apply H. auto.
Qed.

Lemma import_join_spec imp order n pimp nimp j : wfn n -> NoDup order ->
  (forall a, In a (pimp ++ nimp) -> NoDup (snd a)) -> (forall a, In a nimp -> incl (snd a) order) ->
  import_join imp order n pimp (map (fun a => (a, [])) nimp) = Some j ->
  wfn j /\ nvars j = order /\ forall nu, msat nu j <-> msat nu n /\ (forall a, In a pimp -> In (map nu (snd a)) (imp (fst a))) /\
    forall a, In a nimp -> ~ In (map nu (snd a)) (imp (fst a)).
Proof.
  intros Hw Ho Hnd Hi H. unfold import_join in H.
  destruct (join_nodes order (n :: map (import_node imp) pimp)) as [j0|] eqn:Ej; [|discriminate].
  assert (Wm : forall m, In m (n :: map (import_node imp) pimp) -> wfn m).
  { intros m [<-|Hm]; auto. apply in_map_iff in Hm. destruct Hm as (a & <- & Ha). apply import_node_spec, Hnd, in_app_iff. auto. }
  destruct (join_nodes_spec _ _ _ Ej Wm Ho) as (J1 & J2 & J3).
  assert (J4 : forall nu, msat nu j0 <-> msat nu n /\ forall a, In a pimp -> In (map nu (snd a)) (imp (fst a))).
  { intros nu. rewrite J3. split.
    - intros Hm. split; [apply Hm; auto|]. intros a Ha. apply (import_node_spec imp a); [apply Hnd, in_app_iff; auto|].
      apply Hm. right. now apply in_map.
    - intros [H1 H2] m [<-|Hm]; auto. apply in_map_iff in Hm. destruct Hm as (a & <- & Ha).
      apply import_node_spec; [apply Hnd, in_app_iff; auto|auto]. }
  assert (Core : forall l, (forall a, In a l -> In a nimp) ->
     option_map (subtract j0) (mapM (fun x : atom * list oper => match filter_node (import_node imp (fst x)) (snd x) with
        | None => None | Some nf => project (filter (fun v => memv v (snd (fst x))) order) nf end) (map (fun a => (a, [])) l)) = Some j ->
     wfn j /\ nvars j = order /\ forall nu, msat nu j <-> msat nu j0 /\ forall a, In a l -> ~ In (map nu (snd a)) (imp (fst a))).
  { clear H. intros l Hl H.
    match type of H with option_map _ (mapM ?f _) = _ => set (F := f) in H end.
    destruct (mapM F (map (fun a => (a, [])) l)) as [subs|] eqn:E; [|discriminate]. injection H as <-.
    destruct (mapM_forall _ _ _ E) as [E1 E2].
    assert (HF : forall a s, In a l -> F (a, []) = Some s -> incl (nvars s) order /\ forall nu, msat nu s <-> In (map nu (snd a)) (imp (fst a))).
    { intros a s Ha Hs. unfold F in Hs. cbn [fst snd filter_node] in Hs.
      destruct (import_node_spec imp a) as [W Wm']; [apply Hnd, in_app_iff; auto|].
      destruct (project_spec _ _ _ Hs W) as (K1 & K2 & K3 & K4); [now apply NoDup_filter|].
      split; [rewrite K1; intros v Hv; apply filter_In in Hv; tauto|]. intros nu. rewrite K4, <- Wm'. split.
      - intros (nu' & Hag & Hm). apply (msat_ext nu' nu); auto. cbn [nvars import_node]. intros v Hv. apply Hag. apply filter_In.
        split; [apply (Hi a); auto|now apply memv_in].
      - intros Hm. exists nu. auto. }
    destruct (subtract_spec j0 subs J2) as (G1 & G2 & G3).
    { intros s Hs. destruct (E2 s Hs) as (x & Hx & Hf). apply in_map_iff in Hx. destruct Hx as (a & <- & Ha). rewrite J1. now apply (HF a s). }
    split; auto. split; [now rewrite G1|]. intros nu. rewrite G3. split; intros [M1 M2]; split; auto.
    - intros a Ha. destruct (E1 (a, [])) as (s & Hs & His); [apply in_map_iff; eauto|]. rewrite <- (proj2 (HF a s Ha Hs)). auto.
    - intros s Hs. destruct (E2 s Hs) as (x & Hx & Hf). apply in_map_iff in Hx. destruct Hx as (a & <- & Ha). rewrite (proj2 (HF a s Ha Hf)). auto. }
  destruct nimp as [|a0 nimp0] eqn:En.
  - simpl in H. injection H as <-. split; auto. split; auto. intros nu. rewrite J4. split; [intros [? ?]; split; [auto|split; [auto|intros a []]]|tauto].
  - cbn [map] in H. change ((a0, @nil oper) :: map (fun a => (a, [])) nimp0) with (map (fun a : atom => (a, @nil oper)) (a0 :: nimp0)) in H.
    destruct (Core (a0 :: nimp0)) as (C1 & C2 & C3); auto. split; auto. split; auto. intros nu. rewrite C3, J4. tauto.
Qed.
