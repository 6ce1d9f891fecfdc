(* Execution of a series of trees. *)
From Coq Require Import List ZArith Bool Lia Arith Permutation Sorted.
From Verif Require Import ColumnModel ScanModel ScanSpec TrieModel TrieSpec TrieScanSpec OpModel OpSpec OpProofs3 ProjModel ProjSpec ProjProofs1 ProjProofs2 ProjProofs3 ProjProofs4 ProjProofs5 StoreModel StoreSpec StoreProofs1 StoreProofs2 PlanModel PlanSpec PlanProofs1 PlanProofs2 PlanProofs3.
From Verif Require PermModel PermProps PermProofs.
Import ListNotations.
Local Open Scope nat_scope.

Lemma store_all_spec : forall ids (cs : list (option trie)), (forall j tr, In (j, tr) ids -> j < length cs) ->
  exists cs', store_all cs ids = Ok cs' /\ length cs' = length cs /\
    (forall j x, nth_error cs' j = Some x -> (exists tr, x = Some tr /\ In (j, tr) ids) \/ (nth_error cs j = Some x /\ ~ In j (map fst ids))) /\
    (forall j, In j (map fst ids) -> exists tr, nth_error cs' j = Some (Some tr)).
Proof.
  induction ids as [|[c tr] ids IH]; intros cs H; cbn [store_all].
  { exists cs. split; [reflexivity|]. split; [reflexivity|]. split; [intros j x Hx; right; split; [exact Hx|intros []]|intros j []]. }
  destruct (PermProofs.set_nth_some _ cs c (Some tr)) as (cs1 & -> & Hl1 & H1); [apply (H c tr); left; reflexivity|]. cbn [must bind].
  destruct (IH cs1) as (cs' & E & Hl & H2 & H3); [intros j tr' Hj; rewrite Hl1; apply (H j tr'); right; exact Hj|].
  exists cs'. split; [exact E|]. split; [lia|]. split.
  - intros j x Hx. destruct (H2 j x Hx) as [(tr' & -> & Hin)|[Hx1 Hn]]; [left; exists tr'; split; [reflexivity|right; exact Hin]|].
    rewrite H1 in Hx1. destruct (Nat.eqb_spec j c) as [->|N]; [injection Hx1 as <-; left; exists tr; split; [reflexivity|left; reflexivity]|].
    right. split; [exact Hx1|]. cbn [map fst]. intros [E'|E']; [congruence|contradiction].
  - intros j [<-|Hj]; [|apply H3, Hj]. cbn [fst]. destruct (in_dec Nat.eq_dec c (map fst ids)) as [Hi|Hi]; [apply H3, Hi|].
    assert (Hc : c < length cs') by (rewrite Hl, Hl1; apply (H c tr); left; reflexivity). apply nth_error_Some in Hc. destruct (nth_error cs' c) as [x|] eqn:Ex; [|congruence].
    destruct (H2 c x Ex) as [(tr' & -> & _)|[Hx1 _]]; [eauto|]. rewrite H1, Nat.eqb_refl in Hx1. injection Hx1 as <-. eauto.
Qed.
Lemma nth_firstn : forall A (l : list A) k i x, nth_error (firstn k l) i = Some x <-> i < k /\ nth_error l i = Some x.
Proof.
  intros A l. induction l as [|a l IH]; intros [|k] [|i] x; cbn; try (split; [intros H|intros [H H']]; try discriminate; try lia; fail); [split; [intros H; split; [lia|exact H]|intros [_ H]; exact H]|].
  rewrite IH. split; intros [H H']; split; try assumption; lia.
Qed.
Lemma projected_exists : forall n (Q : row -> Prop) v r, length r = n -> Q r -> (forall i, In i v -> i < n) -> exists q, length q = length v /\ projected n Q v q.
Proof.
  intros n Q v r Hl HQ Hv. assert (H : exists q : row, map Some q = map (nth_error r) v).
  { clear HQ. induction v as [|i v IH]; [exists []; reflexivity|]. destruct IH as (q & E); [intros j Hj; apply Hv; right; exact Hj|].
    assert (Hi : i < length r) by (rewrite Hl; apply Hv; left; reflexivity). apply nth_error_Some in Hi. destruct (nth_error r i) as [x|] eqn:Ex; [|congruence].
    exists (x :: q). cbn [map]. rewrite E, Ex. reflexivity. }
  destruct H as (q & E). exists q. split; [pose proof (f_equal (@length _) E) as E'; rewrite !map_length in E'; exact E'|]. exists r. auto.
Qed.

Section Series.
Variable cat : catalog.
Variable m : manager.
Variable Ld : list (nat * perm).
Variable C : contents.
Variable trees : list tree.
Definition dep (c r : nat) : Prop := exists tc ch, nth_error trees c = Some tc /\ In (r, ch) (t_dependents tc).
Record series_ok : Prop := {
  so_length : length C = length trees;
  so_roots : forall r t, nth_error trees r = Some t -> exists n Q, nth_error C r = Some (n, Q) /\ root_computes cat Ld (firstn r C) (t_root t) n Q;
  so_refs : forall r t, nth_error trees r = Some t -> (exists c, dep c r) \/ forall c, In c (root_refs (t_root t)) -> exists tc, nth_error trees c = Some tc /\ 0 < t_used tc;
  so_deps : forall c tc n Q, nth_error trees c = Some tc -> nth_error C c = Some (n, Q) -> t_dependents tc <> [] -> (exists o, t_root tc = ROp o) /\ 0 < n;
  so_used : forall c tc, nth_error trees c = Some tc -> t_used tc = 0 -> t_dependents tc <> [];
  so_dep : forall c tc r ch, nth_error trees c = Some tc -> In (r, ch) (t_dependents tc) ->
    c < r /\ exists t p, nth_error trees r = Some t /\ t_root t = RProject p (TComputed c) /\ ch = pj_choice p /\ t_required t = false;
  so_cut : forall r t p o, nth_error trees r = Some t -> t_root t = RProject p o -> PermModel.choice_is_identity (pj_choice p) = true -> t_cut t = 0 }.
Hypothesis OK : series_ok.
Variable loaded : list nat.
Hypothesis LD : forall cs, loads cat m (mk_tstorage loaded cs) Ld.

Definition no_rows (r : nat) : Prop := forall n Q, nth_error C r = Some (n, Q) -> forall q, length q = n -> ~ Q q.
Record sinv (k : nat) (cs : list (option trie)) : Prop := {
  si_length : length cs = length trees;
  si_holds : forall r t tr n Q, nth_error cs r = Some (Some tr) -> nth_error trees r = Some t -> nth_error C r = Some (n, Q) -> (k <= r \/ 0 < t_used t) -> holds n Q tr;
  si_done : forall r, r < k -> r < length trees -> exists tr, nth_error cs r = Some (Some tr);
  si_dep : forall c r, c < k -> dep c r -> exists tr, nth_error cs r = Some (Some tr);
  si_later : forall r tr, k <= r -> nth_error cs r = Some (Some tr) -> exists c, c < k /\ dep c r;
  si_required : forall r t, r < k -> nth_error trees r = Some t -> t_required t = true -> ~ no_rows r }.

Lemma choices_vectors : forall k tk n Q, nth_error trees k = Some tk -> nth_error C k = Some (n, Q) -> forall deps, incl deps (t_dependents tk) ->
  exists vs, Forall2 (fun c v => PermModel.as_vector c = Some v /\ forall i, In i v -> i < n) (map snd deps) vs /\
    Forall2 (fun d v => forall n' Q', nth_error C (fst d) = Some (n', Q') -> n' = length v /\ same_rows n' Q' (projected n Q v)) deps vs.
Proof.
  intros k tk n Q Ek HC. induction deps as [|[r ch] deps IH]; intros Hi; [exists []; split; constructor|].
  destruct IH as (vs & F1 & F2); [intros d Hd; apply Hi; right; exact Hd|].
  destruct (so_dep OK k tk r ch Ek (Hi _ (or_introl eq_refl))) as (Hlt & t & p & Et & Er & -> & _).
  destruct (so_roots OK r t Et) as (n1 & Q1 & E1 & HR). rewrite Er in HR. inversion HR as [|? ? n0 Q0 v ? ? K1 K2 K3 K5 K4]; subst. inversion K1 as [|? ? P ? KC KS| | |]; subst.
  apply nth_firstn in KC. destruct KC as [_ KC]. rewrite HC in KC. injection KC as <- <-.
  exists (v :: vs). split; cbn [map]; constructor; try assumption.
  - cbn [snd]. split; [apply (pr_vector _ _ _ K2)|exact K3].
  - cbn [fst]. intros n' Q' E'. rewrite E1 in E'. injection E' as <- <-. split; [reflexivity|]. intros q Hq. rewrite (K4 q Hq). unfold projected.
    split; intros (x & Hx & Hxq & Hm); exists x; (split; [exact Hx|]; split; [|exact Hm]); apply (KS x Hx), Hxq.
Qed.
Lemma has_before : forall k cs, sinv k cs -> forall r t, nth_error trees r = Some t -> r = k -> nth_error cs k = Some None ->
  forall c, In c (root_refs (t_root t)) -> has (mk_tstorage loaded cs) (firstn k C) c.
Proof.
  intros k cs HI r t Et -> Ecs c Hc. destruct (so_refs OK k t Et) as [(c' & Hd)|H].
  { exfalso. pose proof Hd as Hd'. destruct Hd as (tc & ch & Etc & Hin). destruct (so_dep OK c' tc k ch Etc Hin) as [Hlt _]. destruct (si_dep k cs HI c' k Hlt Hd') as (tr & Etr). congruence. }
  destruct (H c Hc) as (tc & Etc & Hu). intros n P HP. apply nth_firstn in HP. destruct HP as [Hlt HP].
  destruct (si_done k cs HI c Hlt) as (tr & Etr); [apply nth_error_Some; congruence|]. exists tr. split.
  - unfold computed_leaf. cbn [computed_tables]. unfold index. rewrite Etr. reflexivity.
  - apply (si_holds k cs HI c tc tr n P Etr Etc HP). right. exact Hu.
Qed.
Lemma Forall2_combine_in : forall A B D (R : A -> B -> Prop) (S : B -> D -> Prop) la lb ld, Forall2 R la lb -> Forall2 S lb ld ->
  forall a d, In (a, d) (combine la ld) -> exists b, R a b /\ S b d.
Proof.
  intros A B D R S la lb ld H. revert ld. induction H as [|a b la lb Hab _ IH]; intros ld H2 x y Hin; inversion H2; subst; cbn [combine] in Hin; [destruct Hin|].
  destruct Hin as [E|Hin]; [injection E as <- <-; exists b; split; assumption|]. eapply IH; eassumption.
Qed.
Lemma combine_map_l : forall A B D (f : A -> B) (la : list A) (ld : list D) b d, In (b, d) (combine (map f la) ld) -> exists a, f a = b /\ In (a, d) (combine la ld).
Proof.
  intros A B D f. induction la as [|a la IH]; intros [|x ld] b d H; cbn [map combine] in H; try (destruct H; fail).
  destruct H as [E|H]; [injection E as <- <-; exists a; split; [reflexivity|left; reflexivity]|]. destruct (IH ld b d H) as (a' & E & Hin). exists a'. split; [exact E|right; exact Hin].
Qed.
Lemma in_combine_some : forall A D (la : list A) (ld : list D) a, length la = length ld -> In a la -> exists d, In (a, d) (combine la ld).
Proof.
  intros A D. induction la as [|x la IH]; intros [|y ld] a Hl Hin; cbn in Hl; try discriminate; [destruct Hin|]. destruct Hin as [<-|Hin]; [exists y; left; reflexivity|].
  destruct (IH ld a) as (d & Hd); [lia|exact Hin|]. exists d. right. exact Hd.
Qed.

(* one tree that was not computed before *)
Lemma step_tree : forall k cs t, sinv k cs -> nth_error trees k = Some t -> nth_error cs k = Some None ->
  exists enough tr trs cs', (forall fuel, enough <= fuel -> execute_tree m fuel (mk_tstorage loaded cs) t (map snd (t_dependents t)) = Ok (tr, trs)) /\
    store_all cs ((k, tr) :: combine (map fst (t_dependents t)) trs) = Ok cs' /\
    (forallb trie_is_empty (tr :: firstn (length (t_dependents t)) trs) = true <-> no_rows k) /\
    (t_required t = false \/ ~ no_rows k -> sinv (S k) cs').
Proof.
  intros k cs t HI Et Ecs. destruct (so_roots OK k t Et) as (n & Q & EC & HR).
  pose proof (has_before k cs HI k t Et eq_refl Ecs) as Hhas.
  assert (Hmain : exists vs enough tr trs, (forall fuel, enough <= fuel -> execute_tree m fuel (mk_tstorage loaded cs) t (map snd (t_dependents t)) = Ok (tr, trs)) /\
    Forall2 (fun d v => forall n' Q', nth_error C (fst d) = Some (n', Q') -> n' = length v /\ same_rows n' Q' (projected n Q v)) (t_dependents t) vs /\
    (forall v i, In v vs -> In i v -> i < n) /\
    (0 < t_used t -> holds n Q tr) /\ (t_used t = 0 -> trie_is_empty tr = true) /\ Forall2 (fun v t => holds (length v) (projected n Q v) t) vs trs).
  { destruct (t_root t) as [o|p o] eqn:Er.
    - inversion HR; subst. destruct (choices_vectors k t n Q Et EC (t_dependents t) (incl_refl _)) as (vs & F1 & F2).
      destruct (execute_op cat m (mk_tstorage loaded cs) Ld (firstn k C) t o n Q (map snd (t_dependents t)) vs) as (en & tr & trs & E & H1' & H2' & H3'); auto.
      { destruct (t_used t) as [|u] eqn:Eu; [|left; lia]. right. apply (so_deps OK k t n Q Et EC), (so_used OK k t Et Eu). }
      exists vs, en, tr, trs. split; [exact E|]. split; [exact F2|]. split; [|auto]. intros v i Hv. destruct (Forall2_in_r _ _ _ _ _ _ F1 Hv) as (c & _ & _ & H). apply H.
    - assert (Hd : t_dependents t = []). { destruct (t_dependents t) as [|d l] eqn:Ed; [reflexivity|]. destruct (so_deps OK k t n Q Et EC) as [(o' & Eo) _]; [rewrite Ed; discriminate|]. congruence. }
      rewrite Hd. destruct (execute_projection cat m (mk_tstorage loaded cs) Ld (firstn k C) t p o n Q) as (en & tr & E & HH); auto.
      { apply (so_cut OK k t p o Et Er). }
      exists [], en, tr, []. split; [exact E|]. split; [constructor|]. split; [intros v i []|]. split; [auto|]. split; [|constructor].
      intros Hu. exfalso. apply (so_used OK k t Et Hu Hd). }
  destruct Hmain as (vs & en & tr & trs & E & F2 & Hvs & Hh & Hu & F3).
  assert (Hlen : length trs = length (t_dependents t)).
  { assert (L1 : length (t_dependents t) = length vs) by (clear - F2; induction F2; cbn; congruence). assert (L2 : length vs = length trs) by (clear - F3; induction F3; cbn; congruence). lia. }
  assert (Hdin : forall r tr', In (r, tr') (combine (map fst (t_dependents t)) trs) -> dep k r /\ forall n' Q', nth_error C r = Some (n', Q') -> holds n' Q' tr').
  { intros r tr' Hin. apply combine_map_l in Hin. destruct Hin as ([r0 ch] & <- & Hin). cbn [fst]. split; [exists t, ch; split; [exact Et|apply (in_combine_l _ _ _ _ Hin)]|].
    destruct (Forall2_combine_in _ _ _ _ _ _ _ _ F2 F3 _ _ Hin) as (v & H1 & H2). intros n' Q' EC'. destruct (H1 n' Q' EC') as [-> HS]. apply (holds_iff _ _ _ _ (same_sym _ _ _ HS)), H2. }
  assert (Hkt : k < length trees) by (apply nth_error_Some; congruence).
  destruct (store_all_spec ((k, tr) :: combine (map fst (t_dependents t)) trs) cs) as (cs' & Es & Hl & H2 & H3).
  { rewrite (si_length k cs HI). intros j tr' [Ej|Hj]; [injection Ej as <- <-; exact Hkt|]. destruct (Hdin j tr' Hj) as [(tc & ch & Etc & Hin) _].
    destruct (so_dep OK k tc j ch Etc Hin) as (_ & tj & p & Etj & _). apply nth_error_Some. congruence. }
  exists en, tr, trs, cs'. split; [exact E|]. split; [exact Es|].
  assert (Hempty : forallb trie_is_empty (tr :: firstn (length (t_dependents t)) trs) = true <-> no_rows k).
  { rewrite <- Hlen, firstn_all. cbn [forallb]. rewrite andb_true_iff. split.
    - intros [H1 H4] n' Q' EC'. rewrite EC in EC'. injection EC' as <- <-. destruct (t_used t) as [|u] eqn:Eu.
      + pose proof (so_used OK k t Et Eu) as Hne. destruct (t_dependents t) as [|d l]; [congruence|]. inversion F2 as [|? y ? vs' _ _]; subst. inversion F3 as [|? y0 ? ys KH _]; subst. cbn [forallb] in H4. apply andb_true_iff in H4. destruct H4 as [H4 _].
        intros q Hq HQ. destruct (projected_exists n Q y q Hq HQ) as (q' & Hq' & HP); [intros i Hi; apply (Hvs y i); [left; reflexivity|exact Hi]|].
        apply (proj1 (holds_rows _ _ _ KH) H4 q' Hq' HP).
      + apply (proj1 (holds_rows _ _ _ (Hh ltac:(lia))) H1).
    - intros Hno. specialize (Hno n Q EC). split.
      + destruct (t_used t) as [|u] eqn:Eu; [apply Hu; reflexivity|]. apply (holds_rows n Q tr (Hh ltac:(lia))), Hno.
      + apply forallb_forall. intros x Hx. destruct (Forall2_in_r _ _ _ _ _ _ F3 Hx) as (v & _ & Hv). apply (holds_rows _ _ _ Hv). intros q _ (r & Hr & HQ & _). apply (Hno r Hr HQ). }
  split; [exact Hempty|]. intros Hreq. split.
  - rewrite Hl. apply (si_length k cs HI).
  - intros r tr0 tr1 n' Q' Ej Etr EC' Hr. destruct (H2 _ _ Ej) as [(tr' & E1 & [E2|Hin])|[E1 Hn]].
    + injection E2 as <- <-. injection E1 as ->. rewrite Et in Etr. injection Etr as <-. rewrite EC in EC'. injection EC' as <- <-. apply Hh. destruct Hr; [lia|assumption].
    + injection E1 as ->. apply (Hdin r tr' Hin), EC'.
    + apply (si_holds k cs HI r tr0 tr1 n' Q' E1 Etr EC'). destruct Hr; [left; lia|right; assumption].
  - intros r Hr Hrt. destruct (Nat.eq_dec r k) as [->|N]; [apply H3; left; reflexivity|]. destruct (si_done k cs HI r) as (tr' & Etr'); [lia|exact Hrt|].
    destruct (in_dec Nat.eq_dec r (map fst ((k, tr) :: combine (map fst (t_dependents t)) trs))) as [Hi|Hi]; [apply H3, Hi|].
    assert (Hr' : r < length cs') by (rewrite Hl, (si_length k cs HI); exact Hrt). apply nth_error_Some in Hr'. destruct (nth_error cs' r) as [x|] eqn:Ex; [|congruence].
    destruct (H2 r x Ex) as [(tr2 & -> & _)|[E1 _]]; [eauto|]. rewrite Etr' in E1. injection E1 as <-. eauto.
  - intros c r Hc Hd. assert (Hrt : r < length trees). { destruct Hd as (tc & ch & Etc & Hin). destruct (so_dep OK c tc r ch Etc Hin) as (_ & tr' & p & Er' & _). apply nth_error_Some. congruence. }
    assert (Hr' : r < length cs') by (rewrite Hl, (si_length k cs HI); exact Hrt). apply nth_error_Some in Hr'. destruct (nth_error cs' r) as [x|] eqn:Ex; [|congruence].
    destruct (H2 r x Ex) as [(tr2 & -> & _)|[E1 Hn]]; [eauto|]. destruct (Nat.eq_dec c k) as [->|N].
    + exfalso. apply Hn. cbn [map fst]. right. destruct Hd as (tc & ch & Etc & Hin). rewrite Et in Etc. injection Etc as <-.
      assert (Hin' : In r (map fst (t_dependents t))) by (apply in_map_iff; exists (r, ch); auto). destruct (in_combine_some _ _ (map fst (t_dependents t)) trs r) as (d & Hd'); [rewrite map_length; lia|exact Hin'|].
      apply in_map_iff. exists (r, d). auto.
    + destruct (si_dep k cs HI c r) as (tr' & Etr'); [lia|exact Hd|]. rewrite Etr' in E1. injection E1 as <-. eauto.
  - intros r tr' Hr Ej. destruct (H2 _ _ Ej) as [(tr2 & E1 & [E2|Hin])|[E1 Hn]].
    + injection E2 as <- <-. lia.
    + exists k. split; [lia|]. apply (Hdin r tr2 Hin).
    + destruct (si_later k cs HI r tr') as (c & Hc & Hd); [lia|exact E1|]. exists c. split; [lia|exact Hd].
  - intros r tr' Hr Etr' Hq. destruct (Nat.eq_dec r k) as [->|N]; [|apply (si_required k cs HI r tr'); [lia|exact Etr'|exact Hq]].
    rewrite Et in Etr'. injection Etr' as <-. destruct Hreq as [Hreq|Hreq]; [congruence|exact Hreq].
Qed.
Lemma step_done : forall k cs t tr, sinv k cs -> nth_error trees k = Some t -> nth_error cs k = Some (Some tr) -> sinv (S k) cs.
Proof.
  intros k cs t tr HI Et Ecs. destruct (si_later k cs HI k tr (le_n _) Ecs) as (c & Hc & (tc & ch & Etc & Hin)).
  destruct (so_dep OK c tc k ch Etc Hin) as (_ & t' & p & Et' & Er & _ & Hreq). rewrite Et in Et'. injection Et' as <-. split.
  - apply (si_length k cs HI).
  - intros r t0 tr0 n Q E1 E2 E3 Hr. apply (si_holds k cs HI r t0 tr0 n Q E1 E2 E3). destruct Hr; [left; lia|right; assumption].
  - intros r Hr Hrt. destruct (Nat.eq_dec r k) as [->|N]; [eauto|]. apply (si_done k cs HI); [lia|exact Hrt].
  - intros c' r Hc' Hd. destruct (Nat.eq_dec c' k) as [->|N]; [|apply (si_dep k cs HI c' r); [lia|exact Hd]]. exfalso. destruct Hd as (t2 & ch' & E2 & Hin'). rewrite Et in E2. injection E2 as <-.
    destruct (so_roots OK k t Et) as (n & Q & EC & _). destruct (so_deps OK k t n Q Et EC) as [(o & Eo) _]; [intros Ed; rewrite Ed in Hin'; destruct Hin'|]. congruence.
  - intros r tr' Hr E. destruct (si_later k cs HI r tr') as (c' & Hc' & Hd); [lia|exact E|]. exists c'. split; [lia|exact Hd].
  - intros r t2 Hr E2 Hq. destruct (Nat.eq_dec r k) as [->|N]; [rewrite Et in E2; injection E2 as <-; congruence|]. apply (si_required k cs HI r t2); [lia|exact E2|exact Hq].
Qed.

Lemma execute_loop : forall rest k cs, skipn k trees = rest -> sinv k cs ->
  exists enough res, (forall fuel, enough <= fuel -> execute_trees m fuel loaded k rest cs = Ok res) /\
    match res with
    | None => exists r t, nth_error trees r = Some t /\ t_required t = true /\ no_rows r
    | Some cs' => exists k', length trees <= k' /\ sinv k' cs'
    end.
Proof.
  induction rest as [|t rest IH]; intros k cs Hsk HI.
  { exists 0, (Some cs). split; [reflexivity|]. exists k. split; [|exact HI]. pose proof (skipn_length k trees) as H. rewrite Hsk in H. cbn in H. lia. }
  assert (Et : nth_error trees k = Some t). { clear - Hsk. revert k Hsk. induction trees as [|a l IHl]; intros [|k] H; cbn in *; try discriminate; [injection H as -> _; reflexivity|apply IHl, H]. }
  assert (Hsk' : skipn (S k) trees = rest). { clear - Hsk. revert k Hsk. induction trees as [|a l IHl]; intros [|k] H; cbn [skipn] in *; try discriminate; [injection H as _ ->; reflexivity|]. apply (IHl k), H. }
  assert (Hk : k < length cs) by (rewrite (si_length k cs HI); apply nth_error_Some; congruence). apply nth_error_Some in Hk. destruct (nth_error cs k) as [[tr|]|] eqn:Ecs; [| |congruence].
  - destruct (IH (S k) cs Hsk' (step_done k cs t tr HI Et Ecs)) as (en & res & E & H). exists en, res. split; [|exact H].
    intros fuel Hf. cbn [execute_trees]. unfold index. rewrite Ecs. cbn [bind]. apply E, Hf.
  - destruct (step_tree k cs t HI Et Ecs) as (en & tr & trs & cs' & E & Es & He & HS).
    destruct (forallb trie_is_empty (tr :: firstn (length (t_dependents t)) trs) && t_required t) eqn:Eb.
    + apply andb_true_iff in Eb. destruct Eb as [Eb Eq]. exists en, None. split; [|exists k, t; split; [exact Et|split; [exact Eq|apply He, Eb]]].
      intros fuel Hf. cbn [execute_trees]. unfold index. rewrite Ecs. cbn [bind]. rewrite (E fuel Hf). cbn [bind fst snd]. rewrite Es. cbn [bind]. rewrite Eb, Eq. reflexivity.
    + destruct (IH (S k) cs' Hsk') as (en' & res & E' & H).
      { apply HS. apply andb_false_iff in Eb. destruct Eb as [Eb|Eb]; [right|left; exact Eb]. intros Hn. apply He in Hn. congruence. }
      exists (max en en'), res. split; [|exact H]. intros fuel Hf. cbn [execute_trees]. unfold index. rewrite Ecs. cbn [bind]. rewrite (E fuel) by lia. cbn [bind fst snd]. rewrite Es. cbn [bind].
      rewrite Eb. apply E'. lia.
Qed.
Theorem execute_series : exists enough res,
  (forall fuel, enough <= fuel -> execute_trees m fuel loaded 0 trees (map (fun _ => None) trees) = Ok res) /\
  match res with
  | None => exists r t, nth_error trees r = Some t /\ t_required t = true /\ no_rows r
  | Some cs => length cs = length trees /\ (forall r t, nth_error trees r = Some t -> t_required t = true -> ~ no_rows r) /\
      forall r t n Q, nth_error trees r = Some t -> nth_error C r = Some (n, Q) -> 0 < t_used t -> exists tr, nth_error cs r = Some (Some tr) /\ holds n Q tr
  end.
Proof.
  destruct (execute_loop trees 0 (map (fun _ => None) trees) eq_refl) as (en & res & E & H).
  { split.
    - apply map_length.
    - intros r t tr n Q E. rewrite nth_error_map in E. destruct (nth_error trees r); discriminate.
    - intros r Hr. lia.
    - intros c r Hc. lia.
    - intros r tr _ E. rewrite nth_error_map in E. destruct (nth_error trees r); discriminate.
    - intros r t Hr. lia. }
  exists en, res. split; [exact E|]. destruct res as [cs|]; [|exact H]. destruct H as (k & Hk & HI). split; [apply (si_length k cs HI)|]. split.
  - intros r t Et. apply (si_required k cs HI r t); [|exact Et]. assert (r < length trees) by (apply nth_error_Some; congruence). lia.
  - intros r t n Q Et EC Hu. assert (Hr : r < length trees) by (apply nth_error_Some; congruence). destruct (si_done k cs HI r) as (tr & Etr); [lia|exact Hr|]. exists tr. split; [exact Etr|].
    apply (si_holds k cs HI r t tr n Q Etr Et EC). right. exact Hu.
Qed.
End Series.
