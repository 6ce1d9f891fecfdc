(* Bindings of the join; its rows. *)
From Coq Require Import List ZArith Bool Lia Arith Sorted.
From Verif Require Import ColumnModel ColumnSpec ColumnProofs ScanModel ScanSpec ScanProofs TrieModel TrieScanSpec OpModel OpSpec OpProofs1 OpProofs2.
Import ListNotations.
Local Open Scope nat_scope.

Definition mem (ms : list marker) (x : marker) : bool := existsb (Nat.eqb x) ms.
Lemma mem_In : forall ms x, mem ms x = true <-> In x ms.
Proof.
  intros ms x. unfold mem. rewrite existsb_exists. split; [intros (y & H & E); apply Nat.eqb_eq in E; subst; exact H|].
  intros H. exists x. split; [exact H|apply Nat.eqb_refl].
Qed.

(* ---------- columns of an input in the order of the output ---------- *)

Lemma ordered_cons2 : forall out x y ms, ordered_in out (x :: y :: ms) =
  match position_of x out, position_of y out with Some p, Some q => (p <? q) && ordered_in out (y :: ms) | _, _ => false end.
Proof. reflexivity. Qed.
Lemma ordered_shift : forall o out ms, ~ In o ms -> ordered_in (o :: out) ms = ordered_in out ms.
Proof.
  intros o out. induction ms as [|x ms IH]; intros H; [reflexivity|]. destruct ms as [|y ms]; [reflexivity|]. rewrite !ordered_cons2.
  rewrite IH by (intros H'; apply H; right; exact H'). cbn [position_of].
  destruct (Nat.eqb_spec x o) as [->|]; [exfalso; apply H; left; reflexivity|]. destruct (Nat.eqb_spec y o) as [->|]; [exfalso; apply H; right; left; reflexivity|].
  destruct (position_of x out), (position_of y out); reflexivity.
Qed.
Lemma ordered_first : forall o out ms x, ordered_in (o :: out) (x :: ms) = true -> ~ In o ms.
Proof.
  intros o out. induction ms as [|y ms IH]; intros x H; [intros []|]. rewrite ordered_cons2 in H.
  destruct (position_of x (o :: out)) as [p|] eqn:Ep; [|discriminate]. destruct (position_of y (o :: out)) as [q|] eqn:Eq; [|discriminate].
  apply andb_prop in H. destruct H as [H1 H2]. apply Nat.ltb_lt in H1. intros [->|Hin].
  - cbn in Eq. rewrite Nat.eqb_refl in Eq. injection Eq as <-. lia.
  - apply (IH y H2 Hin).
Qed.
Lemma ordered_filter : forall out ms, NoDup out -> ordered_in out ms = true -> incl ms out -> filter (mem ms) out = ms.
Proof.
  induction out as [|o out IH]; intros ms Hnd Ho Hi.
  - destruct ms as [|x ms]; [reflexivity|]. destruct (Hi x (or_introl eq_refl)).
  - apply NoDup_cons_iff in Hnd. destruct Hnd as [Hno Hnd]. destruct ms as [|x ms].
    { clear. induction (o :: out) as [|a l IHl]; [reflexivity|exact IHl]. }
    pose proof (ordered_first _ _ _ _ Ho) as Hf. cbn [filter]. destruct (mem (x :: ms) o) eqn:Em.
    + apply mem_In in Em. destruct Em as [->|Em]; [|tauto]. f_equal.
      transitivity (filter (mem ms) out).
      * apply filter_ext_in. intros a Ha. unfold mem. cbn [existsb]. destruct (Nat.eqb_spec a o) as [->|]; [tauto|reflexivity].
      * apply IH; [exact Hnd| |].
        -- rewrite <- (ordered_shift o out ms Hf). destruct ms as [|y ms]; [reflexivity|]. rewrite ordered_cons2 in Ho.
           destruct (position_of o (o :: out)), (position_of y (o :: out)); try discriminate. apply andb_prop in Ho. apply Ho.
        -- intros y Hy. destruct (Hi y (or_intror Hy)) as [->|H]; [tauto|exact H].
    + assert (Hn : ~ In o (x :: ms)) by (rewrite <- mem_In; congruence). apply IH; [exact Hnd|rewrite <- (ordered_shift o out _ Hn); exact Ho|].
      intros y Hy. destruct (Hi y Hy) as [->|H]; [tauto|exact H].
Qed.

Lemma marked_In : forall x i ms ic, In ic (marked x i ms) <-> fst ic = i /\ nth_error ms (snd ic) = Some x.
Proof.
  intros x i ms [j c]. unfold marked. rewrite in_flat_map. cbn [fst snd]. split.
  - intros (c' & Hc & H). destruct (nth_error ms c') as [y|] eqn:E; [|destruct H]. destruct (Nat.eqb_spec x y) as [->|]; [|destruct H].
    destruct H as [H|[]]. injection H as <- <-. auto.
  - intros [-> H]. exists c. rewrite H, Nat.eqb_refl. split; [|left; reflexivity]. apply in_seq. split; [lia|]. apply nth_error_Some. congruence.
Qed.
Lemma binding_In : forall inputs x ic, In ic (binding_of inputs x) <-> exists ms, nth_error inputs (fst ic) = Some ms /\ nth_error ms (snd ic) = Some x.
Proof.
  intros inputs x ic. unfold binding_of. rewrite in_flat_map. split.
  - intros (i & Hi & H). destruct (nth_error inputs i) as [ms|] eqn:E; [|destruct H]. apply marked_In in H. destruct H as [<- H]. eauto.
  - intros (ms & H1 & H2). exists (fst ic). rewrite H1. split; [|apply marked_In; auto]. apply in_seq. split; [lia|]. apply nth_error_Some. congruence.
Qed.
Lemma binding_takes : forall inputs x i ms, nth_error inputs i = Some ms -> takes i (binding_of inputs x) = mem ms x.
Proof.
  intros inputs x i ms H. apply eq_true_iff_eq. rewrite takes_In, mem_In, in_map_iff. split.
  - intros (ic & <- & Hic). apply binding_In in Hic. destruct Hic as (ms' & H1 & H2). assert (ms' = ms) by congruence. subst. eapply nth_error_In, H2.
  - intros Hx. apply In_nth_error in Hx. destruct Hx as [c Hc]. exists (i, c). split; [reflexivity|]. apply binding_In. cbn. eauto.
Qed.
Lemma NoDup_app' : forall A (l l' : list A), NoDup l -> NoDup l' -> (forall x, In x l -> ~ In x l') -> NoDup (l ++ l').
Proof.
  intros A l l' H H' Hd. induction H as [|a l Ha H IH]; [exact H'|]. cbn. constructor.
  - rewrite in_app_iff. intros [Hx|Hx]; [tauto|]. apply (Hd a); [left; reflexivity|exact Hx].
  - apply IH. intros x Hx. apply Hd. right. exact Hx.
Qed.
Lemma binding_NoDup : forall inputs x, (forall ms, In ms inputs -> NoDup ms) -> NoDup (map fst (binding_of inputs x)).
Proof.
  intros inputs x H. unfold binding_of.
  assert (HM : forall i ms, NoDup ms -> NoDup (map fst (marked x i ms))).
  { intros i ms Hnd. unfold marked. generalize (seq_NoDup (length ms) 0).
    assert (G : forall L, NoDup L -> length (flat_map (fun c => match nth_error ms c with Some y => if x =? y then [(i, c)] else [] | None => [] end) L) <= 1 ).
    { induction L as [|c L IHL]; intros HL; [cbn; lia|]. apply NoDup_cons_iff in HL. destruct HL as [Hc HL]. cbn [flat_map]. rewrite app_length. specialize (IHL HL).
      destruct (nth_error ms c) as [y|] eqn:E; [|cbn; lia]. destruct (Nat.eqb_spec x y) as [->|]; [|cbn; lia]. cbn [length].
      destruct (flat_map _ L) as [|ic rest] eqn:EL; [cbn; lia|]. exfalso.
      assert (Hic : In ic (flat_map (fun c => match nth_error ms c with Some z => if y =? z then [(i, c)] else [] | None => [] end) L)) by (rewrite EL; left; reflexivity).
      apply in_flat_map in Hic. destruct Hic as (c' & Hc' & Hin). destruct (nth_error ms c') as [z|] eqn:E'; [|destruct Hin]. destruct (Nat.eqb_spec y z) as [<-|]; [|destruct Hin].
      assert (c = c'). { apply (proj1 (NoDup_nth_error ms) Hnd); [apply nth_error_Some; congruence|congruence]. } subst. tauto. }
    intros HL. specialize (G _ HL). destruct (flat_map _ _) as [|a [|a' l]]; cbn in *; [constructor|constructor; [intros []|constructor]|lia]. }
  generalize (seq_NoDup (length inputs) 0). generalize (seq 0 (length inputs)). induction l as [|i L IH]; intros HL; [constructor|].
  apply NoDup_cons_iff in HL. destruct HL as [Hi HL]. cbn [flat_map]. rewrite map_app. apply NoDup_app'.
  - destruct (nth_error inputs i) as [ms|] eqn:E; [|constructor]. apply HM, H. eapply nth_error_In, E.
  - apply IH, HL.
  - intros j Hj Hj'. assert (j = i). { destruct (nth_error inputs i) as [ms|]; [|destruct Hj]. apply in_map_iff in Hj. destruct Hj as (ic & <- & Hic). apply marked_In in Hic. apply Hic. }
    subst j. apply in_map_iff in Hj'. destruct Hj' as (ic & E & Hic). apply in_flat_map in Hic. destruct Hic as (i' & Hi' & Hic).
    destruct (nth_error inputs i') as [ms|]; [|destruct Hic]. apply marked_In in Hic. destruct Hic as [E' _]. congruence.
Qed.
Lemma ordered_NoDup : forall out ms, NoDup out -> ordered_in out ms = true -> incl ms out -> NoDup ms.
Proof. intros out ms H1 H2 H3. rewrite <- (ordered_filter out ms H1 H2 H3). apply NoDup_filter, H1. Qed.

Lemma bindings_of_ok : forall inputs output seen bs, bindings_of inputs seen output = Ok bs ->
  bs = map (binding_of inputs) output /\ NoDup output /\ (forall x, In x output -> ~ In x seen) /\ forall x, In x output -> binding_of inputs x <> [].
Proof.
  intros inputs. induction output as [|x output IH]; intros seen bs H; cbn [bindings_of] in H.
  - injection H as <-. split; [reflexivity|]. split; [constructor|]. split; intros x [].
  - destruct (existsb (Nat.eqb x) seen) eqn:Es; [discriminate|]. destruct (binding_of inputs x) as [|ic b] eqn:Eb; [discriminate|].
    destruct (bindings_of inputs (x :: seen) output) as [bs'| |] eqn:E; cbn [bind] in H; try discriminate. injection H as <-.
    destruct (IH _ _ E) as (-> & H1 & H2 & H3). split; [cbn; rewrite Eb; reflexivity|]. split.
    { constructor; [|exact H1]. intros Hx. apply (H2 x Hx). left. reflexivity. }
    assert (Hs : ~ In x seen) by (rewrite <- mem_In; unfold mem; congruence). split.
    + intros y [<-|Hy]; [exact Hs|]. intros Hy'. apply (H2 y Hy). right. exact Hy'.
    + intros y [<-|Hy]; [congruence|apply H3, Hy].
Qed.

Lemma uses_filter : forall inputs output i ms, nth_error inputs i = Some ms ->
  uses i (map (binding_of inputs) output) = length (filter (mem ms) output).
Proof.
  intros inputs output i ms H. unfold uses. induction output as [|x output IH]; [reflexivity|]. cbn [map filter].
  rewrite (binding_takes _ x _ _ H). destruct (mem ms x); cbn [length]; rewrite IH; reflexivity.
Qed.

Lemma join_bindings_wf : forall output inputs bs, join_bindings output inputs = Ok bs -> (forall ms, In ms inputs -> incl ms output) ->
  bs = map (binding_of inputs) output /\ NoDup output /\ (forall ms, In ms inputs -> filter (mem ms) output = ms) /\
  wf_bindings (length inputs) (fun i => match nth_error inputs i with Some ms => length ms | None => 0 end) bs.
Proof.
  intros output inputs bs H Hincl. unfold join_bindings in H. destruct (forallb (ordered_in output) inputs) eqn:Ho; cbn [negb] in H; [|discriminate].
  rewrite forallb_forall in Ho. destruct (bindings_of_ok _ _ _ _ H) as (-> & Hnd & _ & Hne).
  assert (Hf : forall ms, In ms inputs -> filter (mem ms) output = ms) by (intros ms Hms; apply ordered_filter; auto).
  assert (Hnds : forall ms, In ms inputs -> NoDup ms) by (intros ms Hms; rewrite <- (Hf _ Hms); apply NoDup_filter, Hnd).
  split; [reflexivity|]. split; [exact Hnd|]. split; [exact Hf|]. constructor.
  - intros k bk E. rewrite nth_error_map in E. destruct (nth_error output k) as [x|] eqn:Ex; [|discriminate]. injection E as <-.
    split; [apply Hne; eapply nth_error_In, Ex|]. split; [apply binding_NoDup, Hnds|]. intros ic Hic. apply binding_In in Hic. destruct Hic as (ms & H1 & H2).
    split; [apply nth_error_Some; congruence|]. rewrite firstn_map. rewrite (uses_filter _ _ _ _ H1).
    pose proof (nth_error_In _ _ H1) as Hms. pose proof (nth_error_split _ _ Ex) as (o1 & o2 & Eo & Ek). subst k.
    assert (Efn : firstn (length o1) output = o1) by (rewrite Eo, firstn_app, Nat.sub_diag, firstn_all; cbn; apply app_nil_r). rewrite Efn.
    assert (Em : ms = filter (mem ms) o1 ++ x :: filter (mem ms) o2).
    { rewrite <- (Hf _ Hms) at 1. rewrite Eo, filter_app. cbn [filter]. assert (Hx : mem ms x = true) by (apply mem_In; eapply nth_error_In, H2). rewrite Hx. reflexivity. }
    apply (proj1 (NoDup_nth_error ms) (Hnds _ Hms)); [apply nth_error_Some; congruence|]. rewrite H2.
    pose proof (f_equal (fun L => nth_error L (length (filter (mem ms) o1))) Em) as E2. cbn beta in E2. rewrite E2 at 1. rewrite nth_error_app2 by lia. rewrite Nat.sub_diag. reflexivity.
  - intros i Hi. destruct (nth_error inputs i) as [ms|] eqn:E; [|apply nth_error_None in E; lia]. rewrite (uses_filter _ _ _ _ E).
    rewrite (Hf ms) by (eapply nth_error_In, E). reflexivity.
Qed.

(* ---------- rows ---------- *)

Lemma chosen_columns : forall inputs i ms, nth_error inputs i = Some ms -> forall output r, NoDup output -> length r = length output ->
  map Some (chosen i (map (binding_of inputs) output) r) = map (lookup output r) (filter (mem ms) output).
Proof.
  intros inputs i ms H. induction output as [|x output IH]; intros [|v r] Hnd Hl; cbn in Hl; try lia; [reflexivity|].
  apply NoDup_cons_iff in Hnd. destruct Hnd as [Hx Hnd]. cbn [map chosen filter]. rewrite (binding_takes _ x _ _ H).
  assert (E : map (lookup (x :: output) (v :: r)) (filter (mem ms) output) = map (lookup output r) (filter (mem ms) output)).
  { apply map_ext_in. intros y Hy. apply filter_In in Hy. cbn. destruct (Nat.eqb_spec y x) as [->|]; [tauto|reflexivity]. }
  destruct (mem ms x); cbn [map]; rewrite IH by (try exact Hnd; lia); rewrite E; [|reflexivity]. cbn [lookup]. rewrite Nat.eqb_refl. reflexivity.
Qed.
Lemma map_some_inj : forall A (l l' : list A), map Some l = map Some l' -> l = l'.
Proof. intros A. induction l as [|a l IH]; intros [|a' l'] H; cbn in H; try discriminate; [reflexivity|]. injection H as -> H. f_equal. apply IH, H. Qed.

Lemma join_tree_rows : forall m N Tau bs, wf_bindings m N bs -> forall r p, length p + length r = length bs ->
  (in_tree (join_tree Tau bs) p r <-> forall i, i < m -> in_tree (Tau i) (chosen i bs p) (chosen i (skipn (length p) bs) r)).
Proof.
  intros m N Tau bs HB. induction r as [|v r IH]; intros p Hl; cbn [in_tree].
  - split; [|tauto]. intros _ i Hi. destruct (skipn (length p) bs); exact I.
  - cbn [length] in Hl. destruct (nth_error bs (length p)) as [bk|] eqn:E; [|apply nth_error_None in E; lia].
    assert (Es : skipn (length p) bs = bk :: skipn (S (length p)) bs).
    { clear - E. revert E. generalize (length p). induction bs as [|a l IHl]; intros [|k] E; cbn in *; try discriminate; [congruence|]. apply IHl, E. }
    rewrite (join_tree_In m N Tau bs HB p (fst v) (snd v) bk E). rewrite IH by (rewrite app_length; cbn; lia).
    rewrite app_length. cbn [length]. rewrite Nat.add_1_r, Es. destruct (wb_layer _ _ _ HB _ _ E) as (Hne & Hnd & Hbk). split.
    + intros [H1 H2] i Hi. specialize (H2 i Hi). cbn [chosen]. rewrite (chosen_snoc i bs p v bk E) in H2. destruct (takes i bk) eqn:Et.
      * cbn [in_tree]. split; [|exact H2]. apply takes_In, in_map_iff in Et. destruct Et as (ic & <- & Hic). apply H1, Hic.
      * rewrite app_nil_r in H2. exact H2.
    + intros H. split.
      * intros ic Hic. specialize (H (fst ic) (proj1 (Hbk _ Hic))). cbn [chosen] in H. assert (Et : takes (fst ic) bk = true) by (apply takes_In, in_map, Hic). rewrite Et in H. apply H.
      * intros i Hi. specialize (H i Hi). cbn [chosen] in H. rewrite (chosen_snoc i bs p v bk E). destruct (takes i bk); [apply H|rewrite app_nil_r; exact H].
Qed.

(* ---------- weaker and combined scans ---------- *)

Lemma explores_weaken : forall n types tau sc b s, explores n types tau sc true s -> explores n types tau sc b s.
Proof.
  intros n types tau sc b s [HP (R & HS & Hs)]. split; [exact HP|]. exists R. split; [|exact Hs]. destruct HS. constructor; try assumption.
  intros s0 fs t c l gs H _. apply (e_current s0 fs t c l gs H). left. reflexivity.
Qed.
Lemma explores_false : forall n types tau sc b s, explores n types tau sc b s -> explores n types tau sc false s.
Proof.
  intros n types tau sc b s [HP (R & HS & Hs)]. split; [exact HP|]. exists R. split; [|exact Hs]. destruct HS. constructor; try assumption.
  intros s0 fs t c l gs H [E|E]; [discriminate|]. apply (e_current s0 fs t c l gs H). right. exact E.
Qed.
Lemma explores_inl : forall n types tau A B b s, explores n types tau A b s -> explores n types tau (either_trie A B) b (inl s).
Proof.
  intros n types tau A B b s [HP (R & HS & Hs)]. split; [exact HP|].
  exists (fun x fs => match x with inl a => R a fs | inr _ => False end). split; [|exact Hs]. constructor.
  - intros [a|x] fs H; [|destruct H]. apply (e_arity _ _ _ _ _ _ HS _ _ H).
  - intros [a|x] fs k H Hk; [|destruct H]. apply (e_types _ _ _ _ _ _ HS _ _ _ H Hk).
  - intros [a|x] fs H; [|destruct H]. apply (e_layer _ _ _ _ _ _ HS _ _ H).
  - intros [a|x] fs f H; [|destruct H]. destruct (e_up _ _ _ _ _ _ HS _ _ _ H) as (s' & E & H'). exists (inl s'). cbn. rewrite E. auto.
  - intros [a|x] fs t H Ho Hl; [|destruct H]. destruct (e_down _ _ _ _ _ _ HS _ _ t H Ho Hl) as (s' & E & H'). exists (inl s'). cbn. rewrite E. auto.
  - intros q [a|x] fs t c l H; [|destruct H]. destruct (e_ask _ _ _ _ _ _ HS q _ _ _ _ _ H) as (en & s' & E & H'). exists en, (inl s'). split; [|exact H'].
    intros fuel Hf. specialize (E fuel Hf). destruct q; cbn in *; rewrite E; reflexivity.
  - intros [a|x] fs t c l gs H Hs'; [|destruct H]. apply (e_current _ _ _ _ _ _ HS _ _ _ _ _ _ H Hs').
Qed.
Lemma explores_inr : forall n types tau A B b s, explores n types tau B b s -> explores n types tau (either_trie A B) b (inr s).
Proof.
  intros n types tau A B b s [HP (R & HS & Hs)]. split; [exact HP|].
  exists (fun x fs => match x with inr a => R a fs | inl _ => False end). split; [|exact Hs]. constructor.
  - intros [x|a] fs H; [destruct H|]. apply (e_arity _ _ _ _ _ _ HS _ _ H).
  - intros [x|a] fs k H Hk; [destruct H|]. apply (e_types _ _ _ _ _ _ HS _ _ _ H Hk).
  - intros [x|a] fs H; [destruct H|]. apply (e_layer _ _ _ _ _ _ HS _ _ H).
  - intros [x|a] fs f H; [destruct H|]. destruct (e_up _ _ _ _ _ _ HS _ _ _ H) as (s' & E & H'). exists (inr s'). cbn. rewrite E. auto.
  - intros [x|a] fs t H Ho Hl; [destruct H|]. destruct (e_down _ _ _ _ _ _ HS _ _ t H Ho Hl) as (s' & E & H'). exists (inr s'). cbn. rewrite E. auto.
  - intros q [x|a] fs t c l H; [destruct H|]. destruct (e_ask _ _ _ _ _ _ HS q _ _ _ _ _ H) as (en & s' & E & H'). exists en, (inr s'). split; [|exact H'].
    intros fuel Hf. specialize (E fuel Hf). destruct q; cbn in *; rewrite E; reflexivity.
  - intros [x|a] fs t c l gs H Hs'; [destruct H|]. apply (e_current _ _ _ _ _ _ HS _ _ _ _ _ _ H Hs').
Qed.

(* ---------- the generated join ---------- *)

Lemma all_some_none : forall A (l : list (option A)), all_some l = None -> In None l.
Proof. intros A. induction l as [|[a|] l IH]; cbn; intros H; try discriminate; [|left; reflexivity]. destruct (all_some l); [discriminate|right; apply IH; reflexivity]. Qed.
Lemma all_some_map : forall A (l : list (option A)) k, all_some l = Some k -> l = map Some k.
Proof. intros A. induction l as [|[a|] l IH]; intros k; cbn; intros H; try discriminate; [injection H as <-; reflexivity|]. destruct (all_some l); [|discriminate]. injection H as <-. cbn. f_equal. apply IH. reflexivity. Qed.

(* choosing the types, trees and relations of the inputs *)
Lemma choose_inputs : forall sc (b : bool) (Ts : list (table sc)) subs,
  (forall T, In T Ts -> table_ok b T) -> map input Ts = map Some subs ->
  exists (Ty : nat -> nat -> list stype) (Tau : nat -> tree) (R : nat -> tstate sc -> list frame -> Prop),
    forall i T, nth_error Ts i = Some T -> exists s, nth_error subs i = Some s /\
      simulates (length (cols T)) (Ty i) (Tau i) sc b (R i) /\ proper (length (cols T)) (Ty i) (Tau i) /\ R i s [] /\
      forall r, length r = length (cols T) -> (rows T r <-> in_tree (Tau i) [] r).
Proof.
  intros sc b. induction Ts as [|T Ts IH]; intros subs Hok Em.
  - exists (fun _ _ => []), (fun _ _ _ => []), (fun _ _ _ => True). intros [|i] T H; discriminate.
  - destruct subs as [|s subs]; [discriminate|]. cbn in Em. injection Em as Es Em.
    destruct (IH subs) as (Ty & Tau & R & H). { intros; apply Hok; right; assumption. } { exact Em. }
    pose proof (Hok T (or_introl eq_refl)) as HT. unfold table_ok, reads in HT. rewrite Es in HT. destruct HT as (ty & tau & [Hp (R0 & Hsim & Hs)] & Hr).
    exists (fun i => match i with O => ty | S i => Ty i end), (fun i => match i with O => tau | S i => Tau i end), (fun i => match i with O => R0 | S i => R i end).
    intros [|i] T' HT'; cbn in HT'.
    + injection HT' as <-. exists s. auto.
    + apply H, HT'.
Qed.

Lemma join_generate_reads : forall sub b output (Ts : list (table sub)) bs, Ts <> [] ->
  (forall T, In T Ts -> table_ok b T) -> join_bindings output (map cols Ts) = Ok bs ->
  (forall T, In T Ts -> incl (cols T) output) ->
  exists o, join_generate sub bs (map input Ts) = Ok o /\ reads (length output) (joined output Ts) (either_trie sub (join_trie sub)) b o.
Proof.
  intros sub b output Ts bs Hne Hok Hb Hincl.
  destruct (join_bindings_wf _ _ _ Hb) as (Ebs & Hnd & Hf & HB). { intros ms Hms. apply in_map_iff in Hms. destruct Hms as (T & <- & HT). apply Hincl, HT. }
  assert (Hlen : length bs = length output) by (rewrite Ebs; apply map_length).
  assert (Hparts : forall i T r, nth_error Ts i = Some T -> length r = length output -> forall q,
    part_of output r (cols T) q <-> q = chosen i bs r).
  { intros i T r HT Hr q. assert (Hi : nth_error (map cols Ts) i = Some (cols T)) by (rewrite nth_error_map, HT; reflexivity).
    pose proof (chosen_columns _ _ _ Hi output r Hnd Hr) as E. rewrite (Hf (cols T)) in E by (apply in_map; eapply nth_error_In, HT). rewrite <- Ebs in E.
    unfold part_of. rewrite <- E. split; [apply map_some_inj|intros ->; reflexivity]. }
  assert (Hclen : forall i T r, nth_error Ts i = Some T -> length r = length output -> length (chosen i bs r) = length (cols T)).
  { intros i T r HT Hr. assert (Hi : i < length (map cols Ts)) by (rewrite map_length; apply nth_error_Some; congruence).
    pose proof (wb_arity _ _ _ HB i Hi) as E. cbn beta in E. rewrite nth_error_map, HT in E. cbn in E. rewrite chosen_length by lia.
    rewrite Hr, <- Hlen, firstn_all. symmetry. exact E. }
  unfold join_generate. destruct (all_some (map input Ts)) as [subs|] eqn:Ea.
  2:{ exists None. split; [reflexivity|]. cbn. intros r Hr HJ. apply all_some_none, in_map_iff in Ea. destruct Ea as (T & ET & HT).
      destruct (HJ T HT) as (q & Hq1 & Hq2). pose proof (Hok T HT) as HT'. unfold table_ok, reads in HT'. rewrite ET in HT'. apply (HT' q); [|exact Hq2].
      destruct (In_nth_error _ _ HT) as [i Hi]. apply (Hparts i T r Hi Hr) in Hq1. subst q. apply (Hclen i T r Hi Hr). }
  pose proof (all_some_map _ _ _ Ea) as Em. destruct (choose_inputs sub b Ts subs Hok Em) as (Ty & Tau & R & Hch).
  assert (Hls : length subs = length Ts). { pose proof (f_equal (@length _) Em) as E0. rewrite !map_length in E0. lia. }
  assert (Hrows : forall r, length r = length output -> (joined output Ts r <-> forall i, i < length (map cols Ts) -> in_tree (Tau i) [] (chosen i bs r))).
  { intros r Hr. unfold joined. split.
    - intros H i Hi. rewrite map_length in Hi. destruct (nth_error Ts i) as [T|] eqn:ET; [|apply nth_error_None in ET; lia].
      destruct (H T (nth_error_In _ _ ET)) as (q & Hq1 & Hq2). apply (Hparts i T r ET Hr) in Hq1. subst q.
      destruct (Hch i T ET) as (s & _ & _ & _ & _ & Hrow). apply Hrow; [apply (Hclen i T r ET Hr)|exact Hq2].
    - intros H T HT. destruct (In_nth_error _ _ HT) as [i Hi]. exists (chosen i bs r). split; [apply (Hparts i T r Hi Hr); reflexivity|].
      destruct (Hch i T Hi) as (s & _ & _ & _ & _ & Hrow). apply Hrow; [apply (Hclen i T r Hi Hr)|]. apply H. rewrite map_length. apply nth_error_Some. congruence. }
  destruct subs as [|s subs]; [destruct Ts; [congruence|discriminate]|]. destruct subs as [|s' subs].
  - (* one input *)
    destruct Ts as [|T [|T' Ts]]; cbn in Hls; try lia. exists (Some (inl s)). split; [reflexivity|]. cbn [reads].
    destruct (Hch 0 T eq_refl) as (s0 & Es0 & Hsim & Hprop & Hs0 & Hrow). cbn in Es0. injection Es0 as <-.
    assert (Ecols : cols T = output).
    { rewrite <- (Hf (cols T)) by (left; reflexivity). assert (Hall : forall x, In x output -> mem (cols T) x = true).
      { intros x Hx. destruct (bindings_of_ok (map cols [T]) output [] bs) as (_ & _ & _ & Hb').
        { unfold join_bindings in Hb. destruct (negb (forallb (ordered_in output) (map cols [T]))); [discriminate|exact Hb]. }
        specialize (Hb' x Hx). destruct (binding_of (map cols [T]) x) as [|ic l] eqn:E; [congruence|].
        assert (Hic : In ic (binding_of (map cols [T]) x)) by (rewrite E; left; reflexivity). apply binding_In in Hic. destruct Hic as (ms & H1 & H2).
        destruct (fst ic) as [|[|k]]; cbn in H1; try discriminate. injection H1 as <-. apply mem_In. eapply nth_error_In, H2. }
      clear - Hall. induction output as [|x l IH]; [reflexivity|]. cbn. rewrite (Hall x (or_introl eq_refl)). f_equal. apply IH. intros y Hy. apply Hall. right. exact Hy. }
    exists (Ty 0), (Tau 0). split.
    + apply explores_inl. rewrite <- Ecols. split; [exact Hprop|]. exists (R 0). auto.
    + intros r Hr. rewrite (Hrows r Hr). assert (Ec : chosen 0 bs r = r).
      { symmetry. apply (Hparts 0 T r eq_refl Hr). unfold part_of. rewrite Ecols. clear - Hr Hnd. revert r Hr. induction output as [|x l IH]; intros [|v r] Hr; cbn in Hr; try lia; [reflexivity|].
        apply NoDup_cons_iff in Hnd. destruct Hnd as [Hx Hnd]. cbn. rewrite Nat.eqb_refl. f_equal. rewrite (IH Hnd r) by lia. apply map_ext_in. intros y Hy. cbn. destruct (Nat.eqb_spec y x) as [->|]; [tauto|reflexivity]. }
      split; [intros H; specialize (H 0 ltac:(cbn; lia)); rewrite Ec in H; exact H|]. intros H i Hi. cbn in Hi. assert (i = 0) by lia. subst i. rewrite Ec. exact H.
  - (* several inputs *)
    set (m := length (map cols Ts)) in *. set (N := fun i => match nth_error (map cols Ts) i with Some ms => length ms | None => 0 end) in *.
    assert (HS : forall i, i < m -> simulates (N i) (Ty i) (Tau i) sub b (R i)).
    { intros i Hi. unfold m in Hi. rewrite map_length in Hi. destruct (nth_error Ts i) as [T|] eqn:ET; [|apply nth_error_None in ET; lia].
      unfold N. rewrite nth_error_map, ET. cbn. destruct (Hch i T ET) as (s0 & _ & H & _). exact H. }
    assert (HP : forall i, i < m -> proper (N i) (Ty i) (Tau i)).
    { intros i Hi. unfold m in Hi. rewrite map_length in Hi. destruct (nth_error Ts i) as [T|] eqn:ET; [|apply nth_error_None in ET; lia].
      unfold N. rewrite nth_error_map, ET. cbn. destruct (Hch i T ET) as (s0 & _ & _ & H & _). exact H. }
    destruct (join_new_ok sub b m N Ty Tau R HS bs HB (join_types Ty bs) (s :: s' :: subs)) as (j & Ej & Etj & Hj).
    { unfold m. rewrite map_length. exact Hls. }
    { intros i x Hx. assert (Hi : i < length Ts) by (rewrite <- Hls; apply nth_error_Some; congruence). destruct (nth_error Ts i) as [T|] eqn:ET; [|apply nth_error_None in ET; lia].
      destruct (Hch i T ET) as (s0 & E0 & _ & _ & H & _). assert (s0 = x) by congruence. subst. exact H. }
    specialize (Hj Etj). rewrite Ej. cbn [bind]. exists (Some (inr j)). split; [reflexivity|]. cbn [reads]. rewrite <- Hlen. eexists. exists (join_tree Tau bs). split.
    + apply explores_inr, explores_weaken. split; [apply (join_proper m N Ty Tau HP bs HB)|].
      exists (join_state sub m R bs (join_types Ty bs)). split; [|exact Hj].
      apply (join_simulates sub b m N Ty Tau R HS HP bs HB). unfold join_types. apply map_length.
    + intros r Hr. rewrite Hlen in Hr. rewrite (Hrows r Hr).
      rewrite (join_tree_rows m N Tau bs HB r []) by (cbn; lia). cbn [length skipn].
      assert (E0 : forall i, chosen i bs [] = []) by (intros i; destruct bs; reflexivity). split; intros H i Hi; specialize (H i Hi); rewrite ?E0 in *; exact H.
Qed.
