(* Inputs of trie operations: their states, layer by layer. *)
From Coq Require Import List ZArith Bool Lia Arith Sorted.
From Verif Require Import ColumnModel ColumnSpec ColumnProofs ScanModel ScanSpec ScanProofs TrieModel TrieScanSpec OpModel.
Import ListNotations.
Local Open Scope nat_scope.

(* in every layer of the result: its type and the current value and values to come of the inputs that
   take part in it *)
Definition part : Type := (stype * (nat -> option (option Z * list Z)))%type.
Definition part_frame (i : nat) (p : part) : list frame :=
  match snd p i with Some (c, l) => [(fst p, c, l)] | None => [] end.
Definition ctx (i : nat) (st : list part) : list frame := flat_map (part_frame i) st.

Lemma ctx_app : forall i st st', ctx i (st ++ st') = ctx i st ++ ctx i st'.
Proof. intros. apply flat_map_app. Qed.
Lemma ctx_last : forall i st p, ctx i (st ++ [p]) = ctx i st ++ part_frame i p.
Proof. intros. rewrite ctx_app. cbn. rewrite app_nil_r. reflexivity. Qed.

Section Base.
Variable sub : triescan.
Variable b : bool.
Variable m : nat.
Variable N : nat -> nat.
Variable Ty : nat -> nat -> list stype.
Variable Tau : nat -> tree.
Variable R : nat -> tstate sub -> list frame -> Prop.
Hypothesis HS : forall i, i < m -> simulates (N i) (Ty i) (Tau i) sub b (R i).

Definition subs_at (subs : list (tstate sub)) (st : list part) : Prop :=
  length subs = m /\ forall i s, nth_error subs i = Some s -> R i s (ctx i st).

Lemma subs_get : forall subs st i, subs_at subs st -> i < m -> exists s, nth_error subs i = Some s /\ index subs i = Ok s /\ R i s (ctx i st).
Proof.
  intros subs st i [Hl H] Hi. destruct (nth_error subs i) as [s|] eqn:E; [|apply nth_error_None in E; lia].
  exists s. split; [reflexivity|]. split; [apply index_Ok; exact E|apply H, E].
Qed.

(* ---------- moving the listed inputs ---------- *)

Lemma fold_change : forall (f : tstate sub -> res (tstate sub)) (is : list nat) subs (C C' : nat -> list frame),
  length subs = m -> NoDup is -> (forall i, In i is -> i < m) ->
  (forall i s, nth_error subs i = Some s -> R i s (C i)) ->
  (forall i s, In i is -> R i s (C i) -> exists s', f s = Ok s' /\ R i s' (C' i)) ->
  (forall i, ~ In i is -> C' i = C i) ->
  exists subs', fold_res (change sub f) subs is = Ok subs' /\ length subs' = m /\ forall i s, nth_error subs' i = Some s -> R i s (C' i).
Proof.
  intros f is. induction is as [|a is IH]; intros subs C C' Hl Hnd Hlt HC Hf Hn; cbn [fold_res].
  - exists subs. split; [reflexivity|]. split; [exact Hl|]. intros i s Hi. rewrite (Hn i) by (intros []). apply HC, Hi.
  - apply NoDup_cons_iff in Hnd. destruct Hnd as [Hna Hnd']. assert (Ha : a < m) by (apply Hlt; left; reflexivity).
    destruct (nth_error subs a) as [s|] eqn:Es; [|apply nth_error_None in Es; lia].
    destruct (Hf a s (or_introl eq_refl) (HC _ _ Es)) as (s' & Ef & Hs').
    unfold change at 1. assert (Ei : index subs a = Ok s) by (apply index_Ok; exact Es). rewrite Ei. cbn [bind]. rewrite Ef. cbn [bind].
    destruct (IH (set_nth a s' subs) (fun i => if i =? a then C' a else C i) C') as (subs' & E' & Hl' & H').
    + rewrite set_nth_length. exact Hl.
    + exact Hnd'.
    + intros i Hi. apply Hlt. right. exact Hi.
    + intros i x Hx. destruct (Nat.eqb_spec i a) as [->|Hne].
      * rewrite set_nth_same in Hx by lia. injection Hx as <-. exact Hs'.
      * rewrite set_nth_other in Hx by congruence. apply HC, Hx.
    + intros i x Hi Hx. destruct (Nat.eqb_spec i a) as [->|Hne]; [tauto|]. apply (Hf i x (or_intror Hi) Hx).
    + intros i Hi. destruct (Nat.eqb_spec i a) as [->|Hne]; [reflexivity|]. apply Hn. intros [->|H]; [congruence|tauto].
    + exists subs'. auto.
Qed.

(* ---------- the column scans of the inputs ---------- *)

(* in a layer of type t, above the layers st *)
Definition col_rel (st : list part) (t : stype) (s : nat * nat * tstate sub) (c : option Z) (l : list Z) : Prop :=
  increasing (ahead c l) /\ fst (fst s) < m /\ snd (fst s) = length (ctx (fst (fst s)) st) /\
  R (fst (fst s)) (snd s) (ctx (fst (fst s)) st ++ [(t, c, l)]).

Lemma col_implements : forall st t, implements (fun _ => True) (sub_column sub t) b (fun _ _ => True) (col_rel st t).
Proof.
  intros st t. constructor.
  - intros s c l H. apply H.
  - intros; exact I.
  - intros [[i k] s] c l (Hinc & Hi & Hk & Hr) Hs. cbn in *. subst k. apply (e_current _ _ _ _ _ _ (HS i Hi) _ _ _ _ _ _ Hr Hs).
  - intros [[i k] s] c l q (Hinc & Hi & Hk & Hr) _. cbn in Hi, Hk, Hr. subst k.
    destruct (e_ask _ _ _ _ _ _ (HS i Hi) q s _ t c l Hr) as (en & s' & He & Hr').
    exists en, (i, length (ctx i st), s'). split; [|split; [exact I|]].
    + intros fuel Hf. specialize (He fuel Hf). destruct q; cbn in *; rewrite He; reflexivity.
    + unfold col_rel. cbn [fst snd]. rewrite ahead_split. split; [apply after_increasing, Hinc|]. split; [exact Hi|]. split; [reflexivity|exact Hr'].
Qed.

(* ---------- borrowing and returning the states ---------- *)

Lemma borrow_all : forall subs ics, length subs = m -> (forall ic, In ic ics -> fst ic < m) ->
  exists scans, map_res (borrow sub subs) ics = Ok scans /\ map fst scans = ics /\
    forall s, In s scans -> nth_error subs (fst (fst s)) = Some (snd s).
Proof.
  intros subs ics Hl. induction ics as [|ic ics IH]; intros Hlt; cbn [map_res].
  - exists []. split; [reflexivity|]. split; [reflexivity|intros s []].
  - destruct IH as (scans & E & Em & H). { intros; apply Hlt; right; assumption. }
    pose proof (Hlt ic (or_introl eq_refl)) as Hi.
    destruct (nth_error subs (fst ic)) as [s|] eqn:Es; [|apply nth_error_None in Es; lia].
    unfold borrow at 1. assert (Ei : index subs (fst ic) = Ok s) by (apply index_Ok; exact Es). rewrite Ei. cbn [bind]. rewrite E. cbn [bind].
    exists ((ic, s) :: scans). split; [reflexivity|]. split; [cbn; congruence|].
    intros x [<-|Hx]; [exact Es|apply H, Hx].
Qed.

Lemma give_back_length : forall scans subs, length (give_back sub scans subs) = length subs.
Proof. induction scans as [|s scans IH]; intros subs; [reflexivity|]. cbn. unfold give_back in IH. rewrite IH, set_nth_length. reflexivity. Qed.
Lemma give_back_other : forall scans subs i, ~ In i (map (fun s => fst (fst s)) scans) -> nth_error (give_back sub scans subs) i = nth_error subs i.
Proof.
  induction scans as [|s scans IH]; intros subs i Hi; [reflexivity|]. cbn in Hi |- *. unfold give_back in IH. rewrite IH by tauto.
  apply set_nth_other. intros E. apply Hi. left. exact E.
Qed.
Lemma give_back_in : forall scans subs s, NoDup (map (fun s => fst (fst s)) scans) -> In s scans -> fst (fst s) < length subs ->
  nth_error (give_back sub scans subs) (fst (fst s)) = Some (snd s).
Proof.
  induction scans as [|s0 scans IH]; intros subs s Hnd Hin Hlt; [destruct Hin|]. cbn in Hnd. apply NoDup_cons_iff in Hnd. destruct Hnd as [Hna Hnd'].
  cbn [give_back fold_left]. destruct Hin as [->|Hin].
  - change (nth_error (give_back sub scans (set_nth (fst (fst s)) (snd s) subs)) (fst (fst s)) = Some (snd s)).
    rewrite give_back_other by exact Hna. apply set_nth_same, Hlt.
  - apply IH; [exact Hnd'|exact Hin|]. rewrite set_nth_length. exact Hlt.
Qed.
End Base.

(* ---------- layers ---------- *)

Fixpoint layers (ok : nat -> frame -> part -> Prop) (k : nat) (fs : list frame) (st : list part) : Prop :=
  match fs, st with
  | [], [] => True
  | f :: fs', p :: st' => ok k f p /\ layers ok (S k) fs' st'
  | _, _ => False
  end.
Lemma layers_length : forall ok fs k st, layers ok k fs st -> length st = length fs.
Proof. intros ok. induction fs as [|f fs IH]; intros k [|p st] H; cbn in *; try tauto. f_equal. eapply IH, H. Qed.
Lemma layers_snoc : forall ok fs k st f p, layers ok k fs st -> ok (k + length fs) f p -> layers ok k (fs ++ [f]) (st ++ [p]).
Proof.
  intros ok. induction fs as [|g fs IH]; intros k [|q st] f p H Hok; cbn in *; try tauto.
  - rewrite Nat.add_0_r in Hok. auto.
  - split; [apply H|]. apply IH; [apply H|]. replace (S k + length fs) with (k + S (length fs)) by lia. exact Hok.
Qed.
Lemma layers_unsnoc : forall ok fs k st f, layers ok k (fs ++ [f]) st -> exists st' p, st = st' ++ [p] /\ layers ok k fs st' /\ ok (k + length fs) f p.
Proof.
  intros ok. induction fs as [|g fs IH]; intros k st f H.
  - destruct st as [|p [|q st]]; cbn in H; try tauto. exists [], p. cbn. rewrite Nat.add_0_r. tauto.
  - destruct st as [|p st]; cbn in H; [tauto|]. destruct H as [H1 H2]. destruct (IH _ _ _ H2) as (st' & q & -> & H3 & H4).
    exists (p :: st'), q. split; [reflexivity|]. cbn [layers length]. split; [auto|]. replace (k + S (length fs)) with (S k + length fs) by lia. exact H4.
Qed.
Lemma layers_weaken : forall (ok ok' : nat -> frame -> part -> Prop) fs k st,
  (forall j f p, k <= j -> j < k + length fs -> ok j f p -> ok' j f p) -> layers ok k fs st -> layers ok' k fs st.
Proof.
  intros ok ok'. induction fs as [|f fs IH]; intros k [|p st] H HL; cbn in *; try tauto. split; [apply H; [lia|lia|apply HL]|].
  apply IH; [|apply HL]. intros j g q H1 H2. apply H; lia.
Qed.
Lemma layers_mid : forall ok fs k st f gs, layers ok k (fs ++ f :: gs) st -> exists p, ok (k + length fs) f p.
Proof.
  intros ok. induction fs as [|g fs IH]; intros k st f gs H; destruct st as [|p st]; cbn in H; try tauto.
  - exists p. rewrite Nat.add_0_r. apply H.
  - destruct H as [_ H]. destruct (IH _ _ _ _ H) as [q Hq]. exists q. cbn [length]. replace (k + S (length fs)) with (S k + length fs) by lia. exact Hq.
Qed.

(* a list of numbered values as a function *)
Fixpoint assoc {A} (i : nat) (l : list (nat * A)) : option A :=
  match l with [] => None | (j, x) :: l' => if i =? j then Some x else assoc i l' end.
Lemma assoc_none : forall A i (l : list (nat * A)), assoc i l = None <-> ~ In i (map fst l).
Proof.
  intros A i l. induction l as [|[j x] l IH]; cbn; [tauto|]. destruct (Nat.eqb_spec i j) as [->|Hn].
  - split; [discriminate|tauto].
  - rewrite IH. split; [intros H [E|H']; [congruence|tauto]|tauto].
Qed.
Lemma assoc_in : forall A i (x : A) l, NoDup (map fst l) -> (assoc i l = Some x <-> In (i, x) l).
Proof.
  intros A i x l. induction l as [|[j y] l IH]; intros Hnd; cbn; [split; [discriminate|tauto]|]. cbn in Hnd. apply NoDup_cons_iff in Hnd. destruct Hnd as [Hn Hnd].
  destruct (Nat.eqb_spec i j) as [->|Hne].
  - split; [intros E; injection E as ->; left; reflexivity|]. intros [E|H]; [congruence|]. exfalso. apply Hn. change j with (fst (j, x)). apply in_map, H.
  - rewrite IH by exact Hnd. split; [tauto|]. intros [E|H]; [congruence|exact H].
Qed.
Lemma combine_fst : forall A B (l : list A) (l' : list B), length l = length l' -> map fst (combine l l') = l.
Proof. intros A B. induction l as [|a l IH]; intros [|b l'] H; cbn in *; try lia; [reflexivity|]. f_equal. apply IH. lia. Qed.
Lemma combine_nth : forall A B (l : list A) (l' : list B) k a b, nth_error l k = Some a -> nth_error l' k = Some b -> In (a, b) (combine l l').
Proof. intros A B. induction l as [|x l IH]; intros [|y l'] [|k] a b H H'; cbn in *; try discriminate; [left; congruence|]. right. eapply IH; eassumption. Qed.
Lemma combine_In : forall A B (l : list A) (l' : list B) a b, In (a, b) (combine l l') -> exists k, nth_error l k = Some a /\ nth_error l' k = Some b.
Proof.
  intros A B. induction l as [|x l IH]; intros [|y l'] a b H; cbn in H; try tauto. destruct H as [E|H].
  - exists 0. cbn. split; congruence.
  - destruct (IH _ _ _ H) as [k Hk]. exists (S k). exact Hk.
Qed.

(* ---------- operators keep what requests keep ---------- *)

Section Keeps.
Variable sc : scanner.
Variable A : Type.
Variable g : state sc -> A.
Hypothesis Hg : forall q fuel s s' o, ask sc q fuel s = Ok (s', o) -> g s' = g s.

Lemma map_set_nth : forall i x l, (forall y, nth_error l i = Some y -> g x = g y) -> map g (set_nth i x l) = map g l.
Proof.
  intros i x l. revert i. induction l as [|y l IH]; intros [|i] H; cbn; [reflexivity|reflexivity| |].
  - f_equal. apply H. reflexivity.
  - f_equal. apply IH. intros z Hz. apply H, Hz.
Qed.
Lemma index_nth : forall B (l : list B) i x, index l i = Ok x -> nth_error l i = Some x.
Proof. intros B l i x H. unfold index in H. destruct (nth_error l i); [congruence|discriminate]. Qed.
Lemma put_keeps : forall q fuel s s' o i l, ask sc q fuel s = Ok (s', o) -> index l i = Ok s -> map g (set_nth i s' l) = map g l.
Proof. intros q fuel s s' o i l Ha Hi. apply map_set_nth. intros y Hy. apply index_nth in Hi. rewrite (Hg _ _ _ _ _ Ha). congruence. Qed.

Lemma next_loop_keeps : forall fuel scans active max matched scans' active' o,
  next_loop sc fuel scans active max matched = Ok (scans', active', o) -> map g scans' = map g scans.
Proof.
  induction fuel as [|fuel IH]; intros scans active max matched scans' active' o H; cbn [next_loop] in H; destruct (matched =? length scans); try congruence.
  destruct (index scans ((active + 1) mod length scans)) as [s| |] eqn:Ei; cbn [bind] in H; try discriminate.
  destruct (s_seek sc fuel max s) as [[s' o']| |] eqn:Es; cbn [bind fst snd] in H; try discriminate.
  pose proof (put_keeps (RSeek max) fuel s s' o' _ scans Es Ei) as Hk.
  destruct o' as [v|]; [|injection H as <- <- <-; exact Hk].
  destruct (v =? max)%Z; apply IH in H; congruence.
Qed.
Lemma join_keeps : forall q fuel j j' o, ask (join_scanner sc) q fuel j = Ok (j', o) -> map g (j_scans _ j') = map g (j_scans _ j).
Proof.
  intros q fuel j j' o H.
  assert (G : exists s, index (j_scans _ j) (j_active _ j) = Ok s /\ join_finish sc fuel j (ask sc q fuel s) = Ok (j', o)).
  { destruct q; cbn in H; unfold join_next, join_seek in H; (destruct (index (j_scans _ j) (j_active _ j)) as [s| |] eqn:Ei; cbn [bind] in H; try discriminate); exists s; split; auto. }
  destruct G as (s & Ei & G). unfold join_finish in G. destruct (ask sc q fuel s) as [[s' o']| |] eqn:Ea; cbn [bind fst snd] in G; try discriminate.
  pose proof (put_keeps q fuel s s' o' _ _ Ea Ei) as Hk. destruct o' as [v|].
  - destruct (next_loop sc fuel (set_nth (j_active _ j) s' (j_scans _ j)) (j_active _ j) v 1) as [[[sc' ac'] o'']| |] eqn:El; cbn [bind fst snd] in G; try discriminate.
    injection G as <- <-. cbn [j_scans]. apply next_loop_keeps in El. congruence.
  - cbn [bind fst snd] in G. injection G as <- <-. exact Hk.
Qed.
End Keeps.

Lemma column_keeps : forall sub t q fuel (s s' : state (sub_column sub t)) o, ask (sub_column sub t) q fuel s = Ok (s', o) -> fst s' = fst s.
Proof.
  intros sub t q fuel s s' o H. destruct q; cbn in H.
  - destruct (ts_next sub fuel (snd (fst s)) t (snd s)); cbn in H; try discriminate. injection H as <- _. reflexivity.
  - destruct (ts_seek sub fuel (snd (fst s)) t v (snd s)); cbn in H; try discriminate. injection H as <- _. reflexivity.
Qed.
