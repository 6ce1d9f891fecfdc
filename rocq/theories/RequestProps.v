(** C55: rules with imports request all bindings they need, and each of them once. *)
From Coq Require Import String List Arith Bool.
From Verif Require Import RequestModel RequestSpec RequestProofs RequestNames.
Import ListNotations.
Local Open Scope list_scope.
Local Open Scope string_scope.

(** After any applications of the rules, a row that agrees with rows the inputs of a rule have had, each at any time, is imported if and only
    if it is a row of the source. *)
Theorem C55_exact : forall source fetch program h r s a t, delivers source fetch -> (forall r, In r program -> good_rule r) -> same_patterns program ->
  (forall r inputs, In (r, inputs) h -> In r program) -> In r program -> seen h r s -> In a (r_atoms r) -> agrees r a s t ->
  (s_imported (run fetch h) (i_pred a) t <-> source (i_pred a) t).
Proof.
  intros source fetch program h r s a t Hf Hg Hp Hh Hr Hs Ha Hag. split; [apply run_sound; exact Hf|].
  intros H. eapply imported_complete; eassumption.
Qed.
Print Assumptions C55_exact.

(** The condition on patterns holds if each import atom has a predicate of its own. *)
Theorem C55_own_predicates : forall program, (forall r, In r program -> good_rule r) ->
  (forall r r' a a', In r program -> In r' program -> In a (r_atoms r) -> In a' (r_atoms r') -> i_pred a = i_pred a' -> r = r' /\ a = a') -> same_patterns program.
Proof. exact own_same. Qed.
Print Assumptions C55_own_predicates.

(** Only rows of the source are imported. *)
Theorem C55_sound : forall source fetch h q t, delivers source fetch -> s_imported (run fetch h) q t -> source q t.
Proof. intros source fetch h q t Hf. apply run_sound. exact Hf. Qed.
Print Assumptions C55_sound.

(** If a rule is applied to rows that its inputs have had before, then no bindings are new. *)
Theorem C55_once : forall fetch h r inputs,
  (forall i t, In t (nth i inputs []) -> exists inputs', In (r, inputs') h /\ In t (nth i inputs' [])) -> forall p, fresh (run fetch h) r inputs p = [].
Proof. exact nothing_fresh. Qed.
Print Assumptions C55_once.

(** Different patterns have different names (no pattern has an empty list of positions), so their tables are different. *)
Theorem C55_names : forall p q, p_subset p <> Some [] -> p_subset q <> Some [] -> name p = name q -> p = q.
Proof. exact name_inj. Qed.
Print Assumptions C55_names.

(** The tables have as many columns as the bindings have variables. *)
Theorem C55_arity : forall input a p b o, NoDup (List.concat input) -> NoDup (i_vars a) -> In (p, b, o) (entries input a) ->
  List.length b = arity p /\ p_subset p <> Some [].
Proof.
  intros input a p b o H1 H2 H. split; [eapply entry_arity; eassumption|].
  assert (R : forall x, In x (flat_map (raw_of input a) input) -> p_subset (fst (fst x)) <> Some []).
  { intros x Hx. apply in_flat_map in Hx. destruct Hx as [vars [_ Hx]]. unfold raw_of in Hx.
    destruct (subset_of (bound_variables input a) vars); [destruct Hx|]. destruct Hx as [<- | []]. discriminate. }
  rewrite entries_raw in H. destruct (flat_map (raw_of input a) input) as [|[[q c] i] [|y l]]; [destruct H | |].
  - destruct H as [H | []]. injection H as <- <- <-. discriminate.
  - apply (R _ H).
Qed.
Print Assumptions C55_arity.

Definition exactly (source : string -> row -> Prop) (q : string) (factors : list (list nat * list row * list row)) (t : row) : Prop := source q t /\ wanted factors t.
Lemma exactly_delivers : forall source, delivers source (exactly source).
Proof. intros source q factors t. unfold exactly. tauto. Qed.

Definition xyz := mk_import "p" ["x"; "y"; "z"].
Definition separate := mk_rule [["x"]; ["y"]; ["z"]] [xyz].
Definition joined := mk_rule [["x"]; ["y"; "z"]] [xyz].
Definition applications := [(separate, [[[1]]; [[0]]; [[0]]]); (joined, [[[0]]; [[1; 1]]]); (separate, [[[0]]; [[0]]; [[0]]])].

Ltac no_dup := repeat (constructor; [cbn; intuition discriminate|]); constructor.

Lemma separate_good : good_rule separate.
Proof. split; [no_dup|]. intros a [<- | []]. split; [no_dup|]. exists "x". cbn. auto. Qed.
Lemma joined_good : good_rule joined.
Proof. split; [no_dup|]. intros a [<- | []]. split; [no_dup|]. exists "x". cbn. auto. Qed.

(** Without the condition on patterns a rule can make bindings of one factor known that another rule combines with bindings it has not requested:
    p is an import for both rules, whose other variables come from three atoms in one rule, and from two in the other.  The last application
    requests nothing, and the row (0, 0, 0) has not been requested before. *)
Theorem C55_shared_refuted : ~ (forall source fetch program h r s a t, delivers source fetch -> (forall r, In r program -> good_rule r) ->
  (forall r inputs, In (r, inputs) h -> In r program) -> In r program -> seen h r s -> In a (r_atoms r) -> agrees r a s t ->
  (s_imported (run fetch h) (i_pred a) t <-> source (i_pred a) t)).
Proof.
  intros H. specialize (H (fun _ _ => True) _ [separate; joined] applications separate (fun _ => 0) xyz [0; 0; 0] (exactly_delivers _)).
  assert (S : s_imported (run (exactly (fun _ _ => True)) applications) "p" [0; 0; 0]).
  { apply H; [| | left; reflexivity | | left; reflexivity | | exact I].
    - intros r [<- | [<- | []]]; [apply separate_good | apply joined_good].
    - intros r inputs. cbn. intros [E | [E | [E | []]]]; injection E as <- _; auto.
    - intros i vars Hi. destruct i as [|[|[|i]]]; cbn in Hi; [| | |destruct i; discriminate]; injection Hi as <-;
        exists [[[0]]; [[0]]; [[0]]]; (split; [right; right; left; reflexivity | left; reflexivity]).
    - intros k v Hk _. destruct k as [|[|[|k]]]; cbn in Hk; [reflexivity | reflexivity | reflexivity | destruct k; discriminate]. }
  vm_compute in S. destruct S as [[[S | S] | S] | S]; [exact S | | |];
    destruct S as [a [[<- | []] [_ [_ [W N]]]]].
  - destruct (W [0] [] [[1]] (or_introl eq_refl)) as [[] | [E | []]]. discriminate.
  - destruct (W [1; 2] [] [[1; 1]] (or_intror (or_introl eq_refl))) as [[] | [E | []]]. discriminate.
  - destruct N as [ks [old [new [N M]]]]. destruct N as [N | [N | [N | []]]]; injection N as <- <- <-; exact M.
Qed.
Print Assumptions C55_shared_refuted.

(** An import atom without variables of the inputs gets no rows at all: if ~q is negated and its variables are only bound by another import, then
    q is empty, and the negation holds for all rows. *)
Theorem C55_unbound_refuted : ~ (forall source fetch program h r s a t, delivers source fetch ->
  (forall r, In r program -> NoDup (List.concat (r_input r)) /\ forall a, In a (r_atoms r) -> NoDup (i_vars a)) -> same_patterns program ->
  (forall r inputs, In (r, inputs) h -> In r program) -> In r program -> seen h r s -> In a (r_atoms r) -> agrees r a s t ->
  (s_imported (run fetch h) (i_pred a) t <-> source (i_pred a) t)).
Proof.
  intros H. set (r := mk_rule [["x"]] [mk_import "p" ["x"; "y"]; mk_import "q" ["y"]]).
  specialize (H (fun _ _ => True) _ [r] [(r, [[[0]]])] r (fun _ => 0) (mk_import "q" ["y"]) [0] (exactly_delivers _)).
  assert (S : s_imported (run (exactly (fun _ _ => True)) [(r, [[[0]]])]) "q" [0]).
  { apply H; [| | | left; reflexivity | | right; left; reflexivity | | exact I].
    - intros r' [<- | []]. split; [no_dup|]. intros a [<- | [<- | []]]; no_dup.
    - intros r1 r2 p ps ps' [<- | []] [<- | []] Hps _ _ _. exists ps. split; [exact Hps | split; apply incl_refl].
    - intros r' inputs [E | []]. injection E as <- _. left. reflexivity.
    - intros i vars Hi. destruct i as [|i]; cbn in Hi; [|destruct i; discriminate]. injection Hi as <-.
      exists [[[0]]]. split; left; reflexivity.
    - intros k v Hk Hv. destruct k as [|k]; cbn in Hk; [reflexivity | destruct k; discriminate]. }
  destruct S as [S | [a [Ha [Ea [_ [_ N]]]]]]; [exact S|]. destruct Ha as [<- | [<- | []]]; [discriminate Ea|].
  destruct N as [ks [old [new [N M]]]]. exact N.
Qed.
Print Assumptions C55_unbound_refuted.

(** Two rules with imports of their own; the rows (0, 1, 2) of the first are in inputs at different times, and the bindings of the first
    application are not new in the last one. *)
Definition other := mk_rule [["x"; "u"]] [mk_import "q" ["v"; "x"]].
Example requests_case :
  (forall r, In r [separate; other] -> good_rule r) /\ same_patterns [separate; other] /\
  seen [(separate, [[[0]]; [[5]]; [[2]]]); (other, [[[3; 4]]]); (separate, [[[6]]; [[1]]; []])] separate (fun v => if v =? "x" then 0 else if v =? "y" then 1 else 2) /\
  agrees separate xyz (fun v => if v =? "x" then 0 else if v =? "y" then 1 else 2) [0; 1; 2] /\
  entries (r_input separate) xyz = [(mk_pattern "p" [true; true; true] (Some [0]), ["x"], 0); (mk_pattern "p" [true; true; true] (Some [1]), ["y"], 1);
    (mk_pattern "p" [true; true; true] (Some [2]), ["z"], 2)] /\
  entries (r_input other) (mk_import "q" ["v"; "x"]) = [(mk_pattern "q" [false; true] None, ["x"], 0)] /\
  name (mk_pattern "p" [true; true; true] (Some [0; 12])) = "__IMPORT_p_bbb_0,12" /\
  positions (mk_pattern "q" [false; true] None) = [1].
Proof.
  assert (G : forall r, In r [separate; other] -> good_rule r).
  { intros r [<- | [<- | []]]; [apply separate_good|]. split; [no_dup|]. intros a [<- | []]. split; [no_dup|]. exists "x". cbn. auto. }
  split; [exact G|]. split; [|split; [|split; [|vm_compute; repeat split]]].
  - apply own_same; [exact G|]. intros r r' a a' [<- | [<- | []]] [<- | [<- | []]] [<- | []] [<- | []] E; cbn in E; try discriminate; auto.
  - intros i vars Hi. destruct i as [|[|[|i]]]; cbn in Hi; [| | |destruct i; discriminate]; injection Hi as <-.
    + exists [[[0]]; [[5]]; [[2]]]. split; [left; reflexivity | left; reflexivity].
    + exists [[[6]]; [[1]]; []]. split; [right; right; left; reflexivity | left; reflexivity].
    + exists [[[0]]; [[5]]; [[2]]]. split; [left; reflexivity | left; reflexivity].
  - intros k v Hk _. destruct k as [|[|[|k]]]; cbn in Hk; [| | |destruct k; discriminate]; injection Hk as <-; reflexivity.
Qed.
