(** C50: a printed term can be read back, up to the grouping of sums and products. *)
From Coq Require Import String List Arith ZArith Bool Ascii Lia.
From Verif Require Import ParseModel ParseSpec NumLitModel NumLitSpec PrintTermModel PrintTermSpec PrintTermProofs1 PrintTermProofs2 PrintTermProofs3 PrintTermProofs4.
Import ListNotations.
Local Open Scope list_scope.

(** What is read from a printed term has the same operations with the same operands in the same order, but the operations of
    a group are grouped to the left. *)
Theorem C50_what_is_read p : readable p -> exists q, regrouped p q /\ read_term (print p) = Some q.
Proof. intros H. exists (regroup p). split; [apply regroup_ok|now apply read_printed]. Qed.
Print Assumptions C50_what_is_read.

(** So a printed term is read as the same term exactly if it is grouped to the left already. *)
Theorem C50_round_trip p : readable p -> (read_term (print p) = Some p <-> groups_left p).
Proof. intros H. rewrite read_printed by auto. rewrite <- regroup_fixed. split; congruence. Qed.
Print Assumptions C50_round_trip.

(** Two different terms that are grouped to the left have different texts. *)
Theorem C50_different_texts p q : readable p -> readable q -> groups_left p -> groups_left q -> print p = print q -> p = q.
Proof. intros Hp Hq Gp Gq E. apply (C50_round_trip p Hp) in Gp. apply (C50_round_trip q Hq) in Gq. congruence. Qed.
Print Assumptions C50_different_texts.

(** What [regrouped] describes is unique, and it is grouped to the left. *)
Theorem C50_regrouped_unique p q : regrouped p q -> groups_left q /\ forall q', regrouped p q' -> q' = q.
Proof.
  intros H. assert (E := regrouped_is p q H). split; [|intros q' H'; rewrite E; now apply regrouped_is].
  rewrite E. apply regroup_fixed. apply regroup_idempotent.
Qed.
Print Assumptions C50_regrouped_unique.

(** Comparisons, as conditions of a rule. *)
Theorem C50_comparisons k a b : In k comparison_kinds -> readable a -> readable b ->
  (exists a' b', regrouped a a' /\ regrouped b b' /\ read_comparison (print (POp k [a; b])) = Some (POp k [a'; b'])) /\
  (read_comparison (print (POp k [a; b])) = Some (POp k [a; b]) <-> groups_left a /\ groups_left b).
Proof.
  intros Hk Ha Hb. apply comparison_infix in Hk. destruct Hk as (i & ->). rewrite (read_printed_comparison i a b Ha Hb). split.
  - exists (regroup a), (regroup b). split; [apply regroup_ok|]. split; [apply regroup_ok|reflexivity].
  - rewrite <- !regroup_fixed. split; [intros [= E E']; auto|intros (-> & ->); reflexivity].
Qed.
Print Assumptions C50_comparisons.

(** Integers are printed in decimal. *)
Theorem C50_integers z : exists t, numeral 10 t (Z.abs z) /\ print (PInt z) = if (z <? 0)%Z then "-"%char :: t else t.
Proof.
  exists (decimal_text (Z.abs z)). split; [apply decimal_text_ok; lia|]. cbn [print]. unfold integer_text.
  destruct (Z.ltb_spec z 0); [rewrite Z.abs_neq by lia|rewrite Z.abs_eq by lia]; reflexivity.
Qed.
Print Assumptions C50_integers.

(** The functions are printed with their names; the names of the parser are these in lower case. *)
Theorem C50_functions : map (map lower) kind_names = known_functions /\
  forall k args, In k known_functions -> ~ In k (map fst arithmetic_kinds) -> ~ In k comparison_kinds ->
  exists name rest, In name kind_names /\ map lower name = k /\ print (POp k args) = name ++ "("%char :: rest ++ [")"%char].
Proof.
  split; [vm_compute; reflexivity|]. intros k args Hk Ha Hc. exists (kind_name k), (delimited (map (operand_text k) args)). split; [|split; [now apply kind_name_ok|]].
  - unfold kind_name. destruct (find _ _) as [x|] eqn:E; [now apply find_some in E|].
    exfalso. assert (F : existsb (fun n => text_eqb (map lower n) k) kind_names = true); [|apply existsb_exists in F; destruct F as (x & Hx & Ex); now rewrite (find_none _ _ E x Hx) in Ex].
    apply existsb_exists. assert (K : map (map lower) kind_names = known_functions) by (vm_compute; reflexivity). rewrite <- K in Hk. apply in_map_iff in Hk. destruct Hk as (x & Ex & Hx). exists x. split; auto. now apply text_eqb_eq.
  - cbn [print]. assert (Ho : op_of k = None) by (destruct (op_of k) as [o|] eqn:E; auto; apply op_of_iff in E; subst k; exfalso; apply Ha; apply (in_map fst _ _ (arith_group o))).
    rewrite (infix_none k Hk Ho Hc). reflexivity.
Qed.
Print Assumptions C50_functions.

(** ** What is not read back *)
Definition n (z : Z) : pterm := PInt z.
Definition c (s : string) : pterm := PIri (T s).
Definition op (s : string) : list pterm -> pterm := POp (T s).

(** 1 - (2 - 3) is printed without parentheses, and read as (1 - 2) - 3. *)
Theorem C50_difference_refuted : let p := op "subtraction" [n 1; op "subtraction" [n 2; n 3]] in
  readable p /\ print p = T "1 - 2 - 3" /\ read_term (print p) = Some (op "subtraction" [op "subtraction" [n 1; n 2]; n 3]).
Proof.
  split; [|split; vm_compute; reflexivity]. assert (R : forall z, (0 <= z < 10)%Z -> readable (n z)) by (intros z H; apply r_int; unfold fits_i64; lia).
  apply r_op; [cbn; tauto|intros (H & _); cbn in H; repeat (destruct H as [H|H]; [discriminate|]); destruct H|].
  intros x [<-|[<-|[]]]; [apply R; lia|]. apply r_op; [cbn; tauto|intros (H & _); cbn in H; repeat (destruct H as [H|H]; [discriminate|]); destruct H|]. intros x [<-|[<-|[]]]; apply R; lia.
Qed.
Print Assumptions C50_difference_refuted.
(** 8 / (4 / 2) *)
Theorem C50_quotient_refuted : let p := op "division" [n 8; op "division" [n 4; n 2]] in
  print p = T "8 / 4 / 2" /\ read_term (print p) = Some (op "division" [op "division" [n 8; n 4]; n 2]).
Proof. split; vm_compute; reflexivity. Qed.
Print Assumptions C50_quotient_refuted.
(** A tuple of one element is printed as an expression in parentheses. *)
Theorem C50_single_tuple_refuted : print (PTuple [n 1]) = T "(1)" /\ read_term (print (PTuple [n 1])) = Some (n 1) /\ read_term (T "(1,)") = Some (PTuple [n 1]).
Proof. split; [|split]; vm_compute; reflexivity. Qed.
Print Assumptions C50_single_tuple_refuted.
(** The constant <a-b> is printed without brackets, and read as a difference; the constant <true> is read as a truth value, and
    <trueish> and <> are not read at all. *)
Theorem C50_constants_refuted :
  print (c "a-b") = T "a-b" /\ read_term (T "a-b") = Some (op "subtraction" [c "a"; c "b"]) /\ read_term (T "<a-b>") = Some (c "a-b") /\
  print (c "true") = T "true" /\ read_term (T "true") <> Some (c "true") /\ read_term (T "<true>") = Some (c "true") /\
  print (c "trueish") = T "trueish" /\ read_term (T "trueish") = None /\ print (c "") = T "" /\ read_term (T "") = None.
Proof. repeat match goal with |- _ /\ _ => split end; vm_compute; try reflexivity; discriminate. Qed.
Print Assumptions C50_constants_refuted.
(** The name of a function is printed without brackets. *)
Theorem C50_function_name_refuted : let p := PFun (T "http://e.org/f") [n 1] in
  print p = T "http://e.org/f(1)" /\ read_term (print p) = None /\ read_term (T "<http://e.org/f>(1)") = Some p.
Proof. split; [|split]; vm_compute; reflexivity. Qed.
Print Assumptions C50_function_name_refuted.
(** A comparison as argument of a function is printed as a comparison, which cannot be read there. *)
Theorem C50_nested_comparison_refuted : let p := op "max" [op "equality" [PVar Universal (T "x"); n 1]; n 2] in
  print p = T "MAX((?x = 1), 2)" /\ read_term (print p) = None /\ read_term (T "MAX(EQUALITY(?x, 1), 2)") = Some p.
Proof. split; [|split]; vm_compute; reflexivity. Qed.
Print Assumptions C50_nested_comparison_refuted.

(** ** The hypotheses are met *)
(** SUM of three arguments, a product of a sum, a function in a sum *)
Definition sample : pterm :=
  op "subtraction" [op "product" [op "sum" [PVar Universal (T "x"); n 2]; n (-3)]; op "max" [op "sum" [n 1; n 2; n 3]; PFun (T "f") [c "a"; c "http://e.org/b"]; PTuple [n 4; PAnon]]].
Example sample_text : print sample = T "(?x + 2) * -3 - (MAX((SUM(1, 2, 3)), f(a, <http://e.org/b>), (4, _)))" \/ print sample = T "(?x + 2) * -3 - (MAX(SUM(1, 2, 3), f(a, <http://e.org/b>), (4, _)))".
Proof. right. vm_compute. reflexivity. Qed.
Example sample_read : read_term (print sample) = Some sample.
Proof. vm_compute. reflexivity. Qed.
Lemma not_comparison k (l : list pterm) : forallb (fun x => negb (text_eqb x k)) comparison_kinds = true -> ~ (In k comparison_kinds /\ List.length l = 2).
Proof. intros H (H' & _). rewrite forallb_forall in H. specialize (H k H'). assert (text_eqb k k = true) by now apply text_eqb_eq. rewrite H0 in H. discriminate. Qed.
Example sample_readable : readable sample.
Proof.
  assert (R : forall z, (-10 <= z < 10)%Z -> readable (n z)) by (intros z H; apply r_int; unfold fits_i64; lia).
  assert (O : forall s l, existsb (text_eqb (T s)) known_functions = true -> forallb (fun x => negb (text_eqb x (T s))) comparison_kinds = true -> (forall x, In x l -> readable x) -> readable (op s l)).
  { intros s l H H' Hl. apply r_op; auto; [|now apply not_comparison]. apply existsb_exists in H. destruct H as (k & Hk & E). apply text_eqb_eq in E. now rewrite E. }
  unfold sample. apply O; [reflexivity|reflexivity|]. intros x [<-|[<-|[]]].
  - apply O; [reflexivity|reflexivity|]. intros x [<-|[<-|[]]]; [|apply R; lia]. apply O; [reflexivity|reflexivity|]. intros x [<-|[<-|[]]]; [|apply R; lia].
    apply r_var. exists "x"%char, []. repeat split. intros d [].
  - apply O; [reflexivity|reflexivity|]. intros x [<-|[<-|[<-|[]]]].
    + apply O; [reflexivity|reflexivity|]. intros x [<-|[<-|[<-|[]]]]; apply R; lia.
    + apply r_fun; [exists "f"%char, []; repeat split; intros d []|vm_compute; intuition discriminate|]. intros x [<-|[<-|[]]]; apply r_iri.
      * left. split; [exists "a"%char, []; repeat split; intros d []|]. split; intros (r & E); discriminate.
      * right. split; [discriminate|]. split.
        -- intros d Hd. assert (F : forallb is_iri (T "http://e.org/b") = true) by reflexivity. rewrite forallb_forall in F. auto.
        -- intros (d & r & E & _ & Hr). injection E as <- <-. specialize (Hr ":"%char ltac:(cbn; tauto)). discriminate.
    + apply r_tuple. intros x [<-|[<-|[]]]; [apply R; lia|apply r_anon].
Qed.
Example sample_grouped : groups_left sample.
Proof. apply C50_round_trip; [apply sample_readable|apply sample_read]. Qed.
(** 1 + (2 + (3 - 4)) is regrouped *)
Example regrouped_sample : read_term (print (op "sum" [n 1; op "sum" [n 2; op "subtraction" [n 3; n 4]]])) = Some (left_grouped (n 1) [(T "sum", n 2); (T "sum", n 3); (T "subtraction", n 4)]).
Proof. vm_compute. reflexivity. Qed.
Example comparison_sample : read_comparison (print (op "numlesseq" [sample; n 3])) = Some (op "numlesseq" [sample; n 3]).
Proof. vm_compute. reflexivity. Qed.
