(** C59: the triples of an imported JSON document describe it completely. *)
From Coq Require Import List String ZArith Lia.
From Verif Require Import JsonModel JsonSpec JsonProofs.
Import ListNotations.
Local Open Scope list_scope.
Local Open Scope Z_scope.

(** The import of every document ends, and its triples describe the document, at node 0. *)
Theorem C59_document_is_described float (v : json float) :
  proper v -> exists D, read_json v = Some D /\ describes D 0 v.
Proof. intros H. destruct (read_json_ok v H) as (D & E & K & _). eauto. Qed.
Print Assumptions C59_document_is_described.

(** Every attribute of a node has one value. *)
Theorem C59_one_value float (v : json float) D : proper v -> read_json v = Some D -> functional D.
Proof. intros H E. destruct (read_json_ok v H) as (D' & E' & _ & K & _). now replace D with D' by congruence. Qed.
Print Assumptions C59_one_value.

(** The nodes form a tree with root 0: every node that is an element is the element of one node, at one position or key,
    and it is not the root. *)
Theorem C59_tree float (v : json float) D : proper v -> read_json v = Some D ->
  (forall n a c, edge D n a c -> exists i, c = DInt i /\ 0 < i) /\
  (forall n a c n' a', edge D n a c -> edge D n' a' c -> n = n' /\ a = a').
Proof. intros H E. destruct (read_json_ok v H) as (D' & E' & _ & _ & _ & K & L). replace D with D' by congruence. split; auto. Qed.
Print Assumptions C59_tree.

(** The document can be read back from the set of its triples. *)
Theorem C59_read_back float (v w : json float) D D' : proper v -> proper w ->
  read_json v = Some D -> read_json w = Some D' -> (forall x, In x D <-> In x D') -> same v w.
Proof.
  intros Hv Hw E E' S. destruct (read_json_ok v Hv) as (D1 & E1 & K1 & F & _). destruct (read_json_ok w Hw) as (D2 & E2 & K2 & _). assert (D1 = D) by congruence. assert (D2 = D') by congruence. subst.
  apply (read_back D F (Datatypes.S (size v)) v w 0); auto. apply (describes_set D' D) with (k := Datatypes.S (size w)); auto. intros x. symmetry. apply S.
Qed.
Print Assumptions C59_read_back.
(** And any document that the triples describe is this one. *)
Theorem C59_one_document float (v w : json float) D : proper v -> read_json v = Some D -> describes D 0 w -> same v w.
Proof. intros Hv E Hw. destruct (read_json_ok v Hv) as (D1 & E1 & K1 & F & _). replace D1 with D in * by congruence. apply (read_back D F (S (size v)) v w 0); auto. Qed.
Print Assumptions C59_one_document.

(** ** The hypotheses are met *)
(** {"a": [1, null], "type": {"b": "x"}} *)
Definition sample_json : json unit := JObject [("a", JArray [JNum (NInt 1); JNull]); ("type", JObject [("b", JString "x")])]%string.
Example sample_proper : proper sample_json.
Proof.
  apply p_object.
  - cbn. repeat constructor; cbn; intuition discriminate.
  - intros k e [H|[H|[]]]; injection H as <- <-.
    + apply p_array. intros e [<-|[<-|[]]]; constructor.
    + apply p_object; [cbn; repeat constructor; cbn; intuition discriminate|]. intros k e [H|[]]. injection H as <- <-. constructor.
Qed.
Example sample_triples : read_json sample_json = Some
  [(DInt 0, DIri "type", DString "object"); (DInt 0, DString "a", DInt 1); (DInt 0, DString "type", DInt 2);
   (DInt 2, DIri "type", DString "object"); (DInt 2, DString "b", DInt 3);
   (DInt 3, DIri "type", DString "string"); (DInt 3, DIri "value", DString "x");
   (DInt 1, DIri "type", DString "array"); (DInt 1, DInt 0, DInt 4); (DInt 1, DInt 1, DInt 5);
   (DInt 5, DIri "type", DString "null");
   (DInt 4, DIri "type", DString "number"); (DInt 4, DIri "value", DInt 1)]%string.
Proof. reflexivity. Qed.
Example sample_described : exists D, read_json sample_json = Some D /\ describes D 0 sample_json.
Proof. apply C59_document_is_described, sample_proper. Qed.
(** Equal parts of a document have their own nodes. *)
Example equal_parts float : exists (v : json float) D i j,
  proper v /\ read_json v = Some D /\ i <> j /\ describes D i (JBool true) /\ describes D j (JBool true).
Proof.
  assert (P : proper (JArray [JBool (float := float) true; JBool true])) by (constructor; intros e [<-|[<-|[]]]; constructor).
  destruct (read_json_ok _ P) as (D & E & _). exists (JArray [JBool true; JBool true]), D, 1, 2. split; auto. split; auto. split; [lia|]. injection E as <-.
  split; constructor; (split; [split|]); cbn; try tauto; intros a x H; repeat (destruct H as [H|H]; [try discriminate; injection H as <- <-; auto|]); destruct H.
Qed.
