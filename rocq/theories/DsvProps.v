(** C31: what is exported as delimiter-separated values can be imported again. The full statement would hold for all
    tables; the values for which it does are listed in DsvSpec.v, and the refutations show what the others become. *)
From Coq Require Import List ZArith Lia Bool String.
From Verif Require Import LexModel LexSpec LexProofs1 LexProofs4 LexProofs6 LexProps DsvModel DsvSpec DsvProofs1 DsvProofs2 DsvProofs3.
Import ListNotations.
Open Scope Z_scope.
Open Scope list_scope.

(** Any text at all survives the level of records: quotes, separators and line breaks in fields. *)
Theorem C31_records : forall d rs, good_delimiter d -> Forall (fun r => r <> []) rs -> no_bom (csv_write d rs) ->
  csv_read true false d (csv_write d rs) = rs /\ csv_read true true d (csv_write d rs) = tl rs.
Proof. intros d rs D H B. split; [exact (csv_roundtrip d D false rs H B)|exact (csv_roundtrip d D true rs H B)]. Qed.
Print Assumptions C31_records.

(** A table of exportable values is written, and reading the text gives the same rows in the same order; with a limit of
    n > 0 rows on the export or on the import, the first n. Missing: the values excluded by [exportable]. *)
Theorem C31_roundtrip_partial : forall F d fs limit (rows : list (list (dval F))), good_floats F -> good_delimiter d ->
  fs <> [] -> Forall (exportable_row fs) rows ->
  exists text, export_table d fs limit rows = Some text /\
  (no_bom text ->
     (limit = None -> import_table true false d fs None text = Some rows /\
        forall n, 0 < n -> import_table true false d fs (Some n) text = Some (firstn (Z.to_nat n) rows)) /\
     (forall n, limit = Some n -> 0 < n -> import_table true false d fs None text = Some (firstn (Z.to_nat n) rows))).
Proof.
  intros F d fs limit rows G D N H. destruct (export_total d fs limit rows G N H) as (text & E). exists text. split; auto.
  intros B. split.
  - intros ->. split.
    + rewrite (table_roundtrip d fs None None rows text); auto.
    + intros n P. rewrite (table_roundtrip d fs None (Some n) rows text); auto. cbn [stop_limit]. f_equal.
      change (take_limit 0 rows) with rows. unfold take_limit. destruct (Z.leb_spec n 0); [lia|reflexivity].
  - intros n -> P. rewrite (table_roundtrip d fs (Some n) None rows text); auto. cbn [stop_limit].
    unfold take_limit. destruct (Z.leb_spec n 0); [lia|reflexivity].
Qed.
Print Assumptions C31_roundtrip_partial.

(** Records of the wrong length, and records with a cell that the format of its column rejects, have no effect. *)
Theorem C31_bad_records : forall F d fs (good1 good2 : list (list str)) bad, good_delimiter d ->
  Forall (fun r => r <> []) (good1 ++ bad :: good2) -> no_bom (csv_write d (good1 ++ bad :: good2)) ->
  no_bom (csv_write d (good1 ++ good2)) ->
  (List.length bad <> List.length fs \/
   exists fs1 f fs2 bad1 s bad2, fs = fs1 ++ f :: fs2 /\ bad = bad1 ++ s :: bad2 /\
     parse_cell f s = PErr :> parsed F /\ Forall2 (fun f s => exists v : dval F, parse_cell f s = POk v) fs1 bad1) ->
  import_table (F := F) true false d fs None (csv_write d (good1 ++ bad :: good2)) =
  import_table (F := F) true false d fs None (csv_write d (good1 ++ good2)).
Proof.
  intros F d fs good1 good2 bad D H B1 B2 Bad. unfold import_table. rewrite !csv_roundtrip; auto.
  - cbn [stop_limit]. rewrite !read_rows_app by lia.
    assert (read_rows (F := F) fs 0 0 (bad :: good2) = read_rows fs 0 0 good2) as ->; auto.
    change (bad :: good2) with ([bad] ++ good2). rewrite read_rows_app by lia.
    assert (read_rows (F := F) fs 0 0 [bad] = Some []) as ->; [|now destruct (read_rows fs 0 0 good2)].
    cbn [read_rows]. destruct Bad as [L|(fs1 & f & fs2 & bad1 & s & bad2 & -> & -> & P & R)].
    + apply Nat.eqb_neq in L. rewrite L. reflexivity.
    + destruct (negb _); auto. change (0 + 1 =? 0) with false. cbn iota.
      assert (read_cells (F := F) (fs1 ++ f :: fs2) (bad1 ++ s :: bad2) = RDrop) as ->; auto.
      clear -P R. induction R as [|g t fs1 bad1 (v & E) _ IH].
      * cbn [app read_cells]. destruct f; try (rewrite P; reflexivity); discriminate.
      * cbn [app read_cells]. rewrite E, IH. destruct g; reflexivity.
  - apply Forall_app in H as [H1 H2]. inversion H2; subst. apply Forall_app. auto.
Qed.
Print Assumptions C31_bad_records.

(** Strings with a quote, a backslash or a line break are escaped by the export, and the import does not undo it. *)
Theorem C31_escape_refuted : forall F d s, good_delimiter d -> ~ clean s ->
  exists text w, export_table d [FAny] None [[VString s : dval F]] = Some text /\
    import_table true false d [FAny] None text = Some [[VString w : dval F]] /\ w <> s.
Proof.
  intros F d s D N.
  destruct (one_cell (F := F) d FAny (VString s) (VString (escaped s)) (quote_string s) D) as (text & E & I); auto.
  - unfold quote_string. fold (escaped s). apply parse_string.
  - discriminate.
  - exists text, (escaped s). split; auto. split; auto. now apply escaped_neq.
Qed.
Print Assumptions C31_escape_refuted.

(** Integers from 2^63 up to 2^64 - 1 and 32-bit floats come back as values that are not equal to them. *)
Theorem C31_numbers_refuted : forall F d, good_delimiter d ->
  (forall z, 2 ^ 63 <= z < 2 ^ 64 -> exists text (w : dval F), export_table d [FAny] None [[VULong z : dval F]] = Some text /\
    import_table true false d [FAny] None text = Some [[w]] /\ dval_eqb (VULong z : dval F) w = false) /\
  (forall x, exists text (w : dval F), export_table d [FAny] None [[VFloat x : dval F]] = Some text /\
    import_table true false d [FAny] None text = Some [[w]] /\ dval_eqb (VFloat x : dval F) w = false).
Proof.
  intros F d D. split.
  - intros z B. destruct (decimal_int (F := F) z) as (v & A & _ & [[C _]|[_ ->]]).
    { unfold i64, i64_hi in C. lia. }
    destruct (one_cell (F := F) d FAny (VULong z) (VOther (int_to_string z) (xsd "integer")) (int_to_string z) D) as (text & E & I); auto.
    + now apply parse_any_int.
    + destruct (int_to_string_chars z) as [C _]. destruct (int_to_string z); [discriminate|]. cbn. inversion C; subst.
      intros [= ->]. unfold is_digit in *. lia.
    + exists text, (VOther (int_to_string z) (xsd "integer")). auto.
  - intros x. destruct (one_cell (F := F) d FAny (VFloat x) (VOther (f32_print F x) (xsd "float")) (typed (f32_print F x) (xsd "float")) D) as (text & E & I); auto.
    + apply parse_typed; [apply no_quote_lit; reflexivity|reflexivity].
    + discriminate.
    + exists text, (VOther (f32_print F x) (xsd "float")). auto.
Qed.
Print Assumptions C31_numbers_refuted.

(** IRIs are written without brackets: one that looks like a number, or that has a space, is read as something else. *)
Theorem C31_iri_refuted : forall F,
  (exists text, export_table 44 [FAny] None [[VIri (lit "12") : dval F]] = Some text /\
    import_table true false 44 [FAny] None text = Some [[VLong 12 : dval F]]) /\
  (exists text, export_table 44 [FAny] None [[VIri (lit "a b") : dval F]] = Some text /\
    import_table true false 44 [FAny] None text = Some [[VString (lit "a b") : dval F]]).
Proof. intros F. split; eexists; split; reflexivity. Qed.
Print Assumptions C31_iri_refuted.

(** A byte order mark at the start of the first value is lost. *)
Theorem C31_bom_refuted : forall F, exists text,
  export_table 44 [FString] None [[VString (65279 :: lit "a") : dval F]] = Some text /\
  import_table true false 44 [FString] None text = Some [[VString (lit "a") : dval F]].
Proof. intros F. eexists. split; reflexivity. Qed.
Print Assumptions C31_bom_refuted.

(** Columns that are skipped are left out by the export and expected by the import: no row is ever read back. *)
Theorem C31_skip_refuted : forall F d fs (rows : list (list (dval F))) text, good_delimiter d -> In FSkip fs ->
  (exists f, In f fs /\ f <> FSkip) -> Forall (fun row => List.length row = List.length fs) rows ->
  export_table d fs None rows = Some text -> no_bom text ->
  import_table (F := F) true false d fs None text = Some [].
Proof.
  intros F d fs rows text D K (f & If & Nf) H E B. unfold export_table in E.
  destruct (write_rows fs (stop_limit None) 0 rows) as [rs|] eqn:W; [|discriminate]. injection E as <-.
  apply write_rows_in in W. rewrite Forall_forall in H.
  assert (Forall (fun r => r <> [] /\ List.length r <> List.length fs) rs) as R.
  { eapply Forall_impl; [|exact W]. intros r (row & I & Wr). apply write_row_len in Wr; auto. split.
    - intros ->. cbn in Wr. assert (In f (filter (fun f => negb (is_skip f)) fs)) as J.
      { apply filter_In. split; auto. destruct f; auto; congruence. }
      destruct (filter _ fs); [destruct J|discriminate Wr].
    - rewrite Wr. pose proof (filter_skip fs K). lia. }
  unfold import_table. rewrite csv_roundtrip; auto.
  - apply read_rows_wrong. eapply Forall_impl; [|exact R]. intros r []; auto.
  - eapply Forall_impl; [|exact R]. intros r []; auto.
Qed.
Print Assumptions C31_skip_refuted.

(** A relation without arguments is written as an empty cell, and read back as empty. *)
Theorem C31_nullary_refuted : forall F, exists text,
  export_table 44 [] None [[] : list (dval F)] = Some text /\ text <> [] /\
  import_table (F := F) true false 44 [] None text = Some [].
Proof. intros F. eexists. split; [reflexivity|]. split; [discriminate|reflexivity]. Qed.
Print Assumptions C31_nullary_refuted.

(** The option to switch off quoting affects the import but not the export. *)
Theorem C31_quoting_refuted : forall F, exists text rows,
  export_table 44 [FString] None [[VString (lit "a""b") : dval F]] = Some text /\
  import_table (F := F) false false 44 [FString] None text = Some rows /\ rows <> [[VString (lit "a""b")]].
Proof. intros F. eexists. eexists. split; [reflexivity|]. split; [reflexivity|]. discriminate. Qed.
Print Assumptions C31_quoting_refuted.

(** A limit of 0 is no limit. *)
Theorem C31_limit_zero_refuted : forall F d fs (rows : list (list (dval F))) q h text,
  export_table d fs (Some 0) rows = export_table d fs None rows /\
  import_table (F := F) q h d fs (Some 0) text = import_table q h d fs None text.
Proof. intros. split; reflexivity. Qed.
Print Assumptions C31_limit_zero_refuted.

(** A row with a value that the format of its column does not represent has no effect on the export: it does not
    count for the limit either. *)
Theorem C31_dropped_rows : forall F d fs limit (rows1 rows2 : list (list (dval F))) bad, List.length bad = List.length fs ->
  (exists f v, In (f, v) (combine fs bad) /\ is_skip f = false /\ serialize f v = None) ->
  export_table d fs limit (rows1 ++ bad :: rows2) = export_table d fs limit (rows1 ++ rows2).
Proof. intros F d fs limit rows1 rows2 bad L H. unfold export_table. now rewrite (write_rows_app _ _ _ (write_row_bad bad fs L H)). Qed.
Print Assumptions C31_dropped_rows.
Example C31_dropped_rows_example : forall F, export_table 44 [FInteger; FAny] (Some 2)
  [[VLong 1; VLong 2]; [VString (lit "x"); VLong 3]; [VLong 4; VLong 5]; [VLong 6; VLong 7] : list (dval F)] =
  Some (lit "1,2" ++ [10] ++ lit "4,5" ++ [10]).
Proof. reflexivity. Qed.

(** Values that the format of their column does not represent drop the whole row without an error. *)
Theorem C31_drop_refuted : forall F, export_table 44 [FInteger; FAny] None
  [[VLong 1; VLong 2]; [VString (lit "x"); VLong 3]; [VLong 4; VLong 5] : list (dval F)] =
  Some (lit "1,2" ++ [10] ++ lit "4,5" ++ [10]).
Proof. intros F. reflexivity. Qed.
Print Assumptions C31_drop_refuted.

(** Some cells make the import panic: a lone quote, a language tag or a datatype after a lone quote, and a cell that
    starts with a quote, ends with '>' and has a multi-byte character at the fourth byte after its last quote. *)
Theorem C31_import_panic_refuted : forall F cell,
  In cell [[34]; 34 :: lit "@en"; 34 :: lit "^^<x>"; [34; 233; 233; 62]] ->
  import_table (F := F) true false 44 [FAny] None (csv_write 44 [[cell]]) = None.
Proof. intros F cell [<-|[<-|[<-|[<-|[]]]]]; reflexivity. Qed.
Print Assumptions C31_import_panic_refuted.

(** The hypotheses of the theorems are met. *)
Definition demo_rows : list (list (dval toy)) :=
  [ [VString (lit "a, b"); VLong (-5); VDouble (F := toy) (true, 7); VString ([10; 34; 92] ++ lit ",")];
    [VLang (lit "hi") (lit "en"); VOther (lit "99999999999999999999") (xsd "integer"); VDouble (F := toy) (false, 0); VString []];
    [VIri (lit "http://example.org/x"); VLong 0; VDouble (F := toy) (false, 3); VString (lit "x")];
    [VOther (lit "x;y") (lit "http://example.org/dt"); VLong 9; VDouble (F := toy) (false, 3); VString (lit "x")];
    [VOther (lit "1.5") (xsd "decimal"); VLong 9; VDouble (F := toy) (false, 3); VString (lit "x")];
    [VBool true; VLong 1; VDouble (F := toy) (false, 1); VString (lit " x ")] ].
Example demo_exportable : good_floats toy /\ good_delimiter 44 /\ Forall (exportable_row [FAny; FInteger; FDouble; FString]) demo_rows.
Proof.
  split; [apply toy_good|]. split; [repeat split; discriminate|].
  assert (forall s : str, existsb (fun c => (c =? 92) || (c =? 34) || (c =? 13) || (c =? 10)) s = false -> clean s) as C.
  { intros s H. assert (forall c, (c =? 92) || (c =? 34) || (c =? 13) || (c =? 10) = true -> ~ In c s) as K.
    { intros c E I. assert (existsb (fun c => (c =? 92) || (c =? 34) || (c =? 13) || (c =? 10)) s = true) by (apply existsb_exists; eauto). congruence. }
    repeat split; apply K; reflexivity. }
  assert (forall c (s : str), existsb (Z.eqb c) s = false -> ~ In c s) as NI.
  { intros c s H I. assert (existsb (Z.eqb c) s = true) by (apply existsb_exists; exists c; split; [auto|apply Z.eqb_refl]). congruence. }
  repeat (apply Forall_cons || apply Forall_nil); repeat apply Forall2_cons; try apply Forall2_nil; cbn [exportable];
    try (apply C; reflexivity); try (eexists; reflexivity); try exact I; try (left; eexists; split; [reflexivity|lia]).
  - repeat split; try (apply C; reflexivity); try (apply NI; reflexivity); reflexivity.
  - right. eexists. split; [reflexivity|]. reflexivity.
  - unfold plain_iri, no_outer_space. split; [discriminate|]. split; [reflexivity|]. split; [apply NI; reflexivity|].
    split; [apply NI; reflexivity|]. split; [apply NI; reflexivity|]. split; [discriminate|].
    intros m k (sg & sgn & ip & fp & Sg & Fi & Ff & N & E & _). cbn in E.
    inversion Sg; subst; cbn [app] in E; destruct E as [[E _]|E]; try discriminate;
      destruct ip as [|c ip]; try (injection E as <- _; inversion Fi; subst; unfold is_digit in *; lia);
      cbn [app] in E; try discriminate.
  - split; [reflexivity|]. right. split; [apply C; reflexivity|apply NI; reflexivity].
  - split; [reflexivity|]. right. split; [apply C; reflexivity|apply NI; reflexivity].
Qed.
Example demo_roundtrip : exists text, export_table 44 [FAny; FInteger; FDouble; FString] None demo_rows = Some text /\
  no_bom text /\ import_table true false 44 [FAny; FInteger; FDouble; FString] None text = Some demo_rows.
Proof. eexists. split; [vm_compute; reflexivity|]. split; [discriminate|]. vm_compute. reflexivity. Qed.
Example demo_bad : exists text, text = csv_write 44 [[lit "1"]; [lit "x"]; [lit "2"; lit "3"]; [lit "4"]] /\ no_bom text /\
  import_table (F := toy) true false 44 [FInteger] None text = Some [[VLong 1]; [VLong 4]].
Proof. eexists. split; [reflexivity|]. split; [discriminate|]. vm_compute. reflexivity. Qed.
