(** Pages cover all combinations of bindings. *)
From Coq Require Import List Arith Bool Lia Permutation.
From Verif Require Import QueryModel QuerySpec QueryProps PageModel PageSpec.
Import ListNotations.

Lemma chop_in {A} (x : A) n fuel : 0 < n -> forall l, List.length l <= fuel -> In x l <-> exists c, In c (chop fuel n l) /\ In x c.
Proof.
  intros N. induction fuel as [|f IH]; intros l L.
  - destruct l; [|cbn in L; lia]. split; [intros []|intros (c & [] & _)].
  - destruct l as [|a l]; [split; [intros []|intros (c & [] & _)]|]. cbn [chop]. rewrite <- (firstn_skipn n (a :: l)) at 1. rewrite in_app_iff, (IH (skipn n (a :: l))).
    + split.
      * intros [H|(c & H & G)]; [exists (firstn n (a :: l)); split; [now left|auto]|exists c; split; [now right|auto]].
      * intros (c & [<- |H] & G); [now left|right; eauto].
    + rewrite skipn_length. cbn [List.length] in *. lia.
Qed.
Lemma chunk_in {A} (x : A) n l : 0 < n -> In x l <-> exists c, In c (chunk_list n l) /\ In x c.
Proof. intros. now apply chop_in. Qed.

Lemma chop_nonempty {A} n fuel : 0 < n -> forall (l c : list A), In c (chop fuel n l) -> c <> [].
Proof.
  intros N. induction fuel as [|f IH]; intros [|a l] c; cbn; try tauto. intros [<- |H]; [|eauto]. destruct n; [lia|]. discriminate.
Qed.
Lemma chunk_nonempty {A} n (l c : list A) : 0 < n -> In c (chunk_list n l) -> c <> [].
Proof. intros. eapply chop_nonempty; eauto. Qed.
Lemma chop_some {A} n fuel (l : list A) : l <> [] -> List.length l <= fuel -> chop fuel n l <> [].
Proof. destruct l; [congruence|]. destruct fuel; cbn; [lia|discriminate]. Qed.

(** ** Bindings *)
Lemma agrees_union a b row : fst a = fst b -> agrees (union a b) row <-> agrees a row \/ agrees b row.
Proof.
  intros E. unfold agrees, union. cbn [fst snd]. split.
  - intros (r & H & G). apply in_app_or in H. destruct H as [H|H]; [left|right; rewrite <- E]; eauto.
  - rewrite <- E. intros [(r & H & G)|(r & H & G)]; exists r; (split; [apply in_or_app; auto|auto]).
Qed.
Lemma agrees_not_empty b row : agrees b row -> is_empty b = false.
Proof. intros (r & H & _). unfold is_empty, count. destruct (snd b); [destruct H|reflexivity]. Qed.
Lemma agrees_chunks n b row : 0 < n -> agrees b row <-> exists c, In c (chunks n b) /\ agrees c row.
Proof.
  intros N. unfold agrees at 1. split.
  - intros (r & H & G). apply (chunk_in r n _ N) in H. destruct H as (c & H & K). exists (fst b, c). split; [apply in_map_iff; eauto|]. exists r. auto.
  - intros (c & H & (r & K & G)). apply in_map_iff in H. destruct H as (rs & <- & H). exists r. split; [apply (chunk_in r n _ N); eauto|auto].
Qed.
Lemma good_chunk E q n b c : good_bindings E q b -> 0 < n -> In c (chunks n b) -> good_bindings E q c.
Proof.
  intros (A & B & C) N H. apply in_map_iff in H. destruct H as (rs & <- & H). split; [exact A|]. split; [exact B|]. cbn [fst snd]. intros r Hr.
  apply C. apply (chunk_in r n _ N). eauto.
Qed.
Lemma good_union E q a b : fst a = fst b -> good_bindings E q a -> good_bindings E q b -> good_bindings E q (union a b).
Proof.
  intros Q (A & B & C) (_ & _ & D). split; [exact A|]. split; [exact B|]. cbn [fst snd union]. intros r H. apply in_app_or in H. destruct H; [auto|rewrite Q; auto].
Qed.

(** ** Combinations *)
Definition all_agree (bs : list bindings) (row : list (option nat)) : Prop := forall b, In b bs -> agrees b row.

Lemma others_agree E q l row : good_product E q l -> (forall f, In f l -> agrees (fst f) row \/ agrees (snd f) row) -> all_agree (others l) row.
Proof.
  intros G H b Hb. apply in_flat_map in Hb. destruct Hb as (f & Hf & Hb). destruct (is_empty (fst f) && is_empty (snd f)); [destruct Hb|].
  destruct Hb as [<- |[]]. apply agrees_union; [apply (G f Hf)|auto].
Qed.
Lemma others_exact E q l row : good_product E q l -> (forall f, In f l -> is_empty (fst f) && is_empty (snd f) = false) ->
  all_agree (others l) row -> forall f, In f l -> agrees (fst f) row \/ agrees (snd f) row.
Proof.
  intros G N H f Hf. apply agrees_union; [apply (G f Hf)|]. apply H. apply in_flat_map. exists f. split; auto. rewrite N by auto. now left.
Qed.
Lemma others_good E q l b : good_product E q l -> In b (others l) -> good_bindings E q b /\ is_empty b = false.
Proof.
  intros G Hb. apply in_flat_map in Hb. destruct Hb as (f & Hf & Hb). destruct (is_empty (fst f) && is_empty (snd f)) eqn:N; [destruct Hb|].
  destruct Hb as [<- |[]]. destruct (G f Hf) as (A & B & C). split; [now apply good_union|]. unfold is_empty, count, union in *. cbn [snd]. rewrite app_length.
  destruct (snd (fst f)); [|reflexivity]. destruct (snd (snd f)); [discriminate|reflexivity].
Qed.

Lemma in_combinations l : forall before c, In c (combinations_from before l) <->
  exists l1 f l2, l = l1 ++ f :: l2 /\ is_empty (snd f) = false /\ c = snd f :: others (before ++ l1) ++ others l2.
Proof.
  induction l as [|g l IH]; intros before c; cbn [combinations_from].
  - split; [intros []|intros ([|x l1] & f & l2 & Q & _); discriminate].
  - rewrite in_app_iff, IH. split.
    + intros [H|(l1 & f & l2 & -> & N & ->)].
      * destruct (is_empty (snd g)) eqn:N; [destruct H|]. destruct H as [<- |[]]. exists [], g, l. rewrite app_nil_r. auto.
      * exists (g :: l1), f, l2. rewrite <- app_assoc. auto.
    + intros ([|x l1] & f & l2 & Q & N & ->); cbn in Q; injection Q as -> ->.
      * left. rewrite N, app_nil_r. now left.
      * right. exists l1, f, l2. rewrite <- app_assoc. auto.
Qed.

Lemma sub_product E q l1 f l2 : good_product E q (l1 ++ f :: l2) -> good_product E q l1 /\ good_product E q l2.
Proof. intros G. split; intros x Hx; apply G, in_or_app; cbn; auto. Qed.

Lemma combinations_complete E q l row : good_product E q l -> wanted l row -> exists c, In c (combinations l) /\ all_agree c row.
Proof.
  intros G (H & f & Hf & A). apply in_split in Hf. destruct Hf as (l1 & l2 & ->). exists (snd f :: others l1 ++ others l2). split.
  - apply in_combinations. exists l1, f, l2. split; auto. split; auto. now apply agrees_not_empty in A.
  - destruct (sub_product _ _ _ _ _ G) as (G1 & G2). intros b [<- |Hb]; auto. apply in_app_or in Hb. destruct Hb as [Hb|Hb].
    + eapply (others_agree E q l1); eauto. intros x Hx. apply H, in_or_app. auto.
    + eapply (others_agree E q l2); eauto. intros x Hx. apply H, in_or_app. cbn. auto.
Qed.
Lemma combinations_exact E q l row : good_product E q l -> (forall f, In f l -> is_empty (fst f) && is_empty (snd f) = false) ->
  (exists c, In c (combinations l) /\ all_agree c row) -> wanted l row.
Proof.
  intros G N (c & Hc & A). apply in_combinations in Hc. destruct Hc as (l1 & f & l2 & -> & Nf & ->). destruct (sub_product _ _ _ _ _ G) as (G1 & G2).
  assert (Af : agrees (snd f) row) by (apply A; now left).
  split; [|exists f; split; [apply in_or_app; cbn; auto|auto]].
  intros x Hx. apply in_app_or in Hx. destruct Hx as [Hx|[<- |Hx]]; auto.
  - refine (others_exact E q l1 row G1 _ _ x Hx); [intros y Hy; apply N, in_or_app; auto|]. intros b Hb. apply A. right. apply in_or_app. auto.
  - refine (others_exact E q l2 row G2 _ _ x Hx); [intros y Hy; apply N, in_or_app; cbn; auto|]. intros b Hb. apply A. right. apply in_or_app. auto.
Qed.
Lemma combinations_good E q l c : good_product E q l -> In c (combinations l) ->
  c <> [] /\ forall b, In b c -> good_bindings E q b /\ is_empty b = false.
Proof.
  intros G Hc. apply in_combinations in Hc. destruct Hc as (l1 & f & l2 & -> & Nf & ->). destruct (sub_product _ _ _ _ _ G) as (G1 & G2).
  split; [discriminate|]. intros b [<- |Hb]; [split; auto; apply (G f), in_or_app; cbn; auto|]. apply in_app_or in Hb.
  destruct Hb as [Hb|Hb]; [exact (others_good E q l1 b G1 Hb)|exact (others_good E q l2 b G2 Hb)].
Qed.

(** ** Pages *)
Lemma insert_perm b l : Permutation (insert b l) (b :: l).
Proof. induction l as [|c l IH]; cbn; [auto|]. destruct (count b <=? count c); auto. rewrite IH. apply perm_swap. Qed.
Lemma sorted_perm l : Permutation (sorted l) l.
Proof. induction l as [|b l IH]; cbn; auto. rewrite insert_perm. now constructor. Qed.

Lemma pages_cover bs page ps row : bindings_chunks bs page = Ends ps -> (all_agree bs row <-> exists p, In p ps /\ all_agree p row).
Proof.
  unfold bindings_chunks. set (l := sorted bs). intros H. assert (P : all_agree bs row <-> all_agree l row).
  { unfold all_agree. split; intros A b Hb; apply A; [eapply Permutation_in; [apply sorted_perm|exact Hb]|eapply Permutation_in; [apply Permutation_sym, sorted_perm|exact Hb]]. }
  destruct (split_index 1 page l) as [k|].
  - pose proof (firstn_skipn k l) as S. generalize dependent (firstn k l). intros pre H S. destruct (_ =? 0); [discriminate|]. destruct (skipn k l) as [|b [|b2 rest]] eqn:Q; [discriminate| |].
    + injection H as <-. rewrite P, <- S. clear P S. set (n := Nat.max _ 1). assert (N : 0 < n) by lia. split.
      * intros A. assert (Ab : agrees b row) by (apply A, in_or_app; right; now left). apply (agrees_chunks n b row N) in Ab. destruct Ab as (c & Hc & Ac).
        exists (pre ++ [c]). split; [apply in_map_iff; eauto|]. intros x Hx. apply in_app_or in Hx. destruct Hx as [Hx|[<- |[]]]; auto. apply A, in_or_app. auto.
      * intros (p & Hp & A). apply in_map_iff in Hp. destruct Hp as (c & <- & Hc). intros x Hx. apply in_app_or in Hx.
        destruct Hx as [Hx|[<- |[]]]; [apply A, in_or_app; auto|]. apply (agrees_chunks n b row N). exists c. split; auto. apply A, in_or_app. right. now left.
    + destruct (existsb is_empty (removelast (b :: b2 :: rest))) eqn:X; [|discriminate]. injection H as <-. split; [|intros (p & [] & _)].
      intros A. apply existsb_exists in X. destruct X as (x & Hx & X). exfalso. assert (Ax : agrees x row).
      { apply (proj1 P A). rewrite <- S. apply in_or_app. right. rewrite (app_removelast_last x) by discriminate. apply in_or_app. auto. }
      apply agrees_not_empty in Ax. congruence.
  - injection H as <-. split; [intros A; exists bs; split; [now left|auto]|intros (p & [<- |[]] & A); auto].
Qed.

Lemma pages_good E q bs page ps : bindings_chunks bs page = Ends ps -> bs <> [] -> (forall b, In b bs -> good_bindings E q b) ->
  forall p, In p ps -> p <> [] /\ forall b, In b p -> good_bindings E q b.
Proof.
  unfold bindings_chunks. set (l := sorted bs). intros H N G. assert (G' : forall b, In b l -> good_bindings E q b).
  { intros b Hb. apply G. eapply Permutation_in; [apply sorted_perm|exact Hb]. }
  destruct (split_index 1 page l) as [k|].
  - pose proof (firstn_skipn k l) as S. generalize dependent (firstn k l). intros pre H S. destruct (_ =? 0); [discriminate|]. destruct (skipn k l) as [|b [|b2 rest]] eqn:Q; [discriminate| |].
    + injection H as <-. intros p Hp. apply in_map_iff in Hp. destruct Hp as (c & <- & Hc). split; [intros X; apply app_eq_nil in X; destruct X; discriminate|].
      intros x Hx. apply in_app_or in Hx. destruct Hx as [Hx|[<- |[]]].
      * apply G'. rewrite <- S. apply in_or_app. auto.
      * eapply good_chunk; [|..|exact Hc]; [apply G'; rewrite <- S; apply in_or_app; right; now left|lia].
    + destruct (existsb _ _); [|discriminate]. injection H as <-. intros p [].
  - injection H as <-. intros p [<- |[]]. auto.
Qed.
