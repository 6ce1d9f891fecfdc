(* The tuple buffer: lookup of subtables. *)
From Coq Require Import List ZArith Bool Lia Arith.
From Verif Require Import ColumnModel ScanModel TrieModel TrieSpec.
Import ListNotations.
Local Open Scope nat_scope.

Lemma order_inj : forall s t, order s = order t -> s = t.
Proof. intros [] [] H; try reflexivity; discriminate. Qed.
Lemma order_lt : forall t, order t < 5.
Proof. intros []; cbn; lia. Qed.
Lemma stype_eqb_spec : forall s t, reflect (s = t) (stype_eqb s t).
Proof. intros s t. unfold stype_eqb. destruct (Nat.eqb_spec (order s) (order t)) as [H|H]; constructor; [apply order_inj, H|congruence]. Qed.
Lemma stype_eqb_refl : forall t, stype_eqb t t = true.
Proof. intros t. unfold stype_eqb. apply Nat.eqb_refl. Qed.
Lemma stype_eq_dec : forall s t : stype, {s = t} + {s <> t}.
Proof. decide equality. Qed.
Lemma types_eq_dec : forall s t : list stype, {s = t} + {s <> t}.
Proof. apply list_eq_dec, stype_eq_dec. Qed.
Lemma value_eqb_spec : forall v w, reflect (v = w) (value_eqb v w).
Proof.
  intros [s x] [t y]. unfold value_eqb. cbn [fst snd]. destruct (stype_eqb_spec s t) as [->|H]; cbn [andb].
  - destruct (Z.eqb_spec x y) as [->|H]; constructor; [reflexivity|congruence].
  - constructor. congruence.
Qed.
Lemma value_eq_dec : forall v w : value, {v = w} + {v <> w}.
Proof. intros v w. destruct (value_eqb_spec v w); auto. Qed.
Lemma row_eq_dec : forall r s : row, {r = s} + {r <> s}.
Proof. apply list_eq_dec, value_eq_dec. Qed.

Lemma upd_same : forall A t (x : A) f, upd t x f t = x.
Proof. intros. unfold upd. rewrite stype_eqb_refl. reflexivity. Qed.
Lemma upd_other : forall A s t (x : A) f, s <> t -> upd t x f s = f s.
Proof. intros. unfold upd. destruct (stype_eqb_spec s t); congruence. Qed.

Lemma set_nth_length : forall A i (x : A) l, length (set_nth i x l) = length l.
Proof. intros A i x l. revert i. induction l as [|y l IH]; intros [|i]; cbn; try reflexivity. f_equal. apply IH. Qed.
Lemma set_nth_same : forall A i (x : A) l, i < length l -> nth_error (set_nth i x l) i = Some x.
Proof. intros A i x l. revert i. induction l as [|y l IH]; intros [|i] H; cbn in *; try lia; [reflexivity|]. apply IH. lia. Qed.
Lemma set_nth_other : forall A i j (x : A) l, i <> j -> nth_error (set_nth i x l) j = nth_error l j.
Proof.
  intros A i j x l. revert i j. induction l as [|y l IH]; intros [|i] [|j] H; cbn; try reflexivity; try lia. apply IH. lia.
Qed.
Lemma put_ok : forall A (l : list A) i x, i < length l -> put l i x = Ok (set_nth i x l).
Proof. intros A l i x H. unfold put. destruct (Nat.ltb_spec i (length l)); [reflexivity|lia]. Qed.
Lemma index_some : forall A (l : list A) i x, nth_error l i = Some x -> index l i = Ok x.
Proof. intros A l i x H. unfold index. rewrite H. reflexivity. Qed.
Lemma nth_lt : forall A (l : list A) i, i < length l -> exists x, nth_error l i = Some x.
Proof. intros A l i H. destruct (nth_error l i) as [x|] eqn:E; [eauto|]. apply nth_error_None in E. lia. Qed.
Lemma nth_Some_lt : forall A (l : list A) i x, nth_error l i = Some x -> i < length l.
Proof. intros A l i x H. apply nth_error_Some. congruence. Qed.

(* ---------- the linearised trie of types ---------- *)

Fixpoint find (tr : lookup) (block : nat) (types : list stype) : option nat :=
  match types with
  | [] => Some block
  | t :: types' => match nth_error tr (block + order t) with Some (Some b) => find tr b types' | _ => None end
  end.

Lemma find_app : forall tr p q b, find tr b (p ++ q) = match find tr b p with Some c => find tr c q | None => None end.
Proof.
  intros tr. induction p as [|t p IH]; intros q b; [reflexivity|]. cbn [find app].
  destruct (nth_error tr (b + order t)) as [[c|]|]; try reflexivity. apply IH.
Qed.
Lemma find_snoc : forall tr p t, find tr 0 (p ++ [t]) =
  match find tr 0 p with Some b => match nth_error tr (b + order t) with Some (Some c) => Some c | _ => None end | None => None end.
Proof.
  intros tr p t. rewrite find_app. destruct (find tr 0 p) as [b|]; [|reflexivity]. cbn [find].
  destruct (nth_error tr (b + order t)) as [[c|]|]; reflexivity.
Qed.

(* blocks of depth < n lie below next, everything from next on is unused *)
Record wf_lookup (n next : nat) (tr : lookup) : Prop := {
  wf_next : next <= length tr;
  wf_mult : exists m, next = 5 * m;
  wf_block : forall p b, length p < n -> find tr 0 p = Some b -> b + 5 <= next /\ exists m, b = 5 * m;
  wf_inj : forall p q b, length p < n -> length q < n -> find tr 0 p = Some b -> find tr 0 q = Some b -> p = q;
  wf_free : forall i, next <= i < length tr -> nth_error tr i = Some None }.

Lemma block_entry : forall m k s t, 5 * m + order s = 5 * k + order t -> 5 * m = 5 * k /\ s = t.
Proof.
  intros m k s t H. pose proof (order_lt s). pose proof (order_lt t). assert (m = k) by lia. split; [lia|]. apply order_inj. lia.
Qed.

Definition extends (q p : list stype) : Prop := exists r, q = p ++ r.
Lemma extends_snoc : forall q p s, ~ extends (q ++ [s]) p -> ~ extends q p.
Proof. intros q p s H [r ->]. apply H. exists (r ++ [s]). rewrite app_assoc. reflexivity. Qed.
Lemma extends_len : forall q p, extends q p -> length p <= length q.
Proof. intros q p [r ->]. rewrite app_length. lia. Qed.
Lemma extends_dec : forall q p, {extends q p} + {~ extends q p}.
Proof.
  intros q p. destruct (types_eq_dec (firstn (length p) q) p) as [E|E].
  - left. exists (skipn (length p) q). rewrite <- E at 1. symmetry. apply firstn_skipn.
  - right. intros [r ->]. apply E. rewrite firstn_app, firstn_all, Nat.sub_diag, firstn_O, app_nil_r. reflexivity.
Qed.

Lemma find_set : forall n next tr p b t x, wf_lookup n next tr -> length p < n -> find tr 0 p = Some b ->
  forall q, length q <= n -> ~ extends q (p ++ [t]) -> find (set_nth (b + order t) x tr) 0 q = find tr 0 q.
Proof.
  intros n next tr p b t x W Hp Hf. induction q as [|s q IH] using rev_ind; intros Hq He; [reflexivity|].
  rewrite app_length in Hq. cbn in Hq. rewrite !find_snoc. rewrite IH by (try lia; eapply extends_snoc, He).
  destruct (find tr 0 q) as [c|] eqn:Ec; [|reflexivity].
  rewrite set_nth_other; [reflexivity|]. intros Heq.
  destruct (wf_block _ _ _ W p b Hp Hf) as [_ [m Em]]. destruct (wf_block _ _ _ W q c ltac:(lia) Ec) as [_ [k Ek]]. subst.
  destruct (block_entry _ _ _ _ Heq) as [E1 E2]. subst s. rewrite <- E1 in Ec.
  rewrite (wf_inj _ _ _ W p q _ Hp ltac:(lia) Hf Ec) in He. apply He. exists []. rewrite app_nil_r. reflexivity.
Qed.

Lemma find_last : forall n next tr p b t c, wf_lookup n next tr -> length p < n -> find tr 0 p = Some b ->
  find (set_nth (b + order t) (Some c) tr) 0 (p ++ [t]) = Some c.
Proof.
  intros n next tr p b t c W Hp Hf. rewrite find_snoc.
  rewrite (find_set n next tr p b t (Some c) W Hp Hf p ltac:(lia)).
  - rewrite Hf. rewrite set_nth_same; [reflexivity|]. pose proof (wf_next _ _ _ W).
    destruct (wf_block _ _ _ W p b Hp Hf) as [Hb _]. pose proof (order_lt t). lia.
  - intros He. apply extends_len in He. rewrite app_length in He. cbn in He. lia.
Qed.

(* a block of free entries has no successors *)
Lemma find_free : forall tr b t q, (forall i, b <= i < b + 5 -> nth_error tr i = Some None) -> find tr b (t :: q) = None.
Proof. intros tr b t q H. cbn [find]. rewrite H; [reflexivity|]. pose proof (order_lt t). lia. Qed.

(* one more block *)
Lemma wf_step : forall n next tr p b t, wf_lookup n next tr -> S (length p) < n -> find tr 0 p = Some b ->
  nth_error tr (b + order t) = Some None -> next + 5 <= length tr ->
  wf_lookup n (next + 5) (set_nth (b + order t) (Some next) tr) /\
  find (set_nth (b + order t) (Some next) tr) 0 (p ++ [t]) = Some next /\
  (forall q, ~ extends q (p ++ [t]) -> length q <= n -> find (set_nth (b + order t) (Some next) tr) 0 q = find tr 0 q) /\
  (forall s, nth_error (set_nth (b + order t) (Some next) tr) (next + order s) = Some None).
Proof.
  intros n next tr p b t W Hp Hf Hn Hl. set (tr' := set_nth (b + order t) (Some next) tr).
  assert (Hp' : length p < n) by lia.
  destruct (wf_block _ _ _ W p b Hp' Hf) as [Hb [m Em]]. pose proof (order_lt t) as Ht.
  assert (F1 : find tr' 0 (p ++ [t]) = Some next) by (eapply find_last; eassumption).
  assert (F2 : forall q, ~ extends q (p ++ [t]) -> length q <= n -> find tr' 0 q = find tr 0 q).
  { intros q Hq Hl'. eapply find_set; eassumption. }
  assert (F3 : forall i, next <= i < length tr -> nth_error tr' i = Some None).
  { intros i Hi. unfold tr'. rewrite set_nth_other by lia. apply (wf_free _ _ _ W). exact Hi. }
  assert (F4 : forall r, length (p ++ [t] ++ r) <= n -> r <> [] -> find tr' 0 (p ++ [t] ++ r) = None).
  { intros [|s r] _ Hr; [congruence|]. rewrite app_assoc, find_app, F1. apply find_free. intros i Hi. apply F3. lia. }
  assert (F5 : forall q c, length q < n -> find tr' 0 q = Some c -> (q = p ++ [t] /\ c = next) \/ (find tr 0 q = Some c /\ ~ extends q (p ++ [t]))).
  { intros q c Hq Hc. destruct (extends_dec q (p ++ [t])) as [[r ->]|He].
    - left. destruct r as [|s r].
      + rewrite app_nil_r in Hc |- *. split; [reflexivity|]. congruence.
      + rewrite <- app_assoc in Hc, Hq. rewrite F4 in Hc; [discriminate|lia|discriminate].
    - right. rewrite F2 in Hc by (try assumption; lia). auto. }
  split; [|split; [exact F1|split; [exact F2|]]].
  - constructor.
    + unfold tr'. rewrite set_nth_length. exact Hl.
    + destruct (wf_mult _ _ _ W) as [k ->]. exists (k + 1). lia.
    + intros q c Hq Hc. destruct (F5 q c Hq Hc) as [[-> ->]|[Hc' _]].
      * split; [lia|]. apply (wf_mult _ _ _ W).
      * destruct (wf_block _ _ _ W q c Hq Hc') as [H1 H2]. split; [lia|exact H2].
    + intros q1 q2 c H1 H2 E1 E2. destruct (F5 _ _ H1 E1) as [[-> ->]|[E1' N1]], (F5 _ _ H2 E2) as [[-> Ec]|[E2' N2]].
      * reflexivity.
      * exfalso. destruct (wf_block _ _ _ W q2 _ H2 E2') as [H _]. lia.
      * exfalso. subst c. destruct (wf_block _ _ _ W q1 _ H1 E1') as [H _]. lia.
      * apply (wf_inj _ _ _ W q1 q2 c); assumption.
    + intros i Hi. unfold tr' in Hi. rewrite set_nth_length in Hi. apply F3. lia.
  - intros s. apply F3. pose proof (order_lt s). lia.
Qed.

(* the last entry *)
Lemma wf_final : forall n next tr p b t id, wf_lookup n next tr -> S (length p) = n -> find tr 0 p = Some b ->
  nth_error tr (b + order t) = Some None ->
  wf_lookup n next (set_nth (b + order t) (Some id) tr) /\
  find (set_nth (b + order t) (Some id) tr) 0 (p ++ [t]) = Some id /\
  (forall q, length q <= n -> q <> p ++ [t] -> find (set_nth (b + order t) (Some id) tr) 0 q = find tr 0 q).
Proof.
  intros n next tr p b t id W Hp Hf Hn. assert (Hp' : length p < n) by lia.
  assert (F2 : forall q, length q <= n -> q <> p ++ [t] -> find (set_nth (b + order t) (Some id) tr) 0 q = find tr 0 q).
  { intros q Hq Hne. eapply find_set; try eassumption. intros [r ->]. apply Hne. rewrite !app_length in Hq. cbn in Hq.
    destruct r; [rewrite app_nil_r; reflexivity|cbn in Hq; lia]. }
  assert (F3 : forall q, length q < n -> find (set_nth (b + order t) (Some id) tr) 0 q = find tr 0 q).
  { intros q Hq. apply F2; [lia|]. intros ->. rewrite app_length in Hq. cbn in Hq. lia. }
  split; [|split; [eapply find_last; eassumption|exact F2]].
  destruct (wf_block _ _ _ W p b Hp' Hf) as [Hb _]. pose proof (order_lt t) as Ht.
  constructor.
  - rewrite set_nth_length. apply (wf_next _ _ _ W).
  - apply (wf_mult _ _ _ W).
  - intros q c Hq Hc. rewrite F3 in Hc by exact Hq. apply (wf_block _ _ _ W q c Hq Hc).
  - intros q1 q2 c H1 H2 E1 E2. rewrite F3 in E1, E2 by assumption. apply (wf_inj _ _ _ W q1 q2 c); assumption.
  - intros i Hi. rewrite set_nth_length in Hi. rewrite set_nth_other by lia. apply (wf_free _ _ _ W). exact Hi.
Qed.

Lemma fill_ok : forall n id missing tr p b next, missing <> [] ->
  wf_lookup n next tr -> length p + length missing = n -> find tr 0 p = Some b ->
  (forall t ts, missing = t :: ts -> nth_error tr (b + order t) = Some None) ->
  length tr = next + (length missing - 1) * 5 ->
  exists tr', fill_lookup tr missing b next id = Ok tr' /\ length tr' = length tr /\ wf_lookup n (length tr) tr' /\
    find tr' 0 (p ++ missing) = Some id /\
    (forall q, length q = n -> q <> p ++ missing -> find tr' 0 q = find tr 0 q).
Proof.
  intros n id. induction missing as [|t missing IH]; intros tr p b next Hne W Hl Hf Hn Hlen; [congruence|].
  cbn [length] in Hl, Hlen. specialize (Hn t missing eq_refl).
  destruct (wf_block _ _ _ W p b ltac:(lia) Hf) as [Hb _]. pose proof (order_lt t) as Ht.
  assert (Hput : forall x, put tr (b + order t) x = Ok (set_nth (b + order t) x tr)) by (intros x; apply put_ok; lia).
  destruct missing as [|s missing].
  - cbn [fill_lookup]. rewrite Hput. destruct (wf_final n next tr p b t id W ltac:(cbn in Hl; lia) Hf Hn) as (W' & F1 & F2).
    cbn in Hlen. rewrite Nat.add_0_r in Hlen. rewrite Hlen. eexists. split; [reflexivity|]. split; [rewrite set_nth_length; lia|].
    split; [exact W'|]. split; [exact F1|]. intros q Hq. apply F2. lia.
  - cbn [length] in *.
    destruct (wf_step n next tr p b t W ltac:(lia) Hf Hn ltac:(lia)) as (W' & F1 & F2 & F3).
    destruct (IH (set_nth (b + order t) (Some next) tr) (p ++ [t]) next (next + 5)) as (tr' & E & L & W'' & G1 & G2); try assumption.
    + discriminate.
    + rewrite app_length. cbn. lia.
    + intros t0 ts E. injection E as <- <-. apply F3.
    + rewrite set_nth_length. lia.
    + exists tr'. rewrite set_nth_length in L, W''. rewrite <- app_assoc in G1, G2. cbn [app] in G1, G2.
      split; [change (bind (put tr (b + order t) (Some next)) (fun tr0 => fill_lookup tr0 (s :: missing) next (next + num_types) id) = Ok tr'); rewrite Hput; exact E|].
      split; [exact L|]. split; [exact W''|]. split; [exact G1|].
      intros q Hq Hne'. rewrite G2 by assumption.
      destruct (extends_dec q (p ++ [t])) as [[r ->]|He]; [|apply F2; [exact He|lia]].
      (* below the new block nothing was and nothing but the new path is *)
      destruct r as [|u r]; [rewrite !app_length in Hq; cbn in Hq; lia|].
      rewrite (find_app _ (p ++ [t])), F1. rewrite find_free.
      * rewrite <- app_assoc, find_app, Hf. cbn [find app]. rewrite Hn. reflexivity.
      * intros i Hi. rewrite set_nth_other by lia. apply (wf_free _ _ _ W). lia.
Qed.

Lemma find_grow : forall n next tr k, wf_lookup n next tr -> next = length tr -> forall q, length q <= n ->
  find (tr ++ repeat None k) 0 q = find tr 0 q.
Proof.
  intros n next tr k W E. induction q as [|s q IH] using rev_ind; intros Hq; [reflexivity|].
  rewrite app_length in Hq. cbn in Hq. rewrite !find_snoc, IH by lia. destruct (find tr 0 q) as [b|] eqn:Eb; [|reflexivity].
  destruct (wf_block _ _ _ W q b ltac:(lia) Eb) as [Hb _]. pose proof (order_lt s). rewrite nth_error_app1 by lia. reflexivity.
Qed.
Lemma wf_grow : forall n tr k, wf_lookup n (length tr) tr -> wf_lookup n (length tr) (tr ++ repeat None k).
Proof.
  intros n tr k W. pose proof (find_grow n _ tr k W eq_refl) as F. constructor.
  - rewrite app_length. lia.
  - apply (wf_mult _ _ _ W).
  - intros p b Hp Hb. rewrite F in Hb by lia. apply (wf_block _ _ _ W p b Hp Hb).
  - intros p q b Hp Hq E1 E2. rewrite F in E1, E2 by lia. apply (wf_inj _ _ _ W p q b); assumption.
  - intros i Hi. rewrite nth_error_app2 by lia. rewrite app_length, repeat_length in Hi.
    rewrite (nth_error_nth' (repeat None k) None) by (rewrite repeat_length; lia). f_equal. apply nth_repeat.
Qed.

(* the specification of the lookup *)
Theorem subtable_id_ok : forall n tr types num, wf_lookup n (length tr) tr -> length types = n ->
  match find tr 0 types with
  | Some id => subtable_id tr types 0 num = Ok (tr, Some id)
  | None => exists tr', subtable_id tr types 0 num = Ok (tr', None) /\ wf_lookup n (length tr') tr' /\
      find tr' 0 types = Some num /\ forall q, length q = n -> q <> types -> find tr' 0 q = find tr 0 q
  end.
Proof.
  intros n tr types num W Hl.
  enough (Hg : forall rest p b, p ++ rest = types -> find tr 0 p = Some b ->
    match find tr 0 types with
    | Some id => subtable_id tr rest b num = Ok (tr, Some id)
    | None => exists tr', subtable_id tr rest b num = Ok (tr', None) /\ wf_lookup n (length tr') tr' /\
        find tr' 0 types = Some num /\ forall q, length q = n -> q <> types -> find tr' 0 q = find tr 0 q
    end) by (apply (Hg types [] 0); reflexivity).
  induction rest as [|t rest IH]; intros p b Hp Hf.
  - rewrite app_nil_r in Hp. subst p. rewrite Hf. reflexivity.
  - assert (Hlp : length p + S (length rest) = n) by (rewrite <- Hl, <- Hp, app_length; reflexivity).
    destruct (wf_block _ _ _ W p b ltac:(lia) Hf) as [Hb _]. pose proof (order_lt t) as Ht.
    destruct (nth_lt _ tr (b + order t) ltac:(lia)) as [o Eo]. cbn [subtable_id]. rewrite (index_some _ _ _ _ Eo). cbn [bind].
    destruct o as [c|].
    + apply (IH (p ++ [t]) c); [rewrite <- app_assoc; exact Hp|]. rewrite find_snoc, Hf, Eo. reflexivity.
    + assert (En : find tr 0 types = None) by (rewrite <- Hp, find_app, Hf; cbn [find]; rewrite Eo; reflexivity). rewrite En.
      unfold add_lookup. set (k := (length (t :: rest) - 1) * num_types).
      destruct (fill_ok n num (t :: rest) (tr ++ repeat None k) p b (length tr)) as (tr' & E & L & W' & G1 & G2).
      * discriminate.
      * apply wf_grow, W.
      * cbn [length]. lia.
      * rewrite (find_grow n (length tr)) by (try assumption; try reflexivity; lia). exact Hf.
      * intros t0 ts E0. injection E0 as <- <-. rewrite nth_error_app1 by lia. exact Eo.
      * rewrite app_length, repeat_length. reflexivity.
      * rewrite E. cbn [bind]. exists tr'. split; [reflexivity|]. rewrite <- L in W'. split; [exact W'|]. rewrite Hp in G1, G2. split; [exact G1|].
        intros q Hq Hne. rewrite G2 by assumption. apply (find_grow n (length tr)); try assumption; try reflexivity. lia.
Qed.

Lemma wf_initial : forall n, 0 < n -> wf_lookup n 5 (repeat None num_types).
Proof.
  intros n Hn. assert (F : forall q b, find (repeat None num_types) 0 q = Some b -> q = [] /\ b = 0).
  { intros [|t q] b H; [injection H as <-; auto|]. cbn [find] in H. destruct t; discriminate. }
  constructor.
  - reflexivity.
  - exists 1. reflexivity.
  - intros p b _ H. apply F in H. destruct H as [_ ->]. split; [lia|]. exists 0. reflexivity.
  - intros p q b _ _ E1 E2. apply F in E1, E2. destruct E1 as [-> _], E2 as [-> _]. reflexivity.
  - cbn. lia.
Qed.
