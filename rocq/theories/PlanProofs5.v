(* From plans to series: what holds of the trees built so far. *)
From Coq Require Import List ZArith Bool Lia Arith Permutation Sorted.
From Verif Require Import ColumnModel ScanModel ScanSpec TrieModel TrieSpec TrieScanSpec OpModel OpSpec OpProofs3 ProjModel ProjSpec ProjProofs1 ProjProofs2 ProjProofs3 ProjProofs4 ProjProofs5 StoreModel StoreSpec StoreProofs1 StoreProofs2 PlanModel PlanSpec PlanProofs1 PlanProofs2 PlanProofs3.
From Verif Require PermModel PermProps PermProofs.
Import ListNotations.
Local Open Scope nat_scope.

Lemma reorder_rows : forall source target n, permutes n source -> permutes n target ->
  exists v p, from_reordering source target n = Ok p /\ projects n v p /\ length v = n /\ (forall i, In i v -> i < n) /\
    (forall P, same_rows n (projected n (rearranged n source P) v) (rearranged n target P)) /\
    (PermModel.choice_is_identity (pj_choice p) = true <-> forall i, PermModel.get source i = PermModel.get target i).
Proof.
  intros source target n Hs Ht. pose proof (PermProps.built_wf _ (proj1 Hs)) as Ws. pose proof (PermProps.built_wf _ (proj1 Ht)) as Wt.
  destruct (from_reordering_ok source target n Ws Wt (permutes_length _ _ Hs) (permutes_length _ _ Ht)) as (v & p & Ep & HP & Hlv & Hget & Hb).
  exists v, p. split; [exact Ep|]. split; [exact HP|]. split; [exact Hlv|]. split; [exact Hb|].
  assert (Htr : forall r s t, length r = n -> length t = n -> arranged source r s -> (map Some t = map (nth_error s) v <-> arranged target r t)).
  { intros r s t Hlr Hlt (Hls & Ha). split.
    - intros E'. split; [unfold row in *; lia|]. intros i Hi. rewrite Hlr in Hi. assert (Eg : nth_error (map Some t) (PermModel.get target i) = nth_error (map (nth_error s) v) (PermModel.get target i)) by (rewrite E'; reflexivity).
      rewrite !nth_error_map, (Hget i Hi) in Eg. cbn [option_map] in Eg. rewrite (Ha i) in Eg by (unfold row in *; lia).
      destruct (nth_error t (PermModel.get target i)) as [x|]; cbn in Eg; congruence.
    - intros (_ & Hta). apply nth_list_ext. intros j. rewrite !nth_error_map. destruct (Nat.lt_ge_cases j n) as [Hj|Hj].
      + destruct (permutes_onto n target j Ht Hj) as (i & Hi & <-). rewrite (Hget i Hi). cbn [option_map]. rewrite (Ha i), (Hta i) by (unfold row in *; lia).
        destruct (nth_error r i) eqn:Er; [reflexivity|]. apply nth_error_None in Er. unfold row in *. lia.
      + rewrite (proj2 (nth_error_None t j)), (proj2 (nth_error_None v j)) by (unfold row in *; lia). reflexivity. }
  split.
  - intros P t Hlt. split.
    + intros (s & Hls & (r & Hlr & HPr & Hr) & E'). exists r. split; [exact Hlr|]. split; [exact HPr|]. apply (Htr r s t Hlr Hlt Hr), E'.
    + intros (r & Hlr & HPr & Hta). destruct (arranged_exists n source r Hs Hlr) as (s & Hls & Hr). exists s. split; [exact Hls|].
      split; [exists r; auto|]. apply (Htr r s t Hlr Hlt Hr), Hta.
  - rewrite (pr_identity _ _ _ HP). split.
    + intros Ev i. destruct (Nat.lt_ge_cases i n) as [Hi|Hi]; [|rewrite (proj2 Hs i Hi), (proj2 Ht i Hi); reflexivity].
      specialize (Hget i Hi). rewrite Ev in Hget. assert (Hg : PermModel.get target i < length (seq 0 n)) by (apply nth_error_Some; congruence). rewrite seq_length in Hg.
      rewrite (nth_error_nth' (seq 0 n) 0) in Hget by (rewrite seq_length; exact Hg). rewrite seq_nth in Hget by exact Hg. injection Hget as <-. reflexivity.
    + intros E. apply nth_list_ext. intros j. destruct (Nat.lt_ge_cases j n) as [Hj|Hj].
      * destruct (permutes_onto n target j Ht Hj) as (i & Hi & <-). rewrite (Hget i Hi), E. rewrite (nth_error_nth' (seq 0 n) 0) by (rewrite seq_length; exact Hj). rewrite seq_nth by exact Hj. reflexivity.
      * rewrite (proj2 (nth_error_None v j)), (proj2 (nth_error_None (seq 0 n) j)) by (rewrite ?seq_length; lia). reflexivity.
Qed.

Inductive reach (pl : plan) : nat -> nat -> Prop :=
| re_refl x : reach pl x x
| re_sub x s y : sub_of pl x s -> reach pl s y -> reach pl x y.

Record outs_ok (pl : plan) : Prop := {
  oo_distinct : forall on, In on (pl_outs pl) -> find_out (pl_outs pl) (on_node on) = Some on;
  oo_range : forall on, In on (pl_outs pl) -> on_node on < length (pl_nodes pl);
  oo_subs : forall nd s, sub_of pl nd s -> s < length (pl_nodes pl);
  oo_projects : forall nd, projecting pl nd -> output pl nd;
  oo_required : forall on, In on (pl_outs pl) -> projecting pl (on_node on) -> on_required on = false }.

Lemma find_out_spec : forall outs nd on, find_out outs nd = Some on -> In on outs /\ on_node on = nd.
Proof. intros outs nd on H. unfold find_out in H. apply find_some in H. destruct H as [H E]. apply Nat.eqb_eq in E. auto. Qed.
Lemma find_out_none : forall pl nd, find_out (pl_outs pl) nd = None -> ~ output pl nd.
Proof. intros pl nd H (on & Hin & E). unfold find_out in H. pose proof (find_none _ _ H on Hin) as N. cbn beta in N. rewrite E, Nat.eqb_refl in N. discriminate. Qed.

Section Build.
Variable cat : catalog.
Variable pl : plan.
Variable A : nat -> nat.
Variable M : nat -> row -> Prop.
Hypothesis OO : outs_ok pl.
Variable rank : nat -> nat.
Hypothesis RK : forall nd s, sub_of pl nd s -> rank s < rank nd.

Lemma find_output : forall nd, output pl nd -> exists on, find_out (pl_outs pl) nd = Some on.
Proof. intros nd (on & Hin & <-). exists on. apply (oo_distinct pl OO on Hin). Qed.
Lemma within_rank : forall root nd, within pl root nd -> rank nd <= rank root.
Proof. intros root nd H. induction H as [|nd s _ IH _ Hs]; [lia|]. specialize (RK nd s Hs). lia. Qed.

Definition rows_of (g : nat * perm) : nat * (row -> Prop) := (A (fst g), rearranged (A (fst g)) (snd g) (M (fst g))).
Notation entry := (prod (prod tree (list marker)) (list nat)).
Definition T (e : entry) : tree := fst (fst e).
Definition in_map (st : pstate) (nd : nat) : Prop := find_key Nat.eqb nd (ps_map st) <> None.

(* what does not change *)
Record tree_ok (Ld : list (nat * perm)) (C : contents) (e : entry) (g : nat * perm) (r : nat) : Prop := {
  to_out : exists on, find_out (pl_outs pl) (fst g) = Some on /\ t_result (T e) = (if PermModel.is_identity (snd g) then on_result on else Temporary) /\ t_required (T e) = on_required on;
  to_id : t_id (T e) = fst g;
  to_markers : snd (fst e) = columns pl (fst g);
  to_wanted : wanted pl (fst g) (snd g);
  to_permutes : permutes (A (fst g)) (snd g);
  to_roots : snd e <> [] /\ forall x, In x (snd e) -> output pl x /\ within pl x (fst g);
  to_computes : root_computes cat Ld (firstn r C) (t_root (T e)) (A (fst g)) (rearranged (A (fst g)) (snd g) (M (fst g)));
  to_project : forall p o, t_root (T e) = RProject p o -> (projecting pl (fst g) \/ exists o', wanted pl (fst g) o' /\ ~ identical o') /\
    (PermModel.choice_is_identity (pj_choice p) = true -> exists s ms, node_is pl (fst g) (PProject s) ms /\ columns pl s = ms) }.
Record static (st : pstate) (G : list (nat * perm)) : Prop := {
  s_length : length G = length (ps_trees st);
  s_tree : forall r e g, nth_error (ps_trees st) r = Some e -> nth_error G r = Some g -> tree_ok (ps_loaded st) (map rows_of G) e g r;
  s_map : forall nd, match find_key Nat.eqb nd (ps_map st) with
    | Some tables => exists o c, tables = [(o, c)] /\ nth_error G c = Some (nd, o)
    | None => forall r o, nth_error G r <> Some (nd, o)
    end;
  s_unique : forall nd r r' o o', projecting pl nd -> nth_error G r = Some (nd, o) -> nth_error G r' = Some (nd, o') -> r = r';
  s_closed : forall x y, in_map st x -> reach pl x y -> output pl y -> in_map st y;
  s_loaded : forall id o, In (id, o) (ps_loaded st) -> exists n P, nth_error cat id = Some (n, P, None) /\ permutes n o }.
(* references to trees *)
Definition depends (trees : list entry) (c r : nat) : Prop := exists e ch, nth_error trees c = Some e /\ In (r, ch) (t_dependents (T e)).
Record dynamic (trees : list entry) (G : list (nat * perm)) (R due : list nat) : Prop := {
  d_bound : forall c, In c (R ++ due) -> c < length trees;
  d_used : forall c e, nth_error trees c = Some e -> count_occ Nat.eq_dec (R ++ due) c <= t_used (T e);
  d_refs : forall r e, nth_error trees r = Some e -> (exists c, depends trees c r) \/ incl (root_refs (t_root (T e))) R;
  d_zero : forall c e, nth_error trees c = Some e -> t_used (T e) = 0 -> t_dependents (T e) <> [];
  d_deps : forall c e g, nth_error trees c = Some e -> nth_error G c = Some g -> t_dependents (T e) <> [] ->
    (exists o, t_root (T e) = ROp o) /\ t_result (T e) = Temporary /\ 0 < A (fst g);
  d_dep : forall c e r ch, nth_error trees c = Some e -> In (r, ch) (t_dependents (T e)) ->
    c < r /\ exists e' p, nth_error trees r = Some e' /\ t_root (T e') = RProject p (TComputed c) /\ ch = pj_choice p /\ t_required (T e') = false }.
Definition pinv (st : pstate) (G : list (nat * perm)) (R due : list nat) : Prop := static st G /\ dynamic (ps_trees st) G R due.

(* what grows *)
Record grows (nd root : nat) (st : pstate) (G : list (nat * perm)) (st' : pstate) (G' : list (nat * perm)) : Prop := {
  g_trees : exists more, G' = G ++ more /\ forall g, In g more -> rank (fst g) < rank nd \/ (fst g = nd /\ nd <> root);
  g_loaded : exists more, ps_loaded st' = ps_loaded st ++ more;
  g_roots : forall c e, nth_error (ps_trees st) c = Some e -> exists e', nth_error (ps_trees st') c = Some e' /\ incl (snd e) (snd e');
  g_map : forall x, in_map st x -> in_map st' x }.
Lemma grows_refl : forall nd root st G, grows nd root st G st G.
Proof.
  intros nd root st G. split.
  - exists []. rewrite app_nil_r. split; [reflexivity|intros g []].
  - exists []. rewrite app_nil_r. reflexivity.
  - intros c e H. exists e. split; [exact H|apply incl_refl].
  - auto.
Qed.
Lemma grows_trans : forall nd root st G st1 G1 st2 G2, grows nd root st G st1 G1 -> grows nd root st1 G1 st2 G2 -> grows nd root st G st2 G2.
Proof.
  intros nd root st G st1 G1 st2 G2 H1 H2. split.
  - destruct (g_trees _ _ _ _ _ _ H1) as (m1 & -> & K1). destruct (g_trees _ _ _ _ _ _ H2) as (m2 & -> & K2). exists (m1 ++ m2). split; [symmetry; apply app_assoc|].
    intros g Hg. apply in_app_or in Hg. destruct Hg; auto.
  - destruct (g_loaded _ _ _ _ _ _ H1) as (m1 & E1). destruct (g_loaded _ _ _ _ _ _ H2) as (m2 & E2). exists (m1 ++ m2). rewrite E2, E1. symmetry. apply app_assoc.
  - intros c e H. destruct (g_roots _ _ _ _ _ _ H1 c e H) as (e1 & E1 & I1). destruct (g_roots _ _ _ _ _ _ H2 c e1 E1) as (e2 & E2 & I2). exists e2. split; [exact E2|]. intros x Hx. apply I2, I1, Hx.
  - intros x Hx. apply (g_map _ _ _ _ _ _ H2), (g_map _ _ _ _ _ _ H1), Hx.
Qed.
Lemma grows_sub : forall nd root s root' st G st' G', sub_of pl nd s -> grows s root' st G st' G' -> grows nd root st G st' G'.
Proof.
  intros nd root s root' st G st' G' Hs H. split; [|apply (g_loaded _ _ _ _ _ _ H)|apply (g_roots _ _ _ _ _ _ H)|apply (g_map _ _ _ _ _ _ H)].
  destruct (g_trees _ _ _ _ _ _ H) as (more & -> & K). exists more. split; [reflexivity|]. intros g Hg. left. specialize (RK nd s Hs). destruct (K g Hg) as [K1|[-> _]]; lia.
Qed.
Lemma grows_more : forall nd root root' st G st' G', (nd <> root') -> grows nd root st G st' G' -> grows nd root' st G st' G'.
Proof.
  intros nd root root' st G st' G' Hn H. split; [|apply (g_loaded _ _ _ _ _ _ H)|apply (g_roots _ _ _ _ _ _ H)|apply (g_map _ _ _ _ _ _ H)].
  destruct (g_trees _ _ _ _ _ _ H) as (more & -> & K). exists more. split; [reflexivity|]. intros g Hg. destruct (K g Hg) as [K1|[K1 _]]; [left; exact K1|right; split; assumption].
Qed.
Lemma grows_computes : forall nd root st G st' G', grows nd root st G st' G' -> forall o n Q,
  computes cat (ps_loaded st) (map rows_of G) o n Q -> computes cat (ps_loaded st') (map rows_of G') o n Q.
Proof.
  intros nd root st G st' G' H o n Q HC. destruct (g_trees _ _ _ _ _ _ H) as (more & -> & _). destruct (g_loaded _ _ _ _ _ _ H) as (more' & ->). rewrite map_app. apply computes_ext, HC.
Qed.
Lemma grows_nth : forall nd root st G st' G' c g, grows nd root st G st' G' -> nth_error G c = Some g -> nth_error G' c = Some g.
Proof. intros nd root st G st' G' c g H E. destruct (g_trees _ _ _ _ _ _ H) as (more & -> & _). rewrite nth_error_app1; [exact E|]. apply nth_error_Some. congruence. Qed.

(* ---------- a tree is used once more ---------- *)
Lemma update_spec : forall (trees : list entry) c e t' f g, nth_error trees c = Some e -> f (T e) = Ok t' ->
  exists trees', update_tree trees c f g = Ok trees' /\ length trees' = length trees /\
    forall j, nth_error trees' j = if j =? c then Some (t', snd (fst e), g (snd e)) else nth_error trees j.
Proof.
  intros trees c e t' f g E Ef. unfold update_tree, index. rewrite E. cbn [bind]. unfold T in Ef. rewrite Ef. cbn [bind].
  destruct (PermProofs.set_nth_some _ trees c (t', snd (fst e), g (snd e))) as (trees' & -> & Hl & H); [apply nth_error_Some; congruence|]. exists trees'. auto.
Qed.
Lemma count_app1 : forall l x c, count_occ Nat.eq_dec (l ++ [x]) c = count_occ Nat.eq_dec l c + (if Nat.eq_dec x c then 1 else 0).
Proof. intros l x c. rewrite count_occ_app. cbn [count_occ]. destruct (Nat.eq_dec x c); lia. Qed.
Lemma use_ok : forall st G R due c e root g, pinv st G R due -> nth_error (ps_trees st) c = Some e -> nth_error G c = Some g -> output pl root -> within pl root (fst g) ->
  exists trees, update_tree (ps_trees st) c use_tree (fun roots => roots ++ [root]) = Ok trees /\
    pinv (mk_pstate trees (ps_map st) (ps_loaded st)) G R (due ++ [c]) /\
    (exists e', nth_error trees c = Some e' /\ In root (snd e')) /\
    forall c' e', nth_error (ps_trees st) c' = Some e' -> exists e'', nth_error trees c' = Some e'' /\ incl (snd e') (snd e'').
Proof.
  intros st G R due c e root g [HS HD] Ec Eg Ho Hw.
  destruct (update_spec (ps_trees st) c e (mk_tree (t_root (T e)) (t_result (T e)) (t_id (T e)) (t_dependents (T e)) (S (t_used (T e))) (t_cut (T e)) (t_required (T e))) use_tree (fun roots => roots ++ [root]) Ec eq_refl) as (trees & Eu & Hl & Hn).
  exists trees. split; [exact Eu|]. set (e1 := (mk_tree (t_root (T e)) (t_result (T e)) (t_id (T e)) (t_dependents (T e)) (S (t_used (T e))) (t_cut (T e)) (t_required (T e)), snd (fst e), snd e ++ [root])) in *.
  assert (Hold : forall j e', nth_error trees j = Some e' -> (j = c /\ e' = e1) \/ (j <> c /\ nth_error (ps_trees st) j = Some e')).
  { intros j e' H. rewrite Hn in H. destruct (Nat.eqb_spec j c) as [->|N]; [left; injection H as <-; auto|right; auto]. }
  assert (Hdep : forall x y, depends (ps_trees st) x y -> depends trees x y).
  { intros x y (e' & ch & E & Hin). destruct (Nat.eq_dec x c) as [->|N].
    - exists e1, ch. rewrite Ec in E. injection E as <-. split; [rewrite Hn, Nat.eqb_refl; reflexivity|exact Hin].
    - exists e', ch. split; [rewrite Hn, (proj2 (Nat.eqb_neq _ _) N); exact E|exact Hin]. }
  split; [split; [split|split]|split].
  - cbn [ps_trees]. rewrite Hl. apply (s_length _ _ HS).
  - cbn [ps_trees ps_loaded]. intros r e' g' E' Eg'. destruct (Hold r e' E') as [[-> ->]|[_ E0]]; [|apply (s_tree _ _ HS r e' g' E0 Eg')].
    rewrite Eg in Eg'. injection Eg' as <-. destruct (s_tree _ _ HS c e g Ec Eg) as [K1 K2 K3 K4 K5 K6 K7 K8]. split; try assumption. cbn [e1 snd]. destruct K6 as [K6 K6']. split; [destruct (snd e); discriminate|].
    intros x Hx. apply in_app_or in Hx. destruct Hx as [Hx|[<-|[]]]; [apply K6', Hx|auto].
  - cbn [ps_map]. apply (s_map _ _ HS).
  - apply (s_unique _ _ HS).
  - apply (s_closed _ _ HS).
  - apply (s_loaded _ _ HS).
  - cbn [ps_trees]. intros x Hx. rewrite Hl. rewrite app_assoc in Hx. apply in_app_or in Hx. destruct Hx as [Hx|[<-|[]]]; [apply (d_bound _ _ _ _ HD x Hx)|apply nth_error_Some; congruence].
  - cbn [ps_trees]. intros x e' E'. rewrite app_assoc, count_app1. destruct (Hold x e' E') as [[-> ->]|[N E0]].
    + pose proof (d_used _ _ _ _ HD c e Ec). cbn [T e1 fst t_used]. destruct (Nat.eq_dec c c); lia.
    + pose proof (d_used _ _ _ _ HD x e' E0). destruct (Nat.eq_dec c x); [congruence|lia].
  - cbn [ps_trees]. intros r e' E'. destruct (Hold r e' E') as [[-> ->]|[N E0]].
    + destruct (d_refs _ _ _ _ HD c e Ec) as [(x & Hx)|Hx]; [left; exists x; apply Hdep, Hx|right; exact Hx].
    + destruct (d_refs _ _ _ _ HD r e' E0) as [(x & Hx)|Hx]; [left; exists x; apply Hdep, Hx|right; exact Hx].
  - cbn [ps_trees]. intros x e' E' Hu. destruct (Hold x e' E') as [[-> ->]|[N E0]]; [cbn in Hu; discriminate|apply (d_zero _ _ _ _ HD x e' E0 Hu)].
  - cbn [ps_trees]. intros x e' g' E' Eg' Hd. destruct (Hold x e' E') as [[-> ->]|[N E0]]; [apply (d_deps _ _ _ _ HD c e g' Ec Eg' Hd)|apply (d_deps _ _ _ _ HD x e' g' E0 Eg' Hd)].
  - cbn [ps_trees]. intros x e' r ch E' Hin.
    assert (K : x < r /\ exists e2 p, nth_error (ps_trees st) r = Some e2 /\ t_root (T e2) = RProject p (TComputed x) /\ ch = pj_choice p /\ t_required (T e2) = false).
    { destruct (Hold x e' E') as [[-> ->]|[N E0]]; [apply (d_dep _ _ _ _ HD c e r ch Ec Hin)|apply (d_dep _ _ _ _ HD x e' r ch E0 Hin)]. }
    destruct K as (Hlt & e2 & p & E2 & K2 & K3 & K4). split; [exact Hlt|]. destruct (Nat.eq_dec r c) as [->|N].
    + rewrite Ec in E2. injection E2 as <-. exists e1, p. split; [rewrite Hn, Nat.eqb_refl; reflexivity|]. auto.
    + exists e2, p. split; [rewrite Hn, (proj2 (Nat.eqb_neq _ _) N); exact E2|]. auto.
  - exists e1. split; [rewrite Hn, Nat.eqb_refl; reflexivity|]. cbn [e1 snd]. apply in_or_app. right. left. reflexivity.
  - intros c' e' E'. rewrite Hn. destruct (Nat.eqb_spec c' c) as [->|N].
    + rewrite Ec in E'. injection E' as <-. exists e1. split; [reflexivity|]. cbn [e1 snd]. apply incl_appl, incl_refl.
    + exists e'. split; [exact E'|apply incl_refl].
Qed.

(* ---------- a new tree ---------- *)
Lemma firstn_map_app : forall (G : list (nat * perm)) x r, r <= length G -> firstn r (map rows_of (G ++ [x])) = firstn r (map rows_of G).
Proof. intros G x r H. rewrite map_app, firstn_app, map_length. replace (r - length G) with 0 by lia. cbn. apply app_nil_r. Qed.
Lemma nth_snoc : forall X (l : list X) x i y, nth_error (l ++ [x]) i = Some y -> (i < length l /\ nth_error l i = Some y) \/ (i = length l /\ y = x).
Proof.
  intros X l x i y H. destruct (Nat.lt_ge_cases i (length l)) as [Hi|Hi]; [left; rewrite nth_error_app1 in H by exact Hi; auto|]. right. rewrite nth_error_app2 in H by exact Hi.
  destruct (i - length l) as [|k] eqn:E; [injection H as <-; split; [lia|reflexivity]|]. destruct k; discriminate.
Qed.
Definition new_tree (rt : tree_root) (nd : nat) (order : perm) (on : out_node) : tree :=
  mk_tree rt (if PermModel.is_identity order then on_result on else Temporary) nd [] 1 0 (on_required on).
Definition finished (st : pstate) (root : nat) (rt : tree_root) (nd : nat) (order : perm) (on : out_node) : pstate :=
  mk_pstate (ps_trees st ++ [(new_tree rt nd order on, columns pl nd, [root])]) (put_key Nat.eqb nd [(order, length (ps_trees st))] (ps_map st)) (ps_loaded st).
Lemma in_map_finished : forall st root rt nd order on x, in_map (finished st root rt nd order on) x <-> x = nd \/ in_map st x.
Proof.
  intros st root rt nd order on x. unfold in_map, finished. cbn [ps_map]. rewrite find_put_nat. destruct (Nat.eqb_spec x nd) as [->|N]; [split; [auto|discriminate]|]. split; [auto|]. intros [H|H]; [congruence|exact H].
Qed.
Definition projection_root (nd : nat) (rt : tree_root) : Prop := forall p o, rt = RProject p o -> (projecting pl nd \/ exists o', wanted pl nd o' /\ ~ identical o') /\
  (PermModel.choice_is_identity (pj_choice p) = true -> exists s ms, node_is pl nd (PProject s) ms /\ columns pl s = ms).
Lemma append_static : forall st G nd order root rt on, static st G -> find_out (pl_outs pl) nd = Some on -> wanted pl nd order -> permutes (A nd) order ->
  output pl root -> within pl root nd -> root_computes cat (ps_loaded st) (map rows_of G) rt (A nd) (rearranged (A nd) order (M nd)) -> projection_root nd rt ->
  (projecting pl nd -> forall r o, nth_error G r <> Some (nd, o)) -> (forall y, reach pl nd y -> output pl y -> y <> nd -> in_map st y) ->
  static (finished st root rt nd order on) (G ++ [(nd, order)]).
Proof.
  intros st G nd order root rt on HS Hon Hwa Hpe Hro Hwi HC HP Hu Hcl. pose proof (s_length _ _ HS) as HL. split.
  - cbn [finished ps_trees]. rewrite !app_length, HL. reflexivity.
  - cbn [finished ps_trees ps_loaded]. intros r e g Er Eg. apply nth_snoc in Er, Eg. destruct Er as [[Hr Er]|[-> ->]], Eg as [[Hg Eg]|[Eg ->]]; try lia.
    + destruct (s_tree _ _ HS r e g Er Eg) as [K1 K2 K3 K4 K5 K6 K7 K8]. split; try assumption. rewrite firstn_map_app by lia. exact K7.
    + split; cbn [T fst snd new_tree t_result t_required t_id t_root]; try assumption; try reflexivity.
      * exists on. auto.
      * split; [discriminate|]. intros x [<-|[]]. auto.
      * rewrite firstn_map_app, <- HL, firstn_all2 by (rewrite ?map_length; lia). exact HC.
  - intros x. cbn [finished ps_map]. rewrite find_put_nat. destruct (Nat.eqb_spec x nd) as [->|N].
    + exists order, (length (ps_trees st)). split; [reflexivity|]. rewrite nth_error_app2 by lia. replace (length (ps_trees st) - length G) with 0 by lia. reflexivity.
    + pose proof (s_map _ _ HS x) as K. destruct (find_key Nat.eqb x (ps_map st)) as [tables|].
      * destruct K as (o & c & -> & Ec). exists o, c. split; [reflexivity|]. rewrite nth_error_app1; [exact Ec|]. apply nth_error_Some. congruence.
      * intros r o E. apply nth_snoc in E. destruct E as [[_ E]|[_ E]]; [apply (K r o E)|congruence].
  - intros x r r' o o' Hx E E'. apply nth_snoc in E, E'. destruct E as [[Hr E]|[-> E]], E' as [[Hr' E']|[-> E']].
    + apply (s_unique _ _ HS x r r' o o' Hx E E').
    + exfalso. injection E' as -> _. apply (Hu Hx r o E).
    + exfalso. injection E as -> _. apply (Hu Hx r' o' E').
    + reflexivity.
  - intros x y Hx Hxy Hy. apply in_map_finished in Hx. apply in_map_finished. destruct Hx as [->|Hx].
    + destruct (Nat.eq_dec y nd) as [->|N]; [left; reflexivity|right; apply Hcl; assumption].
    + right. apply (s_closed _ _ HS x y Hx Hxy Hy).
  - apply (s_loaded _ _ HS).
Qed.
Lemma count_none : forall l c, (forall x, In x l -> x < c) -> count_occ Nat.eq_dec l c = 0.
Proof. intros l c H. apply count_occ_not_In. intros Hc. specialize (H c Hc). lia. Qed.
Lemma append_dynamic : forall (trees : list entry) G R due rt nd order on root, length G = length trees -> dynamic trees G R (due ++ root_refs rt) ->
  dynamic (trees ++ [(new_tree rt nd order on, columns pl nd, [root])]) (G ++ [(nd, order)]) (R ++ root_refs rt) (due ++ [length trees]).
Proof.
  intros trees G R due rt nd order on root HL HD. set (D := root_refs rt) in *.
  assert (Hb : forall x, In x ((R ++ D) ++ due) -> x < length trees).
  { intros x Hx. apply (d_bound _ _ _ _ HD). rewrite !in_app_iff in *. tauto. }
  assert (Hco : forall c, count_occ Nat.eq_dec ((R ++ D) ++ due) c = count_occ Nat.eq_dec (R ++ due ++ D) c) by (intros c; rewrite !count_occ_app; lia).
  assert (Hdep : forall x y, depends trees x y -> depends (trees ++ [(new_tree rt nd order on, columns pl nd, [root])]) x y).
  { intros x y (e & ch & E & Hin). exists e, ch. split; [|exact Hin]. rewrite nth_error_app1; [exact E|]. apply nth_error_Some. congruence. }
  split.
  - intros c Hc. rewrite app_length. cbn [length]. rewrite app_assoc in Hc. apply in_app_or in Hc. destruct Hc as [Hc|[<-|[]]]; [specialize (Hb c Hc)|]; lia.
  - intros c e E. rewrite app_assoc, count_app1. apply nth_snoc in E. destruct E as [[Hc E]|[-> ->]].
    + pose proof (d_used _ _ _ _ HD c e E). rewrite Hco. destruct (Nat.eq_dec (length trees) c); lia.
    + rewrite count_none by exact Hb. cbn. destruct (Nat.eq_dec (length trees) (length trees)); lia.
  - intros r e E. apply nth_snoc in E. destruct E as [[Hr E]|[-> ->]].
    + destruct (d_refs _ _ _ _ HD r e E) as [(c & Hc)|Hc]; [left; exists c; apply Hdep, Hc|right; apply incl_appl, Hc].
    + right. cbn [T fst new_tree t_root]. apply incl_appr, incl_refl.
  - intros c e E Hu. apply nth_snoc in E. destruct E as [[Hr E]|[-> ->]]; [apply (d_zero _ _ _ _ HD c e E Hu)|discriminate].
  - intros c e g E Eg Hd. apply nth_snoc in E. destruct E as [[Hr E]|[-> ->]]; [|cbn in Hd; congruence]. rewrite nth_error_app1 in Eg by lia. apply (d_deps _ _ _ _ HD c e g E Eg Hd).
  - intros c e r ch E Hin. apply nth_snoc in E. destruct E as [[Hr E]|[-> ->]]; [|destruct Hin]. destruct (d_dep _ _ _ _ HD c e r ch E Hin) as (Hlt & e' & p & E' & K).
    split; [exact Hlt|]. exists e', p. split; [|exact K]. rewrite nth_error_app1; [exact E'|]. apply nth_error_Some. congruence.
Qed.

(* a projection of a temporary tree is computed together with it *)
Lemma depend_ok : forall st G R due c e g p nd order on root, static st G -> dynamic (ps_trees st) G R (due ++ [c]) -> nth_error (ps_trees st) c = Some e -> nth_error G c = Some g ->
  (exists o, t_root (T e) = ROp o) -> t_result (T e) = Temporary -> 0 < A (fst g) -> on_required on = false ->
  exists trees, update_tree (ps_trees st) c (depend_tree (length (ps_trees st)) (pj_choice p)) (fun roots => roots) = Ok trees /\
    static (mk_pstate trees (ps_map st) (ps_loaded st)) G /\ length trees = length (ps_trees st) /\
    dynamic (trees ++ [(new_tree (RProject p (TComputed c)) nd order on, columns pl nd, [root])]) (G ++ [(nd, order)]) R (due ++ [length trees]) /\
    forall c' e', nth_error (ps_trees st) c' = Some e' -> exists e'', nth_error trees c' = Some e'' /\ incl (snd e') (snd e'').
Proof.
  intros st G R due c e g p nd order on root HS HD Ec Eg Hop Hte HA Hrq.
  assert (Hu : exists u, t_used (T e) = S u).
  { pose proof (d_used _ _ _ _ HD c e Ec) as K. rewrite app_assoc, count_app1 in K. destruct (Nat.eq_dec c c); [|congruence]. destruct (t_used (T e)); [lia|eauto]. }
  destruct Hu as (u & Hu).
  destruct (update_spec (ps_trees st) c e (mk_tree (t_root (T e)) (t_result (T e)) (t_id (T e)) (t_dependents (T e) ++ [(length (ps_trees st), pj_choice p)]) u (t_cut (T e)) (t_required (T e)))
    (depend_tree (length (ps_trees st)) (pj_choice p)) (fun roots => roots) Ec) as (trees & Eu & Hl & Hn).
  { unfold depend_tree. rewrite Hu. reflexivity. }
  set (e1 := (mk_tree (t_root (T e)) (t_result (T e)) (t_id (T e)) (t_dependents (T e) ++ [(length (ps_trees st), pj_choice p)]) u (t_cut (T e)) (t_required (T e)), snd (fst e), snd e)) in *.
  exists trees. split; [exact Eu|].
  assert (Hold : forall j e', nth_error trees j = Some e' -> (j = c /\ e' = e1) \/ (j <> c /\ nth_error (ps_trees st) j = Some e')).
  { intros j e' H. rewrite Hn in H. destruct (Nat.eqb_spec j c) as [->|N]; [left; injection H as <-; auto|right; auto]. }
  assert (Hc1 : nth_error trees c = Some e1) by (rewrite Hn, Nat.eqb_refl; reflexivity).
  assert (Hclt : c < length (ps_trees st)) by (apply nth_error_Some; congruence).
  set (new := (new_tree (RProject p (TComputed c)) nd order on, columns pl nd, [root])).
  assert (Hdep : forall x y, depends (ps_trees st) x y -> depends (trees ++ [new]) x y).
  { intros x y (e' & ch & E & Hin). assert (x < length trees) by (rewrite Hl; apply nth_error_Some; congruence). destruct (Nat.eq_dec x c) as [->|N].
    - exists e1, ch. rewrite Ec in E. injection E as <-. split; [rewrite nth_error_app1 by assumption; exact Hc1|]. cbn. apply in_or_app. left. exact Hin.
    - exists e', ch. split; [rewrite nth_error_app1 by assumption; rewrite Hn, (proj2 (Nat.eqb_neq _ _) N); exact E|exact Hin]. }
  assert (Hnew : nth_error (trees ++ [new]) (length (ps_trees st)) = Some new) by (rewrite <- Hl, nth_error_app2, Nat.sub_diag by lia; reflexivity).
  split; [split|split; [exact Hl|split; [split|]]].
  - cbn [ps_trees]. rewrite Hl. apply (s_length _ _ HS).
  - cbn [ps_trees ps_loaded]. intros r e' g' E' Eg'. destruct (Hold r e' E') as [[-> ->]|[_ E0]]; [|apply (s_tree _ _ HS r e' g' E0 Eg')].
    destruct (s_tree _ _ HS c e g' Ec Eg') as [K1 K2 K3 K4 K5 K6 K7 K8]. split; assumption.
  - apply (s_map _ _ HS).
  - apply (s_unique _ _ HS).
  - apply (s_closed _ _ HS).
  - apply (s_loaded _ _ HS).
  - intros x Hx. rewrite app_length. cbn [length]. rewrite app_assoc in Hx. apply in_app_or in Hx. destruct Hx as [Hx|[<-|[]]]; [|lia].
    assert (x < length (ps_trees st)) by (apply (d_bound _ _ _ _ HD); rewrite app_assoc; apply in_or_app; left; exact Hx). lia.
  - intros x e' E. rewrite app_assoc, count_app1. apply nth_snoc in E. destruct E as [[Hx E]|[-> ->]].
    + destruct (Nat.eq_dec (length trees) x); [lia|]. rewrite Nat.add_0_r. destruct (Hold x e' E) as [[-> ->]|[N E0]].
      * pose proof (d_used _ _ _ _ HD c e Ec) as K. rewrite app_assoc, count_app1, Hu in K. cbn [T e1 fst t_used]. destruct (Nat.eq_dec c c); [lia|congruence].
      * pose proof (d_used _ _ _ _ HD x e' E0) as K. rewrite app_assoc, count_app1 in K. lia.
    + rewrite count_none; [cbn; destruct (Nat.eq_dec (length trees) (length trees)); lia|]. intros x Hx. rewrite Hl. apply (d_bound _ _ _ _ HD). rewrite app_assoc. apply in_or_app. left. exact Hx.
  - intros r e' E. apply nth_snoc in E. destruct E as [[Hr E]|[-> ->]].
    + assert (K : exists e0, nth_error (ps_trees st) r = Some e0 /\ t_root (T e0) = t_root (T e')) by (destruct (Hold r e' E) as [[-> ->]|[N E0]]; eauto). destruct K as (e0 & E0 & Er).
      destruct (d_refs _ _ _ _ HD r e0 E0) as [(x & Hx)|Hx]; [left; exists x; apply Hdep, Hx|right; rewrite <- Er; exact Hx].
    + left. exists c. exists e1, (pj_choice p). split; [rewrite nth_error_app1 by lia; exact Hc1|]. cbn. apply in_or_app. right. left. rewrite Hl. reflexivity.
  - intros x e' E Hu'. apply nth_snoc in E. destruct E as [[Hx E]|[-> ->]]; [|discriminate]. destruct (Hold x e' E) as [[-> ->]|[N E0]]; [cbn; intros K; apply app_eq_nil in K; destruct K; discriminate|].
    apply (d_zero _ _ _ _ HD x e' E0 Hu').
  - intros x e' g' E Eg' Hd. apply nth_snoc in E. destruct E as [[Hx E]|[-> ->]]; [|cbn in Hd; congruence]. rewrite nth_error_app1 in Eg' by (rewrite (s_length _ _ HS); lia).
    destruct (Hold x e' E) as [[-> ->]|[N E0]]; [|apply (d_deps _ _ _ _ HD x e' g' E0 Eg' Hd)]. rewrite Eg in Eg'. injection Eg' as <-. auto.
  - intros x e' r ch E Hin. apply nth_snoc in E. destruct E as [[Hx E]|[-> ->]]; [|destruct Hin].
    assert (K : (x < r /\ exists e2 p, nth_error (ps_trees st) r = Some e2 /\ t_root (T e2) = RProject p (TComputed x) /\ ch = pj_choice p /\ t_required (T e2) = false) \/ (x = c /\ r = length (ps_trees st) /\ ch = pj_choice p)).
    { destruct (Hold x e' E) as [[-> ->]|[N E0]]; [|left; apply (d_dep _ _ _ _ HD x e' r ch E0 Hin)]. cbn in Hin. apply in_app_or in Hin. destruct Hin as [Hin|[K|[]]]; [left; apply (d_dep _ _ _ _ HD c e r ch Ec Hin)|].
      injection K as <- <-. right. auto. }
    destruct K as [(Hlt & e2 & p2 & E2 & K2 & K3 & K4)|(-> & -> & ->)].
    + split; [exact Hlt|]. assert (r < length trees) by (rewrite Hl; apply nth_error_Some; congruence). destruct (Nat.eq_dec r c) as [->|N].
      * rewrite Ec in E2. injection E2 as <-. exists e1, p2. split; [rewrite nth_error_app1 by assumption; exact Hc1|]. auto.
      * exists e2, p2. split; [rewrite nth_error_app1 by assumption; rewrite Hn, (proj2 (Nat.eqb_neq _ _) N); exact E2|]. auto.
    + split; [exact Hclt|]. exists new, p. split; [exact Hnew|]. cbn. auto.
  - intros c' e' E'. rewrite Hn. destruct (Nat.eqb_spec c' c) as [->|N].
    + rewrite Ec in E'. injection E' as <-. exists e1. split; [reflexivity|apply incl_refl].
    + exists e'. split; [exact E'|apply incl_refl].
Qed.
End Build.
