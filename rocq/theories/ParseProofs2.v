(** Proofs for the parser: leaves and functions, heads of texts, chains. *)
From Coq Require Import List Arith Bool Ascii Lia.
From Verif Require Import ParseModel ParseSpec ParseProofs1.
Import ListNotations.
Local Open Scope char_scope.

(** ** What follows *)
Lemma blank_head w : blank w -> w = [] \/ starts (fun c => is_space c = true \/ c = "%" \/ c = "/") w.
Proof. intros [|c w' Hc Hw|c w' nl Hc Hn Hw|c w' Hc Hw]; auto; right; cbn; auto. Qed.
Lemma gap_head w : gap true w -> w = [] \/ starts (fun c => is_space c = true \/ c = "/") w.
Proof. intros (H & Hp). destruct (blank_head w H) as [->|Hs]; auto. right. destruct w as [|c w]; [destruct Hs|]. cbn in *. specialize (Hp eq_refl). tauto. Qed.
Lemma space_separated c r : is_space c = true \/ c = "/" -> separated (c :: r).
Proof.
  intros H. cbn. assert (A : is_name_rest c = false) by (destruct (is_name_rest c) eqn:E; auto; apply rest_not_open in E; intuition congruence).
  repeat split; auto; [|intros ->; destruct H as [H|H]; discriminate]. intros Hi. destruct H as [H| ->]; [|repeat destruct Hi as [Hi|Hi]; try discriminate; destruct Hi]. repeat destruct Hi as [<-|Hi]; try discriminate. destruct Hi.
Qed.
Lemma gap_separated w s : gap true w -> separated s -> separated (w ++ s).
Proof. intros H Hs. destruct (gap_head w H) as [->|Hh]; auto. destruct w as [|c w]; [destruct Hh|]. now apply space_separated. Qed.
Lemma ends_no_space r : ends r -> no_space r.
Proof. destruct r as [|c r]; cbn; auto. intros (A & B). repeat split; auto; intros ->; exfalso; apply B; tauto. Qed.
Lemma follows_gap w s : gap true w -> separated s -> ends s -> follows (w ++ s).
Proof. intros H Hs He. split; [now apply gap_separated|]. exists w, s. destruct H. auto. Qed.
Lemma close_separated r : separated (")" :: r).
Proof. cbn. repeat split; [|discriminate]. intuition discriminate. Qed.
Lemma comma_separated r : separated ("," :: r).
Proof. cbn. repeat split; [|discriminate]. intuition discriminate. Qed.
Lemma close_ends r : ends (")" :: r).
Proof. cbn. split; auto. intuition discriminate. Qed.
Lemma comma_ends r : ends ("," :: r).
Proof. cbn. split; auto. intuition discriminate. Qed.
Lemma op_separated o r : separated (op_text o :: r).
Proof. destruct o; cbn; repeat split; try discriminate; intuition discriminate. Qed.
Lemma wsoc_gap w c r : gap true w -> no_space (c :: r) -> wsoc (w ++ c :: r) = Ok tt (c :: r).
Proof. intros (H & _) Hn. now apply wsoc_ok. Qed.
Lemma no_space_close r : no_space (")" :: r).
Proof. apply ends_no_space, close_ends. Qed.
Lemma no_space_comma r : no_space ("," :: r).
Proof. apply ends_no_space, comma_ends. Qed.

Section Parser.
Variable ops : list text.
Hypothesis Hops : function_names ops.

(** ** Known functions *)
Lemma tag_no_case_inv s : forall i x r, tag_no_case s i = Ok x r -> exists c, i = c ++ r /\ map lower c = s.
Proof.
  induction s as [|c s IH]; intros i x r; cbn [tag_no_case].
  - intros E. assert (i = r) by (destruct i; injection E; auto). subst. exists []. auto.
  - destruct i as [|d i]; [discriminate|]. destruct (Ascii.eqb_spec c (lower d)) as [->|]; [|discriminate]. intros E. destruct (IH _ _ _ E) as (e & -> & <-). exists (d :: e). auto.
Qed.
Lemma tag_no_case_ok s : forall c r, map lower c = s -> tag_no_case s (c ++ r) = Ok tt r.
Proof.
  induction s as [|d s IH]; intros [|c t] r E; try discriminate; [destruct r; reflexivity|]. cbn [map] in E. injection E as <- E. cbn [app tag_no_case]. rewrite Ascii.eqb_refl. now apply IH.
Qed.
Lemma tag_no_case_res s i : tag_no_case s i = Err \/ exists r, tag_no_case s i = Ok tt r.
Proof.
  revert i. induction s as [|c s IH]; intros i; cbn [tag_no_case]; [destruct i; eauto|]. destruct i as [|d i]; auto. destruct (c =? lower d); auto.
Qed.
Lemma operation_tag_inv l i k r : operation_tag l i = Ok k r -> In k l /\ exists c, i = c ++ r /\ map lower c = k.
Proof.
  induction l as [|s l IH]; cbn [operation_tag]; [discriminate|]. destruct (tag_no_case s i) eqn:E; intros H; try (destruct (IH H); split; [right; auto|auto]).
  injection H as <- <-. split; [left; auto|]. eapply tag_no_case_inv; eauto.
Qed.
Lemma operation_tag_res l i : operation_tag l i = Err \/ exists k r, operation_tag l i = Ok k r.
Proof. induction l as [|s l IH]; cbn [operation_tag]; auto. destruct (tag_no_case s i); eauto. Qed.
Lemma ops_chars k c : In k ops -> map lower c = k -> c <> [] /\ all_chars is_name_rest c /\ starts (fun d => is_name_rest d = true /\ d <> "%") c.
Proof.
  intros Hk E. destruct (proj1 Hops k Hk) as (Hn & Ha).
  assert (G : forall d, In d c -> is_name_rest d = true /\ d <> "%").
  { intros d Hd. assert (Hl : In (lower d) k) by (rewrite <- E; now apply in_map). specialize (Ha _ Hl). cbn beta in Ha. apply andb_prop in Ha. destruct Ha as [Ha _]. split.
    - apply lower_rest. unfold is_name_rest. now rewrite Ha.
    - intros ->. discriminate. }
  repeat split; [intros ->; apply Hn; now rewrite <- E|intros d Hd; now apply G|]. destruct c as [|d c]; [exfalso; apply Hn; now rewrite <- E|]. cbn. apply G. left. reflexivity.
Qed.
Lemma operation_err p i : (forall k c r, In k ops -> map lower c = k -> i <> c ++ "(" :: r) -> parse_operation ops p i = Err.
Proof.
  intros H. unfold parse_operation. destruct (operation_tag_res ops i) as [->|(k & r & E)]; [reflexivity|]. rewrite E. cbn [bind]. apply operation_tag_inv in E. destruct E as (Hk & c & -> & El).
  unfold enclosed. rewrite chr_err; [reflexivity|]. destruct r as [|d r]; cbn; auto. intros ->. exact (H k c r Hk El eq_refl).
Qed.
Lemma split_separated t r c s : t ++ r = c ++ "(" :: s -> all_chars is_name_rest c -> separated r -> exists d, t = c ++ "(" :: d.
Proof.
  revert c. induction t as [|x t IH]; intros c E Hc Hr.
  - exfalso. cbn in E. subst r. destruct c as [|y c]; cbn [app] in Hr; apply separated_not in Hr; destruct Hr as (A & B & _); [congruence|]. rewrite (Hc y) in A by (left; auto). discriminate.
  - destruct c as [|y c]; cbn in E; injection E as <- E; [exists t; auto|]. destruct (IH c E) as (d & ->); auto; [intros z Hz; apply Hc; right; auto|exists d; auto].
Qed.
Lemma name_chars n : name_text n -> all_chars is_name_rest n.
Proof. intros (c & s & -> & Hc & Hs) d [<-|Hd]; auto. now apply alpha_rest. Qed.
Lemma digits_no_open d : digits_text d -> ~ In "(" d.
Proof. intros (_ & H) Hi. specialize (H _ Hi). discriminate. Qed.
Lemma sign_no_open s : ~ In "(" (sign_text s).
Proof. destruct s as [[]|]; cbn; intuition discriminate. Qed.
Lemma leaf_no_open l t : leaf_text true l t -> starts (fun c => is_name_rest c = false) t \/ ~ In "(" t.
Proof.
  intros [k n Hn| | | |l' t' [n Hn|p n Hp Hn|s Hs Hi] _|n t' [s d f ft e et m mt Hd Hf He Hm]].
  - left. destruct k; reflexivity.
  - right. cbn. intuition discriminate.
  - right. cbn. intuition discriminate.
  - right. cbn. intuition discriminate.
  - right. intros H. apply name_chars in Hn. specialize (Hn _ H). discriminate.
  - right. rewrite in_app_iff. intros [H|[H|H]]; [|discriminate|]; [destruct Hp as [-> | Hp]; [destruct H|]; apply name_chars in Hp; specialize (Hp _ H); discriminate|apply name_chars in Hn; specialize (Hn _ H); discriminate].
  - left. reflexivity.
  - right. rewrite !in_app_iff. intros [H|[H|[H|[H|H]]]].
    + now apply sign_no_open in H.
    + now apply digits_no_open in H.
    + destruct f as [x|]; [|subst; destruct H]. destruct Hf as (Hx & ->). destruct H as [H|H]; [discriminate|]. now apply digits_no_open in H.
    + destruct e as [[s' x]|]; [|subst; destruct H]. destruct He as (Hx & c & Hc & ->). destruct H as [H|H]; [destruct Hc; subst; discriminate|]. apply in_app_iff in H. destruct H as [H|H]; [now apply sign_no_open in H|now apply digits_no_open in H].
    + destruct m as [[]|]; subst mt; cbn in H; intuition discriminate.
Qed.
Lemma leaf_operation_err p l t r : leaf_text true l t -> separated r -> parse_operation ops p (t ++ r) = Err.
Proof.
  intros Hl Hr. apply operation_err. intros k c s Hk E Ei. destruct (ops_chars k c Hk E) as (Hn & Hc & _). destruct (split_separated _ _ _ _ Ei Hc Hr) as (d & ->).
  destruct (leaf_no_open _ _ Hl) as [Hs|Hs]; [|apply Hs; apply in_app_iff; right; left; reflexivity]. destruct c as [|x c]; [congruence|]. cbn in Hs. rewrite (Hc x) in Hs by (left; auto). discriminate.
Qed.
Lemma leaf_head l t : leaf_text true l t -> starts (fun c => is_name_rest c = true /\ c <> "%" \/ In c ["?"; "!"; "$"; ":"; "<"; "+"; "-"]) t.
Proof.
  assert (N : forall n r, name_text n -> starts (fun c => is_name_rest c = true /\ c <> "%" \/ In c ["?"; "!"; "$"; ":"; "<"; "+"; "-"]) (n ++ r)).
  { intros n r (c & s & -> & Hc & _). cbn. left. split; [now apply alpha_rest|]. intros ->. discriminate. }
  intros [k n Hn| | | |l' t' [n Hn|p n Hp Hn|s Hs Hi] _|n t' Hn].
  - destruct k; cbn; tauto.
  - cbn. left. split; [reflexivity|discriminate].
  - cbn. left. split; [reflexivity|discriminate].
  - cbn. left. split; [reflexivity|discriminate].
  - specialize (N n [] Hn). now rewrite app_nil_r in N.
  - destruct Hp as [-> | Hp]; [cbn; tauto|]. now apply N.
  - cbn. tauto.
  - pose proof (number_head n t' Hn []) as H. rewrite app_nil_r in H. destruct t' as [|c t']; [destruct H|]. cbn in *. destruct H as [H|[<-|<-]]; [|tauto|tauto]. left. split; [now apply digit_rest|]. intros ->. discriminate.
Qed.
Lemma enclosed_err {A} (q : parser A) r : ~ starts (fun c => c = "(") r -> enclosed q r = Err.
Proof. intros H. unfold enclosed. now rewrite chr_err. Qed.
Lemma leaf_complex_err p l t r : leaf_text true l t -> separated r -> parse_complex ops p (t ++ r) = Err.
Proof.
  intros Hl Hr. unfold parse_complex, alt. rewrite (leaf_operation_err p l t r Hl Hr).
  assert (Ro : ~ starts (fun c => c = "(") r) by (destruct r as [|c r]; cbn; auto; intros ->; apply separated_not in Hr; tauto).
  assert (Ha : parse_atom p (t ++ r) = Err).
  { unfold parse_atom. assert (K : structure_tag (t ++ r) = Err \/ exists k, structure_tag (t ++ r) = Ok k r).
    { destruct Hl as [k n Hn| | | |l' t' Ht _|n t' Hn].
      - left. apply structure_err. destruct k; cbn; intuition discriminate.
      - left. apply structure_err. cbn. intuition discriminate.
      - right. eexists. apply (structure_ok (LName true_text)); auto. constructor. exists "t", ["r"; "u"; "e"]. repeat split. intros c Hc. repeat (destruct Hc as [<-|Hc]; [reflexivity|]). destruct Hc.
      - right. eexists. apply (structure_ok (LName false_text)); auto. constructor. exists "f", ["a"; "l"; "s"; "e"]. repeat split. intros c Hc. repeat (destruct Hc as [<-|Hc]; [reflexivity|]). destruct Hc.
      - right. eexists. apply (structure_ok l'); auto.
      - left. apply structure_err. pose proof (number_head n t' Hn r) as H. destruct (t' ++ r) as [|c y]; auto. cbn in *. destruct H as [H|[-> | ->]]; [|intuition discriminate|intuition discriminate]. apply digit_not in H. intuition congruence. }
    destruct K as [->|(k & ->)]; [reflexivity|]. cbn [bind]. now rewrite enclosed_err. }
  rewrite Ha. unfold parse_tuple, pmap. rewrite enclosed_err; [reflexivity|]. pose proof (leaf_head l t Hl) as H. destruct t as [|c t]; [destruct H|]. cbn in *. intros ->. destruct H as [[H _]|H]; [discriminate|]. intuition discriminate.
Qed.
Lemma leaf_ok p l t r : leaf_text true l t -> separated r -> non_arithmetic ops p (t ++ r) = Ok (ELeaf l) r.
Proof. intros Hl Hr. unfold non_arithmetic, alt. rewrite (leaf_complex_err p l t r Hl Hr). now apply basic_ok. Qed.

Lemma operation_tag_ok k t r : In k ops -> map lower t = k -> operation_tag ops (t ++ "(" :: r) = Ok k ("(" :: r).
Proof.
  intros Hk E. destruct (ops_chars k t Hk E) as (Hn & Hc & _).
  assert (G : forall l0 l, ops = l0 ++ l -> In k l -> operation_tag l (t ++ "(" :: r) = Ok k ("(" :: r)).
  { intros l0 l. revert l0. induction l as [|s l IH]; intros l0 El Hi; [destruct Hi|]. cbn [operation_tag]. destruct (tag_no_case s (t ++ "(" :: r)) as [x r'| | |] eqn:Es.
    - destruct (tag_no_case_inv _ _ _ _ Es) as (c & E1 & E2). assert (Hs : In s ops) by (rewrite El; apply in_app_iff; right; left; auto). destruct (ops_chars s c Hs E2) as (_ & Hcc & _).
      assert (K : exists d, t = c ++ d /\ r' = d ++ "(" :: r).
      { clear -E1 Hcc. revert c E1 Hcc. induction t as [|x t IH]; intros c E1 Hcc.
        - destruct c as [|y c]; [exists []; auto|]. cbn in E1. injection E1 as <- _. specialize (Hcc "(" (or_introl eq_refl)). discriminate.
        - destruct c as [|y c]; [exists (x :: t); split; auto|]. cbn in E1. injection E1 as <- E1. destruct (IH c E1) as (d & -> & ->); [intros z Hz; apply Hcc; right; auto|]. exists d. auto. }
      destruct K as (d & -> & ->). destruct Hi as [<-|Hi].
      + rewrite <- E2, map_app in E. assert (length (map lower d) = 0) by (apply (f_equal (@length ascii)) in E; rewrite app_length in E; lia). destruct d; [reflexivity|discriminate].
      + exfalso. apply in_split in Hi. destruct Hi as (l1 & l2 & ->). apply (proj2 Hops l0 s l1 k l2 El). exists (map lower d). now rewrite <- E, map_app, E2.
    - destruct Hi as [<-|Hi]; [rewrite tag_no_case_ok in Es by auto; discriminate|]. apply (IH (l0 ++ [s])); auto. now rewrite <- app_assoc.
    - destruct Hi as [<-|Hi]; [rewrite tag_no_case_ok in Es by auto; discriminate|]. apply (IH (l0 ++ [s])); auto. now rewrite <- app_assoc.
    - destruct Hi as [<-|Hi]; [rewrite tag_no_case_ok in Es by auto; discriminate|]. apply (IH (l0 ++ [s])); auto. now rewrite <- app_assoc. }
  apply (G []); auto.
Qed.
Lemma call_operation_err p l t r : tag_text l t -> ~ In (map lower t) ops -> parse_operation ops p (t ++ "(" :: r) = Err.
Proof.
  intros Ht Hn. apply operation_err. intros k c s Hk E Ei. destruct (ops_chars k c Hk E) as (Hc0 & Hc & _).
  assert (K : starts (fun x => x = "<") t \/ ~ In "(" t).
  { destruct Ht as [n Hnn|q n Hp Hnn|u Hs Hi]; [right|right|left; reflexivity].
    - intros H. apply name_chars in Hnn. specialize (Hnn _ H). discriminate.
    - rewrite in_app_iff. intros [H|[H|H]]; [|discriminate|]; [destruct Hp as [-> | Hp]; [destruct H|]; apply name_chars in Hp; specialize (Hp _ H); discriminate|apply name_chars in Hnn; specialize (Hnn _ H); discriminate]. }
  destruct K as [K|K].
  - destruct t as [|x t]; [destruct K|]. cbn in K. subst x. destruct c as [|y c]; [congruence|]. cbn in Ei. injection Ei as <- _. specialize (Hc "<" (or_introl eq_refl)). discriminate.
  - assert (t = c).
    { clear -Ei Hc K. revert c Ei Hc. induction t as [|x t IH]; intros c Ei Hc.
      - destruct c as [|y c]; auto. cbn in Ei. injection Ei as <- _. specialize (Hc "(" (or_introl eq_refl)). discriminate.
      - destruct c as [|y c]; cbn in Ei; injection Ei as Ex Ei; [exfalso; apply K; left; auto|]. subst y. f_equal. apply IH; auto; [intros H; apply K; right; auto|intros z Hz; apply Hc; right; auto]. }
    subst c. apply Hn. now rewrite E.
Qed.

(** ** The first character of an expression *)
Definition head_ok (c : ascii) : Prop := is_space c = false /\ ~ In c ["%"; "/"; "*"; ")"; ","; "="].
Lemma rest_head c : is_name_rest c = true -> c <> "%" -> head_ok c.
Proof. intros H Hp. assert (He : c <> "=") by (intros ->; discriminate). apply rest_not_open in H. split; [tauto|]. intros Hi. repeat destruct Hi as [<-|Hi]; try congruence; try (intuition congruence). Qed.
Lemma starts_app P a b : starts P a -> starts P (a ++ b).
Proof. destruct a; cbn; tauto. Qed.
Lemma leaf_head_ok l t : leaf_text true l t -> starts head_ok t.
Proof.
  intros H. apply leaf_head in H. destruct t as [|c t]; [destruct H|]. cbn in *. destruct H as [[H1 H2]|H]; [now apply rest_head|]. split; [|intros Hi]; repeat destruct H as [<-|H]; try reflexivity; try (repeat destruct Hi as [Hi|Hi]; try discriminate; destruct Hi); destruct H.
Qed.
Lemma tag_head l t : tag_text l t -> starts head_ok t.
Proof.
  assert (N : forall n r, name_text n -> starts head_ok (n ++ r)).
  { intros n r (c & s & -> & Hc & _). cbn. apply rest_head; [now apply alpha_rest|]. intros ->. discriminate. }
  intros [n Hn|p n Hp Hn|s Hs Hi].
  - specialize (N n [] Hn). now rewrite app_nil_r in N.
  - destruct Hp as [-> | Hp]; [cbn; split; [reflexivity|cbn; intuition discriminate]|]. now apply N.
  - cbn. split; [reflexivity|cbn; intuition discriminate].
Qed.
Lemma open_head : head_ok "(".
Proof. split; [reflexivity|cbn; intuition discriminate]. Qed.
Lemma writes_head lv e t : writes ops true lv e t -> starts head_ok t.
Proof.
  induction 1; auto; try exact open_head; try (now apply starts_app).
  - eapply leaf_head_ok; eauto.
  - apply starts_app. destruct (ops_chars _ _ H H0) as (_ & _ & Hs). destruct t as [|c t]; [destruct Hs|]. cbn in *. now apply rest_head.
  - apply starts_app. eapply tag_head; eauto.
Qed.
Lemma head_no_space t r : starts head_ok t -> no_space (t ++ r).
Proof. destruct t as [|c t]; [intros []|]. cbn. intros (A & B). repeat split; auto; intros ->; exfalso; apply B; cbn; tauto. Qed.
Lemma writes_no_space lv e t r : writes ops true lv e t -> no_space (t ++ r).
Proof. intros H. eapply head_no_space, writes_head; eauto. Qed.
Lemma writes_no_star lv e t w r : writes ops true lv e t -> blank w -> ~ starts (fun c => c = "*") (w ++ t ++ r).
Proof.
  intros H Hw. destruct (blank_head w Hw) as [->|Hs].
  - apply writes_head in H. destruct t as [|c t]; [destruct H|]. cbn in *. intros ->. destruct H as (_ & H). apply H. cbn. tauto.
  - destruct w as [|c w]; [destruct Hs|]. cbn in *. intros ->. destruct Hs as [H1|[H1|H1]]; discriminate.
Qed.
Lemma op_no_space o lv e t w r : writes ops true lv e t -> blank w -> no_space (op_text o :: w ++ t ++ r).
Proof.
  intros H Hw. pose proof (writes_no_star lv e t w r H Hw) as Hs. destruct o; cbn; repeat split; try discriminate; auto.
Qed.

(** ** Chains *)
Inductive pieces (lv : level) (add : bool) : list (arith_op * term) -> text -> Prop :=
| p_nil : pieces lv add [] []
| p_cons o e w w' t l u : additive_op o = add -> gap true w -> blank w' -> writes ops true lv e t -> pieces lv add l u ->
    pieces lv add ((o, e) :: l) (w ++ op_text o :: w' ++ t ++ u).
Definition fold_terms (e : term) (l : list (arith_op * term)) : term := fold_left (fun acc x => TBin (fst x) acc (snd x)) l e.
Lemma pieces_snoc lv add l u : pieces lv add l u -> forall o e w w' t, additive_op o = add -> gap true w -> blank w' -> writes ops true lv e t ->
  pieces lv add (l ++ [(o, e)]) (u ++ w ++ op_text o :: w' ++ t).
Proof.
  induction 1 as [|o0 e0 v v' s l u Ho Hv Hv' Hs Hp IH]; intros o e w w' t Ho' Hw Hw' Ht.
  - cbn [app]. rewrite <- (app_nil_r t). constructor; auto. constructor.
  - cbn [app]. replace ((v ++ op_text o0 :: v' ++ s ++ u) ++ w ++ op_text o :: w' ++ t) with (v ++ op_text o0 :: v' ++ s ++ (u ++ w ++ op_text o :: w' ++ t)) by (rewrite <- !app_assoc; cbn; now rewrite <- !app_assoc). constructor; auto.
Qed.
Lemma fold_terms_snoc e l x : fold_terms e (l ++ [x]) = TBin (fst x) (fold_terms e l) (snd x).
Proof. unfold fold_terms. now rewrite fold_left_app. Qed.
Lemma product_chain e t : writes ops true Product e t -> exists e0 t0 l u, writes ops true Factor e0 t0 /\ pieces Factor false l u /\ t = t0 ++ u /\ e = fold_terms e0 l.
Proof.
  intros H. remember Product as lv eqn:El. revert El. induction H; intros El; try discriminate.
  - exists e, t, [], []. repeat split; auto; [constructor|now rewrite app_nil_r].
  - destruct (IHwrites1 eq_refl) as (e0 & t0 & l & u & A & B & -> & ->). exists e0, t0, (l ++ [(o, b)]), (u ++ w ++ op_text o :: w' ++ t). repeat split; auto.
    + now apply pieces_snoc.
    + now rewrite <- app_assoc.
    + now rewrite fold_terms_snoc.
Qed.
Lemma sum_chain e t : writes ops true Sum e t -> exists e0 t0 l u, writes ops true Product e0 t0 /\ pieces Product true l u /\ t = t0 ++ u /\ e = fold_terms e0 l.
Proof.
  intros H. remember Sum as lv eqn:El. revert El. induction H; intros El; try discriminate.
  - exists e, t, [], []. repeat split; auto; [constructor|now rewrite app_nil_r].
  - destruct (IHwrites1 eq_refl) as (e0 & t0 & l & u & A & B & -> & ->). exists e0, t0, (l ++ [(o, b)]), (u ++ w ++ op_text o :: w' ++ t). repeat split; auto.
    + now apply pieces_snoc.
    + now rewrite <- app_assoc.
    + now rewrite fold_terms_snoc.
Qed.
(** the first factor *)
Lemma pieces_head lv add l u s : pieces lv add l u -> u = [] /\ l = [] \/ exists w o x, u ++ s = w ++ op_text o :: x /\ gap true w /\ no_space (op_text o :: x) /\ l <> [] /\ additive_op o = add.
Proof.
  intros [|o e w w' t l' u' Ho Hw Hw' Ht Hp]; auto. right. exists w, o, (w' ++ t ++ u' ++ s). split; [rewrite <- app_assoc; cbn; now rewrite <- !app_assoc|]. split; auto. split; [eapply op_no_space; eauto|]. split; [discriminate|auto].
Qed.
Lemma pieces_nil lv add l : pieces lv add l [] -> l = [].
Proof. intros H. remember [] as u eqn:E. destruct H; auto. destruct w; discriminate. Qed.
Lemma leftmost e t : writes ops true Sum e t -> forall s, exists e0 t0 v, writes ops true Factor e0 t0 /\ t = t0 ++ v /\
  (v = [] /\ e = e0 \/ exists w o x, v ++ s = w ++ op_text o :: x /\ gap true w /\ no_space (op_text o :: x)).
Proof.
  intros H s. apply sum_chain in H. destruct H as (e1 & t1 & l & u & H1 & Hu & -> & ->). apply product_chain in H1. destruct H1 as (e0 & t0 & l' & u' & H0 & Hu' & -> & ->).
  exists e0, t0, (u' ++ u). split; auto. split; [now rewrite app_assoc|]. rewrite <- app_assoc. destruct (pieces_head _ _ _ _ (u ++ s) Hu') as [(-> & ->)|(w & o & x & E & A & B & _)]; [|right; exists w, o, x; auto].
  cbn [app]. destruct (pieces_head _ _ _ _ s Hu) as [(-> & ->)|(w & o & x & E & A & B & _)]; [left; auto|right; exists w, o, x; auto].
Qed.
End Parser.
