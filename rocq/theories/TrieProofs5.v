(* The intervals of a column. *)
From Coq Require Import List ZArith Bool Lia Arith Permutation Sorted.
From Verif Require Import ColumnModel ScanModel TrieModel TrieSpec TrieProofs1 TrieProofs2 TrieProofs3 TrieProofs4.
Import ListNotations.
Local Open Scope nat_scope.

(* the values of one type *)
Definition tvals (s : stype) (vs : list value) : list Z := map snd (filter (fun v => stype_eqb (fst v) s) vs).
Lemma tvals_app : forall s vs ws, tvals s (vs ++ ws) = tvals s vs ++ tvals s ws.
Proof. intros. unfold tvals. rewrite filter_app, map_app. reflexivity. Qed.

Lemma opened_at : forall vs b s, opened b vs s =
  mk_ibuilder (ib_data (b s) ++ tvals s (rev vs)) (ib_intervals (b s)) (ib_lookup (b s)) (ib_last (b s)).
Proof.
  induction vs as [|v vs IH]; intros b s.
  - cbn. rewrite app_nil_r. destruct (b s); reflexivity.
  - change (opened b (v :: vs) s) with (add_valueT v (opened b vs) s). unfold add_valueT, upd. cbn [rev]. rewrite tvals_app, app_assoc.
    destruct (stype_eqb_spec s (fst v)) as [->|Hne].
    + unfold add_data. rewrite IH. cbn [ib_data ib_intervals ib_lookup ib_last]. unfold tvals at 3. cbn [filter]. rewrite stype_eqb_refl. reflexivity.
    + rewrite IH. unfold tvals at 3. cbn [filter]. destruct (stype_eqb_spec (fst v) s); [congruence|]. cbn [map]. rewrite app_nil_r. reflexivity.
Qed.

(* groups seen from one type *)
Definition part : Type := (stype * list Z)%type.
Definition parts (s : stype) (E : list group) : list part := map (fun g : group => (ptype (fst g), tvals s (rev (snd g)))) (rev E).
Definition cnt (t : stype) (gs : list part) : nat := length (filter (fun g : part => stype_eqb (fst g) t) gs).
Definition ds (gs : list part) : list Z := concat (map snd gs).

Lemma cnt_app : forall t gs hs, cnt t (gs ++ hs) = cnt t gs + cnt t hs.
Proof. intros. unfold cnt. rewrite filter_app, app_length. reflexivity. Qed.
Lemma cnt_one : forall t s d, cnt t [(s, d)] = if stype_eqb s t then 1 else 0.
Proof. intros. unfold cnt. cbn. destruct (stype_eqb s t); reflexivity. Qed.
Lemma ds_app : forall gs hs, ds (gs ++ hs) = ds gs ++ ds hs.
Proof. intros. unfold ds. rewrite map_app, concat_app. reflexivity. Qed.

Record cinv (gs : list part) (b : ibuilder) : Prop := {
  ci_data : ib_data b = ds gs;
  ci_last : ib_last b = length (ib_data b);
  ci_len : forall t, length (il_lookup (ib_lookup b t)) = cnt t gs;
  ci_simple : forall t i, il_simple (ib_lookup b t) = true -> i < cnt t gs -> nth_error (il_lookup (ib_lookup b t)) i = Some (Some i);
  ci_entry : forall g1 t d g2, gs = g1 ++ (t, d) :: g2 ->
    exists o, nth_error (il_lookup (ib_lookup b t)) (cnt t g1) = Some o /\
      match d with
      | [] => o = None
      | _ => exists q, o = Some q /\ nth_error (ib_intervals b) q = Some (length (ds g1)) /\
             nth_error (ib_intervals b ++ [length (ib_data b)]) (S q) = Some (length (ds g1) + length d)
      end }.

Lemma cinv_new : cinv [] ibuilder_new.
Proof.
  constructor; try reflexivity.
  - intros t i _ H. cbn in H. lia.
  - intros [|] t d g2 H; discriminate.
Qed.

Definition grow (d : list Z) (b : ibuilder) : ibuilder := mk_ibuilder (ib_data b ++ d) (ib_intervals b) (ib_lookup b) (ib_last b).

Lemma snoc_split : forall A (gs : list A) x g1 y g2, gs ++ [x] = g1 ++ y :: g2 ->
  (g2 = [] /\ g1 = gs /\ x = y) \/ exists g2', g2 = g2' ++ [x] /\ gs = g1 ++ y :: g2'.
Proof.
  intros A gs x g1 y g2 H. destruct (exists_last (l := y :: g2)) as (l & z & E); [discriminate|]. rewrite E, app_assoc in H.
  apply app_inj_tail in H. destruct H as [-> ->]. destruct l as [|w l].
  - injection E as -> ->. left. rewrite app_nil_r. auto.
  - injection E as -> ->. right. exists l. auto.
Qed.

Lemma cinv_step : forall gs b t d, cinv gs b -> cinv (gs ++ [(t, d)]) (finish_interval t (grow d b)).
Proof.
  intros gs b t d C. unfold finish_interval, grow. cbn [ib_last ib_data ib_intervals ib_lookup]. rewrite app_length.
  rewrite (ci_last _ _ C). set (len := length (ib_data b)).
  assert (Hlen : len = length (ds gs)) by (unfold len; rewrite (ci_data _ _ C); reflexivity).
  assert (Hd : ds (gs ++ [(t, d)]) = ib_data b ++ d) by (rewrite ds_app, (ci_data _ _ C); unfold ds at 2; cbn; rewrite app_nil_r; reflexivity).
  destruct d as [|z d].
  - (* nothing of this type *)
    rewrite Nat.add_0_r, Nat.ltb_irrefl, app_nil_r in *. constructor; cbn [ib_data ib_intervals ib_lookup ib_last].
    + symmetry. exact Hd.
    + reflexivity.
    + intros s. rewrite cnt_app, cnt_one. destruct (stype_eqb_spec t s) as [->|Hne].
      * rewrite upd_same. cbn [add_empty il_lookup]. rewrite app_length, (ci_len _ _ C). reflexivity.
      * rewrite upd_other by congruence. rewrite (ci_len _ _ C). lia.
    + intros s i Hs Hi. destruct (stype_eq_dec s t) as [->|Hne]; [rewrite upd_same in Hs; discriminate|].
      rewrite upd_other in Hs |- * by exact Hne. rewrite cnt_app, cnt_one in Hi. destruct (stype_eqb_spec t s); [congruence|].
      apply (ci_simple _ _ C); [exact Hs|lia].
    + intros g1 s e g2 H. apply snoc_split in H. destruct H as [(-> & -> & E)|(g2' & -> & ->)].
      * injection E as <- <-. rewrite upd_same. cbn [add_empty il_lookup]. exists None. split; [|reflexivity].
        rewrite <- (ci_len _ _ C). rewrite nth_error_app2, Nat.sub_diag by lia. reflexivity.
      * destruct (ci_entry _ _ C g1 s e g2' eq_refl) as (o & Eo & Ho). exists o. split; [|fold len in Ho; exact Ho].
        destruct (stype_eq_dec s t) as [->|Hne]; [rewrite upd_same|rewrite upd_other by exact Hne; exact Eo].
        cbn [add_empty il_lookup]. rewrite nth_error_app1; [exact Eo|eapply nth_Some_lt, Eo].
  - assert (Hlt : (len <? len + length (z :: d)) = true) by (apply Nat.ltb_lt; cbn; lia). rewrite Hlt.
    constructor; cbn [ib_data ib_intervals ib_lookup ib_last].
    + symmetry. exact Hd.
    + rewrite app_length. reflexivity.
    + intros s. rewrite cnt_app, cnt_one. destruct (stype_eqb_spec t s) as [->|Hne].
      * rewrite upd_same. cbn [add_interval il_lookup]. rewrite app_length, (ci_len _ _ C). reflexivity.
      * rewrite upd_other by congruence. rewrite (ci_len _ _ C). lia.
    + intros s i Hs Hi. destruct (stype_eq_dec s t) as [->|Hne].
      * rewrite upd_same in Hs |- *. cbn [add_interval il_lookup il_simple] in Hs |- *. rewrite cnt_app, cnt_one, stype_eqb_refl in Hi.
        rewrite (ci_len _ _ C) in Hs. set (c := cnt t gs) in *. set (q := length (ib_intervals b)) in *.
        destruct (Nat.eqb_spec c q) as [Ec|Nc].
        -- destruct (Nat.eq_dec i c) as [->|Ni].
           ++ rewrite nth_error_app2 by (rewrite (ci_len _ _ C); fold c; lia). rewrite (ci_len _ _ C). fold c. rewrite Nat.sub_diag. cbn. congruence.
           ++ rewrite nth_error_app1 by (rewrite (ci_len _ _ C); fold c; lia). apply (ci_simple _ _ C); [|fold c; lia].
              destruct (Nat.eqb_spec c 0) as [E0|N0]; [exfalso; lia|]. cbn [andb] in Hs. destruct (il_simple (ib_lookup b t)); [reflexivity|discriminate].
        -- exfalso. cbn [negb] in Hs. rewrite andb_true_r in Hs.
           destruct ((c =? 0) && (q =? 0)) eqn:E0; [|destruct (il_simple (ib_lookup b t)); discriminate]. discriminate.
      * rewrite upd_other in Hs |- * by exact Hne. rewrite cnt_app, cnt_one in Hi. destruct (stype_eqb_spec t s); [congruence|].
        apply (ci_simple _ _ C); [exact Hs|lia].
    + intros g1 s e g2 H. apply snoc_split in H. destruct H as [(-> & -> & E)|(g2' & -> & ->)].
      * injection E as <- <-. rewrite upd_same. cbn [add_interval il_lookup]. exists (Some (length (ib_intervals b))). split.
        -- rewrite <- (ci_len _ _ C). rewrite nth_error_app2, Nat.sub_diag by lia. reflexivity.
        -- exists (length (ib_intervals b)). split; [reflexivity|]. split.
           ++ rewrite nth_error_app2, Nat.sub_diag by lia. cbn. congruence.
           ++ rewrite nth_error_app2 by (rewrite app_length; cbn; lia). rewrite !app_length. fold len.
              replace (S (length (ib_intervals b)) - (length (ib_intervals b) + length [len])) with 0 by (cbn [length]; lia). cbn [nth_error]. f_equal. lia.
      * destruct (ci_entry _ _ C g1 s e g2' eq_refl) as (o & Eo & Ho). exists o. split.
        -- destruct (stype_eq_dec s t) as [->|Hne]; [rewrite upd_same|rewrite upd_other by exact Hne; exact Eo].
           cbn [add_interval il_lookup]. rewrite nth_error_app1; [exact Eo|eapply nth_Some_lt, Eo].
        -- destruct e as [|y e]; [exact Ho|]. destruct Ho as (q & -> & Q1 & Q2). exists q. split; [reflexivity|].
           pose proof (nth_Some_lt _ _ _ _ Q1) as Hq. split; [rewrite nth_error_app1 by exact Hq; exact Q1|].
           rewrite <- Q2. fold len. rewrite nth_error_app1 by (rewrite app_length; cbn; lia). reflexivity.
Qed.

Lemma closed_cons : forall g E s, closed (g :: E) s = finish_interval (ptype (fst g)) (grow (tvals s (rev (snd g))) (closed E s)).
Proof.
  intros g E s. change (closed (g :: E) s) with (finish_interval (ptype (fst g)) (opened (closed E) (snd g) s)). rewrite opened_at. reflexivity.
Qed.
Theorem closed_cinv : forall s E, cinv (parts s E) (closed E s).
Proof.
  intros s. induction E as [|g E IH]; [exact cinv_new|]. rewrite closed_cons. unfold parts. cbn [rev]. rewrite map_app. cbn [map].
  apply cinv_step. exact IH.
Qed.

Theorem bounds_ok : forall gs b g1 t d g2, cinv gs b -> gs = g1 ++ (t, d) :: g2 ->
  interval_bounds (ifinalize b) t (cnt t g1) =
    Ok (match d with [] => None | _ => Some (length (ds g1), length (ds g1) + length d) end).
Proof.
  intros gs b g1 t d g2 C E. destruct (ci_entry _ _ C g1 t d g2 E) as (o & Eo & Ho). unfold interval_bounds, ifinalize, interval_index. cbn [ic_lookup ic_intervals].
  assert (Hi : (if il_simple (ib_lookup b t)
     then bind (index (il_lookup (ib_lookup b t)) (cnt t g1)) (fun o => match o with Some j => if j =? cnt t g1 then Ok (Some (cnt t g1)) else Panicked | None => Panicked end)
     else index (il_lookup (ib_lookup b t)) (cnt t g1)) = Ok o).
  { rewrite (index_some _ _ _ _ Eo). destruct (il_simple (ib_lookup b t)) eqn:Es; [|reflexivity]. cbn [bind].
    assert (Hlt : cnt t g1 < cnt t gs) by (rewrite E, cnt_app; change ((t, d) :: g2) with ([(t, d)] ++ g2); rewrite cnt_app, cnt_one, stype_eqb_refl; lia).
    rewrite (ci_simple _ _ C t _ Es Hlt) in Eo. injection Eo as <-. rewrite Nat.eqb_refl. reflexivity. }
  rewrite Hi. cbn [bind]. destruct d as [|z d]; [rewrite Ho; reflexivity|]. destruct Ho as (q & -> & Q1 & Q2).
  assert (Q1' : nth_error (ib_intervals b ++ [length (ib_data b)]) q = Some (length (ds g1))) by (rewrite nth_error_app1; [exact Q1|eapply nth_Some_lt, Q1]).
  rewrite (index_some _ _ _ _ Q1'). cbn [bind]. rewrite Nat.add_1_r, (index_some _ _ _ _ Q2). reflexivity.
Qed.
