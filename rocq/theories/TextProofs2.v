From Coq Require Import List ZArith Bool Arith Lia.
From Verif Require Import LexModel TextModel TextSpec TextProofs.
Import ListNotations.
Open Scope Z_scope.
Open Scope list_scope.
Ltac Zify.zify_post_hook ::= Z.to_euclidean_division_equations.

Lemma utf8_char_length : forall c, (1 <= length (utf8_char c))%nat.
Proof. intros c. unfold utf8_char. destruct (c <? 128), (c <? 2048), (c <? 65536); cbn; lia. Qed.
Lemma utf8_bytes : forall c, scalar c -> Forall (fun b => 0 <= b < 256) (utf8_char c).
Proof.
  intros c [Hc _]. unfold utf8_char. destruct (Z.ltb_spec c 128), (Z.ltb_spec c 2048), (Z.ltb_spec c 65536); repeat constructor; lia.
Qed.
Lemma from_utf8_char : forall c fuel bs, scalar c -> from_utf8 (S fuel) (utf8_char c ++ bs) = option_map (cons c) (from_utf8 fuel bs).
Proof.
  intros c fuel bs [Hc Hs]. unfold utf8_char. destruct (Z.ltb_spec c 128) as [L1|L1].
  { cbn [app from_utf8]. rewrite (proj2 (Z.ltb_lt c 128)) by lia. reflexivity. }
  destruct (Z.ltb_spec c 2048) as [L2|L2].
  { cbn [app from_utf8]. assert (Hb : 192 <= 192 + c / 64 < 224) by lia. assert (H1 : 128 <= 128 + c mod 64 < 192) by lia. assert (E : (192 + c / 64 - 192) * 64 + (128 + c mod 64 - 128) = c) by lia.
    rewrite E. revert Hb H1. generalize (192 + c / 64), (128 + c mod 64). intros b b1 Hb H1. unfold continuation.
    rewrite (proj2 (Z.ltb_ge b 128)), (proj2 (Z.leb_le 192 b)), (proj2 (Z.ltb_lt b 224)), (proj2 (Z.leb_le 128 b1)), (proj2 (Z.ltb_lt b1 192)), (proj2 (Z.leb_le 128 c)) by lia. reflexivity. }
  destruct (Z.ltb_spec c 65536) as [L3|L3].
  { cbn [app from_utf8]. assert (Hb : 224 <= 224 + c / 4096 < 240) by lia. assert (H1 : 128 <= 128 + c / 64 mod 64 < 192) by lia. assert (H2 : 128 <= 128 + c mod 64 < 192) by lia.
    assert (E : (224 + c / 4096 - 224) * 4096 + (128 + c / 64 mod 64 - 128) * 64 + (128 + c mod 64 - 128) = c) by lia.
    rewrite E. revert Hb H1 H2. generalize (224 + c / 4096), (128 + c / 64 mod 64), (128 + c mod 64). intros b b1 b2 Hb H1 H2. unfold continuation.
    rewrite (proj2 (Z.ltb_ge b 128)), (proj2 (Z.leb_le 192 b)), (proj2 (Z.ltb_ge b 224)), (proj2 (Z.leb_le 224 b)), (proj2 (Z.ltb_lt b 240)), (proj2 (Z.leb_le 128 b1)), (proj2 (Z.ltb_lt b1 192)), (proj2 (Z.leb_le 128 b2)), (proj2 (Z.ltb_lt b2 192)), (proj2 (Z.leb_le 2048 c)) by lia.
    cbn [andb]. replace ((55296 <=? c) && (c <? 57344)) with false; [reflexivity|]. symmetry. apply andb_false_iff. destruct (Z.leb_spec 55296 c), (Z.ltb_spec c 57344); auto. exfalso. apply Hs. lia. }
  cbn [app from_utf8]. assert (Hb : 240 <= 240 + c / 262144 < 248) by lia. assert (H1 : 128 <= 128 + c / 4096 mod 64 < 192) by lia. assert (H2 : 128 <= 128 + c / 64 mod 64 < 192) by lia. assert (H3 : 128 <= 128 + c mod 64 < 192) by lia.
  assert (E : (240 + c / 262144 - 240) * 262144 + (128 + c / 4096 mod 64 - 128) * 4096 + (128 + c / 64 mod 64 - 128) * 64 + (128 + c mod 64 - 128) = c) by lia.
  rewrite E. revert Hb H1 H2 H3. generalize (240 + c / 262144), (128 + c / 4096 mod 64), (128 + c / 64 mod 64), (128 + c mod 64). intros b b1 b2 b3 Hb H1 H2 H3. unfold continuation.
  rewrite (proj2 (Z.ltb_ge b 128)), (proj2 (Z.leb_le 192 b)), (proj2 (Z.ltb_ge b 224)), (proj2 (Z.leb_le 224 b)), (proj2 (Z.ltb_ge b 240)), (proj2 (Z.leb_le 240 b)), (proj2 (Z.ltb_lt b 248)), (proj2 (Z.leb_le 128 b1)), (proj2 (Z.ltb_lt b1 192)), (proj2 (Z.leb_le 128 b2)), (proj2 (Z.ltb_lt b2 192)), (proj2 (Z.leb_le 128 b3)), (proj2 (Z.ltb_lt b3 192)), (proj2 (Z.leb_le 65536 c)), (proj2 (Z.ltb_lt c 1114112)) by lia. reflexivity.
Qed.
Lemma from_utf8_utf8 : forall s fuel, Forall scalar s -> (length (utf8 s) < fuel)%nat -> from_utf8 fuel (utf8 s) = Some s.
Proof.
  induction s as [|c s IH]; intros fuel HF Hf; [destruct fuel; [lia|reflexivity]|]. inversion_clear HF as [|? ? Hc HF']. unfold utf8 in *. cbn [map concat] in *. rewrite app_length in Hf. pose proof (utf8_char_length c).
  destruct fuel as [|fuel]; [lia|]. rewrite from_utf8_char by exact Hc. rewrite IH by (assumption || lia). reflexivity.
Qed.
Lemma utf8_all_bytes : forall s, Forall scalar s -> Forall (fun b => 0 <= b < 256) (utf8 s).
Proof. induction 1 as [|c s Hc _ IH]; [constructor|]. unfold utf8 in *. cbn. apply Forall_app. split; [apply utf8_bytes, Hc|exact IH]. Qed.
Lemma utf8_ascii : forall s, Forall (fun c => c < 128) s -> utf8 s = s.
Proof. induction 1 as [|c s Hc _ IH]; [reflexivity|]. unfold utf8 in *. cbn [map concat]. rewrite IH. unfold utf8_char. rewrite (proj2 (Z.ltb_lt c 128)) by lia. reflexivity. Qed.

Lemma hex_round : forall n, 0 <= n < 16 -> from_hex_digit (hex_digit n) = Some n /\ unreserved (hex_digit n) = true /\ 0 <= hex_digit n < 128.
Proof.
  intros n Hn. assert (K : n = 0 \/ n = 1 \/ n = 2 \/ n = 3 \/ n = 4 \/ n = 5 \/ n = 6 \/ n = 7 \/ n = 8 \/ n = 9 \/ n = 10 \/ n = 11 \/ n = 12 \/ n = 13 \/ n = 14 \/ n = 15) by lia.
  repeat (destruct K as [-> | K]; [cbn; lia || (split; [reflexivity|split; [reflexivity|lia]])|]). subst n. cbn. split; [reflexivity|split; [reflexivity|lia]].
Qed.
Lemma unreserved_range : forall b, unreserved b = true -> 0 <= b < 128 /\ b <> 37.
Proof.
  intros b H. unfold unreserved in H. rewrite !orb_true_iff, !andb_true_iff, !Z.leb_le, !Z.eqb_eq in H. lia.
Qed.
Lemma encode_ascii : forall b, 0 <= b < 256 -> Forall (fun c => unreserved c = true \/ c = 37) (encode_byte b).
Proof.
  intros b Hb. unfold encode_byte. destruct (unreserved b) eqn:E; [constructor; [left; exact E|constructor]|].
  destruct (hex_round (b / 16) ltac:(lia)) as (_ & H1 & _). destruct (hex_round (b mod 16) ltac:(lia)) as (_ & H2 & _).
  constructor; [right; reflexivity|]. constructor; [left; exact H1|]. constructor; [left; exact H2|constructor].
Qed.
Lemma encode_all_ascii : forall bs, Forall (fun b => 0 <= b < 256) bs -> Forall (fun c => unreserved c = true \/ c = 37) (concat (map encode_byte bs)).
Proof. induction 1 as [|b bs Hb _ IH]; [constructor|]. cbn [map concat]. apply Forall_app. split; [apply encode_ascii, Hb|exact IH]. Qed.
Lemma decode_encode : forall bs, Forall (fun b => 0 <= b < 256) bs -> decode_bytes (concat (map encode_byte bs)) = bs.
Proof.
  induction 1 as [|b bs Hb _ IH]; [reflexivity|]. cbn [map concat]. unfold encode_byte at 1. destruct (unreserved b) eqn:E.
  - cbn [app decode_bytes]. destruct (unreserved_range b E) as [_ N]. rewrite (proj2 (Z.eqb_neq b 37) N), IH. reflexivity.
  - cbn [app decode_bytes]. cbn [Z.eqb Pos.eqb]. rewrite (proj1 (hex_round (b / 16) ltac:(lia))), (proj1 (hex_round (b mod 16) ltac:(lia))), IH. f_equal. lia.
Qed.
Lemma url_round : forall s, Forall scalar s -> url_decode (url_encode s) = Some s /\ Forall (fun c => unreserved c = true \/ c = 37) (url_encode s).
Proof.
  intros s HF. pose proof (encode_all_ascii _ (utf8_all_bytes s HF)) as HA. split; [|exact HA]. unfold url_decode. rewrite utf8_ascii.
  - unfold url_encode. rewrite decode_encode by (apply utf8_all_bytes, HF). apply from_utf8_utf8; [exact HF|lia].
  - refine (Forall_impl _ _ HA). intros c [H| ->]; [apply unreserved_range in H; lia|lia].
Qed.

(* ---------- the cache ---------- *)
Section Caches.
Context {R : Type}.
Variable compile : str -> option R.
Definition right (c : @cache R) : Prop := forall p r, In (p, r) c -> compile p = Some r.
Lemma take_out_in : forall p (c : @cache R) r c', take_out p c = Some (r, c') -> In (p, r) c /\ (forall q x, In (q, x) c' -> In (q, x) c) /\ length c = S (length c').
Proof.
  intros p. induction c as [|[q x] c IH]; intros r c' H; cbn in H; [discriminate|]. destruct (str_eqb p q) eqn:E.
  - injection H as <- <-. apply str_eqb_true in E. subst q. cbn. auto.
  - destruct (take_out p c) as [[r0 c0]|] eqn:E0; [|discriminate]. injection H as <- <-. destruct (IH r0 c0 eq_refl) as (H1 & H2 & H3). cbn. split; [right; exact H1|]. split; [|lia].
    intros q' x' [K|K]; [left; exact K|right; apply H2, K].
Qed.
Lemma cache_right : forall c p c' r, right c -> try_get_or_insert compile c p = (c', r) -> right c' /\ r = compile p.
Proof.
  intros c p c' r Hc H. unfold try_get_or_insert in H. destruct (take_out p c) as [[x c0]|] eqn:E.
  - injection H as <- <-. destruct (take_out_in _ _ _ _ E) as (H1 & H2 & _). split; [|symmetry; apply (Hc p x H1)]. intros q y [K|K]; [injection K as <- <-; apply (Hc p x H1)|apply Hc, H2, K].
  - destruct (compile p) as [x|] eqn:Ep; injection H as <- <-; [|auto]. split; [|reflexivity]. intros q y [K|K]; [injection K as <- <-; exact Ep|apply Hc]. rewrite <- (firstn_skipn (cache_size - 1) c). apply in_or_app. left. exact K.
Qed.
Lemma cache_small : forall c p c' r, (length c <= cache_size)%nat -> try_get_or_insert compile c p = (c', r) -> (length c' <= cache_size)%nat.
Proof.
  intros c p c' r Hc H. unfold try_get_or_insert in H. destruct (take_out p c) as [[x c0]|] eqn:E.
  - injection H as <- <-. destruct (take_out_in _ _ _ _ E) as (_ & _ & H3). cbn. lia.
  - destruct (compile p) as [x|]; injection H as <- <-; [|exact Hc]. pose proof (firstn_le_length (cache_size - 1) c) as K. change (S (length (firstn (cache_size - 1) c)) <= cache_size)%nat. unfold cache_size in *. pose proof (firstn_length (32 - 1) c). unfold cache in *. lia.
Qed.
End Caches.

(* ---------- the example segmentation ---------- *)
Lemma crlf_segmentation : segmentation crlf.
Proof.
  assert (K : forall n s, (length s <= n)%nat -> concat (crlf s) = s /\ forall g, In g (crlf s) -> g <> []).
  { induction n as [|n IH]; intros [|c [|d s]] Hl; cbn [length] in Hl; try lia; try (split; [reflexivity|intros g K; exfalso; exact K]); try (split; [reflexivity|intros g [<-|K]; [discriminate|exfalso; exact K]]).
    cbn [crlf]. destruct (Z.eqb_spec c 13) as [->|N1]; [destruct (Z.eqb_spec d 10) as [->|N2]|]; cbn [andb].
    - destruct (IH s ltac:(lia)) as [H1 H2]. split; [cbn [concat app]; rewrite H1; reflexivity|]. intros g [<-|Hg]; [discriminate|apply H2, Hg].
    - destruct (IH (d :: s) ltac:(cbn [length]; lia)) as [H1 H2]. split; [cbn [concat app]; cbn [crlf] in H1; rewrite H1; reflexivity|]. intros g [<-|Hg]; [discriminate|apply H2, Hg].
    - destruct (IH (d :: s) ltac:(cbn [length]; lia)) as [H1 H2]. split; [cbn [concat app]; cbn [crlf] in H1; rewrite H1; reflexivity|]. intros g [<-|Hg]; [discriminate|apply H2, Hg]. }
  split; [intros s; apply (K (length s) s ltac:(lia))|intros s; apply (K (length s) s ltac:(lia))].
Qed.
