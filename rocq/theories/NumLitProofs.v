From Coq Require Import String List Arith ZArith QArith Qpower Qfield Bool Ascii Lia Psatz.
From Verif Require Import ParseModel ParseSpec ParseProofs1 NumLitModel NumLitSpec.
Import ListNotations.
Local Open Scope Z_scope.
Local Open Scope list_scope.

Lemma digit_dec c d : digit_of c d -> d < 16 -> to_digit 16 c = Some d.
Proof.
  intros (H0 & H) H16. assert (K : d = 0 \/ d = 1 \/ d = 2 \/ d = 3 \/ d = 4 \/ d = 5 \/ d = 6 \/ d = 7 \/ d = 8 \/ d = 9 \/ d = 10 \/ d = 11 \/ d = 12 \/ d = 13 \/ d = 14 \/ d = 15) by lia.
  repeat (destruct K as [-> | K]; [destruct H as [H|H]; vm_compute in H; injection H as <-; reflexivity|]). subst. destruct H as [H|H]; vm_compute in H; injection H as <-; reflexivity.
Qed.
Lemma to_digit_less b c d : to_digit 16 c = Some d -> d < b -> b <= 16 -> to_digit b c = Some d.
Proof.
  unfold to_digit. destruct (if between "0" "9" c then _ else _) as [v|]; [|discriminate]. destruct (Z.ltb_spec v 16); [|discriminate]. intros E Hd Hb. injection E as ->. destruct (Z.ltb_spec d b); [reflexivity|lia].
Qed.
Lemma to_digit_nonneg b c d : to_digit b c = Some d -> 0 <= d < b.
Proof.
  unfold to_digit, between. intros H. destruct ((nat_of_ascii "0" <=? nat_of_ascii c)%nat && (nat_of_ascii c <=? nat_of_ascii "9")%nat) eqn:E1.
  - destruct (Z.ltb_spec (Z.of_nat (nat_of_ascii c) - 48) b); [|discriminate]. injection H as <-. apply andb_prop in E1. destruct E1 as (A & _). apply Nat.leb_le in A. cbn in A. lia.
  - destruct ((nat_of_ascii "a" <=? nat_of_ascii c)%nat && (nat_of_ascii c <=? nat_of_ascii "z")%nat) eqn:E2.
    + destruct (Z.ltb_spec (Z.of_nat (nat_of_ascii c) - 87) b); [|discriminate]. injection H as <-. apply andb_prop in E2. destruct E2 as (A & _). apply Nat.leb_le in A. change (nat_of_ascii "a") with 97%nat in A. lia.
    + destruct ((nat_of_ascii "A" <=? nat_of_ascii c)%nat && (nat_of_ascii c <=? nat_of_ascii "Z")%nat) eqn:E3; [|discriminate].
      destruct (Z.ltb_spec (Z.of_nat (nat_of_ascii c) - 55) b); [|discriminate]. injection H as <-. apply andb_prop in E3. destruct E3 as (A & _). apply Nat.leb_le in A. change (nat_of_ascii "A") with 65%nat in A. lia.
Qed.
Lemma big_app b t u : forall acc, big b acc (t ++ u) = match big b acc t with Some x => big b x u | None => None end.
Proof. induction t as [|c t IH]; intros acc; cbn [app big]; auto. destruct (to_digit b c); auto. Qed.
Lemma numeral_big b t z : b <= 16 -> numeral b t z -> big b 0 t = Some z.
Proof.
  intros Hb H. induction H as [|t z c d H IH Hd Hl]; [reflexivity|]. rewrite big_app, IH. cbn [big]. now rewrite (to_digit_less b c d (digit_dec c d Hd ltac:(lia)) Hl Hb).
Qed.
Lemma big_mono b t : 1 <= b -> forall acc z, 0 <= acc -> big b acc t = Some z -> acc <= z.
Proof.
  intros Hb. induction t as [|c t IH]; intros acc z H0 H; cbn [big] in H; [injection H as <-; lia|]. destruct (to_digit b c) as [d|] eqn:E; [|discriminate]. apply to_digit_nonneg in E. apply IH in H; [|nia]. nia.
Qed.
Lemma checked_ok z : in_i64 z = true -> checked z = Some z.
Proof. unfold checked. now intros ->. Qed.
Lemma in_i64_iff z : in_i64 z = true <-> fits_i64 z.
Proof. unfold in_i64, fits_i64, i64_min, i64_max. rewrite andb_true_iff, !Z.leb_le. lia. Qed.
Lemma accumulate_big b neg t : 1 <= b -> forall acc z, 0 <= acc -> fits_i64 (signed neg acc) -> big b acc t = Some z ->
  accumulate b neg (signed neg acc) t = checked (signed neg z).
Proof.
  intros Hb. induction t as [|c t IH]; intros acc z H0 Hf H; cbn [big accumulate] in *; [injection H as <-; symmetry; apply checked_ok; now apply in_i64_iff|].
  destruct (to_digit b c) as [d|] eqn:E; [|discriminate]. apply to_digit_nonneg in E. assert (Hn : 0 <= acc * b + d) by nia. pose proof (big_mono b t Hb _ _ Hn H) as Hm.
  assert (F : forall x, fits_i64 x \/ ~ fits_i64 x) by (unfold fits_i64; intros; lia).
  assert (N : forall x, ~ fits_i64 x -> checked x = None). { intros x Hx. unfold checked. destruct (in_i64 x) eqn:E1; auto. apply in_i64_iff in E1. tauto. }
  assert (Y : forall x, fits_i64 x -> checked x = Some x). { intros x Hx. apply checked_ok. now apply in_i64_iff. }
  assert (E2 : signed neg acc * b = signed neg (acc * b)) by (destruct neg; cbn; lia). rewrite E2.
  assert (E3 : (if neg then signed neg (acc * b) - d else signed neg (acc * b) + d) = signed neg (acc * b + d)) by (destruct neg; cbn; lia).
  destruct (F (signed neg (acc * b))) as [F1|F1].
  - rewrite (Y _ F1), E3. destruct (F (signed neg (acc * b + d))) as [F2|F2]; [rewrite (Y _ F2); apply IH; auto; try nia|]. rewrite (N _ F2). symmetry. apply N. intros K. apply F2. unfold fits_i64, signed in *. destruct neg; lia.
  - rewrite (N _ F1). symmetry. apply N. intros K. apply F1. unfold fits_i64, signed in *. destruct neg; lia.
Qed.
Lemma accumulate_bad b neg t c u : to_digit b c = None -> forall acc, accumulate b neg acc (t ++ c :: u) = None.
Proof.
  intros Hc. induction t as [|x t IH]; intros acc; cbn [app accumulate]; [now rewrite Hc|]. destruct (to_digit b x); auto. destruct (checked (acc * b)); auto. destruct (checked _); auto.
Qed.
Lemma i64_sign b s d : d <> [] -> i64_from_str_radix b (sign_print s ++ d) = accumulate b (match s with Some true => true | _ => false end) 0 d.
Proof. intros H. destruct d as [|c d]; [congruence|]. destruct s as [[]|]; reflexivity. Qed.
Lemma digit_head b c r : to_digit b c <> None -> i64_from_str_radix b (c :: r) = accumulate b false 0 (c :: r).
Proof.
  intros H. destruct c as [[] [] [] [] [] [] [] []]; try reflexivity; exfalso; apply H; reflexivity.
Qed.
(** decimal digits *)
Lemma is_digit_of c : is_digit c = true -> exists d, digit_of c d /\ d < 10 /\ Z.of_nat (nat_of_ascii c) - 48 = d.
Proof.
  intros H. exists (Z.of_nat (nat_of_ascii c) - 48).
  destruct c as [[] [] [] [] [] [] [] []]; try discriminate H; (split; [split; [vm_compute; discriminate|left; reflexivity]|split; [reflexivity|reflexivity]]).
Qed.
Lemma digit_of_unique c d d' : digit_of c d -> digit_of c d' -> d < 16 -> d' < 16 -> d = d'.
Proof. intros H H' A B. apply digit_dec in H, H'; auto. congruence. Qed.
Lemma numeral_digits t z : numeral 10 t z -> digits_value t = z.
Proof.
  intros H. unfold digits_value. induction H as [|t z c d H IH Hd Hl]; [reflexivity|]. rewrite fold_left_app, IH. cbn [fold_left]. f_equal.
  pose proof (digit_dec c d Hd ltac:(lia)) as E. apply (to_digit_less 10) in E; [|lia|lia]. unfold to_digit in E.
  destruct (between "0" "9" c) eqn:B; [destruct (Z.of_nat (nat_of_ascii c) - 48 <? 10); congruence|]. exfalso.
  destruct (between "a" "z" c) eqn:B2.
  - unfold between in B2. apply andb_prop in B2. destruct B2 as (A & _). apply Nat.leb_le in A. change (nat_of_ascii "a") with 97%nat in A. destruct (Z.ltb_spec (Z.of_nat (nat_of_ascii c) - 87) 10); [lia|discriminate].
  - destruct (between "A" "Z" c) eqn:B3; [|discriminate]. unfold between in B3. apply andb_prop in B3. destruct B3 as (A & _). apply Nat.leb_le in A. change (nat_of_ascii "A") with 65%nat in A. destruct (Z.ltb_spec (Z.of_nat (nat_of_ascii c) - 55) 10); [lia|discriminate].
Qed.
Lemma numeral_exists t : all_chars is_digit t -> exists z, numeral 10 t z.
Proof.
  induction t as [|c t IH] using rev_ind; intros H; [exists 0; apply n_nil|]. destruct IH as (z & Hz); [intros x Hx; apply H, in_or_app; auto|].
  destruct (is_digit_of c) as (d & Hd & Hl & _); [apply H, in_or_app; right; now left|]. exists (z * 10 + d). now apply n_digit.
Qed.
Lemma digits_app b : forall acc, fold_left (fun acc c => acc * 10 + (Z.of_nat (nat_of_ascii c) - 48)) b acc = acc * 10 ^ Z.of_nat (List.length b) + digits_value b.
Proof.
  unfold digits_value. induction b as [|c b IH] using rev_ind; intros acc; [cbn; lia|]. rewrite !fold_left_app, app_length. cbn [fold_left List.length]. rewrite IH.
  replace (Z.of_nat (List.length b + 1)) with (Z.of_nat (List.length b) + 1) by lia. rewrite Z.pow_add_r by lia. lia.
Qed.

Definition wf (n : number) : Prop :=
  digits_text (nu_int n) /\ match nu_frac n with Some f => digits_text f | None => True end /\ match nu_exp n with Some (_, e) => digits_text e | None => True end.
Lemma number_text_wf n t : number_text n t -> wf n.
Proof. intros [s d f ft e et m mt Hd Hf He Hm]. split; auto. split; cbn; [destruct f; tauto|]. destruct e as [[]|]; tauto. Qed.
Definition normal (n : number) : number :=
  mkNum (Some (negative n)) (nu_int n) (nu_frac n) (match nu_exp n with Some (s, e) => Some (Some (match s with Some true => true | _ => false end), e) | None => None end) None.
Lemma number_string_text n : wf n -> number_text (normal n) (number_string n).
Proof.
  intros (Hd & Hf & He). destruct n as [s d f e m]. cbn in *. unfold number_string, normal. cbn [nu_sign nu_int nu_frac nu_exp].
  set (et := match e with Some (s, e) => "e"%char :: sign_print s ++ e | None => [] end). set (ft := match f with Some f => "."%char :: f | None => [] end).
  assert (Es : forall s : option bool, sign_print s = sign_text (Some (match s with Some true => true | _ => false end))) by (intros [[]|]; reflexivity).
  replace ((sign_print s ++ d) ++ ft ++ et) with (sign_text (Some (negative (mkNum s d f e m))) ++ d ++ ft ++ et ++ []) by (rewrite app_nil_r, <- app_assoc, Es; reflexivity).
  apply (nt (Some (negative (mkNum s d f e m))) d f ft _ et None []); auto.
  - subst ft. destruct f; auto.
  - subst et. destruct e as [[s' x]|]; auto. split; auto. exists "e"%char. split; auto. now rewrite Es.
Qed.
Lemma parse_float_string limit n : wf n -> parse_float limit (number_string n) =
  Some (if Qle_bool limit (decimal n) then Infinite (negative n) else Nearest (negative n) (decimal n)).
Proof.
  intros H. unfold parse_float. assert (E : parse_number (number_string n) = Ok (normal n) []). { rewrite <- (app_nil_r (number_string n)). apply (number_ok (normal n)); [now apply number_string_text|exact I]. }
  rewrite E. assert (D : decimal (normal n) = decimal n). { unfold decimal, normal. cbn [nu_frac nu_exp nu_int]. destruct (nu_exp n) as [[[[]|] e]|]; reflexivity. }
  rewrite D. unfold normal. cbn [nu_sign]. destruct (negative n); reflexivity.
Qed.
Lemma decimal_value n q : absolute_value n q -> (decimal n == q)%Q.
Proof.
  intros (i & f & e & Hi & Hf & He & Hq). rewrite Hq. unfold decimal. clear q Hq.
  set (ft := match nu_frac n with Some f => f | None => [] end). set (ex := match nu_exp n with Some (Some true, e) => - digits_value e | Some (_, e) => digits_value e | None => 0 end).
  assert (Ee : ex = e). { subst ex. destruct (nu_exp n) as [[s t]|]; [|auto]. destruct He as (x & Hx & ->). apply numeral_digits in Hx. destruct s as [[]|]; cbn; lia. }
  assert (Ef : digits_value ft = f). { subst ft. destruct (nu_frac n); [now apply numeral_digits|subst; reflexivity]. }
  assert (El : match nu_frac n with Some t => List.length t | None => 0%nat end = List.length ft) by (subst ft; destruct (nu_frac n); reflexivity). rewrite El, Ee. clear Ee ex El He.
  assert (Ei : digits_value (nu_int n ++ ft) = i * 10 ^ Z.of_nat (List.length ft) + f). { unfold digits_value at 1. rewrite fold_left_app, digits_app, Ef. f_equal. f_equal. now apply numeral_digits. }
  rewrite Ei. set (k := Z.of_nat (List.length ft)). assert (Hk : 0 <= k) by lia. clear - Hk.
  assert (T : ~ (inject_Z 10 == 0)%Q) by (intros H; discriminate).
  replace (e - k) with (e + - k) by lia. rewrite Qpower_plus by exact T. rewrite Qpower_opp. rewrite <- (Zpower_Qpower 10 k Hk).
  rewrite inject_Z_plus, inject_Z_mult. assert (P : ~ (inject_Z (10 ^ k) == 0)%Q). { intros H. change 0%Q with (inject_Z 0) in H. rewrite inject_Z_injective in H. apply Z.pow_eq_0_iff in H. lia. } field. exact P.
Qed.
Lemma not_plain_i64 n : wf n -> ~ plain n -> i64_from_str_radix 10 (number_string n) = None.
Proof.
  intros ((Hn & Hd) & _) Hp. unfold number_string. rewrite <- app_assoc. rewrite i64_sign; [|destruct (nu_int n); [congruence|discriminate]].
  destruct (nu_frac n) as [f|] eqn:Ef; [cbn [app]; apply accumulate_bad; reflexivity|]. cbn [app]. destruct (nu_exp n) as [[s e]|] eqn:Ee; [apply accumulate_bad; reflexivity|]. exfalso. apply Hp. split; auto.
Qed.
Lemma plain_i64 n z : wf n -> plain n -> numeral 10 (nu_int n) z -> i64_from_str_radix 10 (number_string n) = checked (signed (negative n) z).
Proof.
  intros ((Hn & Hd) & _) (Ef & Ee) Hz. unfold number_string. rewrite Ef, Ee. cbn [app]. rewrite app_nil_r. rewrite i64_sign by auto. apply numeral_big in Hz; [|lia].
  replace 0 with (signed (negative n) 0) by (destruct (negative n); reflexivity). change (match nu_sign n with Some true => true | _ => false end) with (negative n). apply accumulate_big; auto; try lia. unfold fits_i64, signed. destruct (negative n); lia.
Qed.
Lemma literal_integer n z : wf n -> plain n -> numeral 10 (nu_int n) z -> fits_i64 (signed (negative n) z) -> literal n = Some (DInteger (signed (negative n) z)).
Proof. intros Hw Hp Hz Hf. unfold literal, value. rewrite (plain_i64 n z Hw Hp Hz), checked_ok by now apply in_i64_iff. reflexivity. Qed.
Definition floating (n : number) : option data :=
  let limit := match nu_mark n with Some false => overflow32 | _ => overflow64 end in
  if Qle_bool limit (decimal n) then None else Some (match nu_mark n with Some false => DFloat (Nearest (negative n) (decimal n)) | _ => DDouble (Nearest (negative n) (decimal n)) end).
Lemma literal_floating n : wf n -> i64_from_str_radix 10 (number_string n) = None -> literal n = floating n.
Proof.
  intros Hw E. unfold literal, value, floating. rewrite E. rewrite !parse_float_string by auto. destruct (nu_mark n) as [[]|]; [destruct (Qle_bool overflow64 (decimal n))|destruct (Qle_bool overflow32 (decimal n))|destruct (Qle_bool overflow64 (decimal n))]; reflexivity.
Qed.
Lemma encoded_ok e t z : t <> [] -> numeral (radix e) t z -> encoded_literal e t = if in_i64 z then DInteger z else DBig z.
Proof.
  intros Hn Hz. assert (Hr : 1 <= radix e <= 16) by (destruct e; cbn; lia). apply numeral_big in Hz; [|lia]. unfold encoded_literal.
  assert (E : i64_from_str_radix (radix e) t = checked z).
  { destruct t as [|c t]; [congruence|]. rewrite digit_head; [apply (accumulate_big (radix e) false (c :: t) (proj1 Hr) 0); auto; unfold fits_i64; simpl signed; try lia|]. cbn [big] in Hz. destruct (to_digit (radix e) c); [discriminate|discriminate Hz]. }
  rewrite E, Hz. unfold checked. destruct (in_i64 z); reflexivity.
Qed.
