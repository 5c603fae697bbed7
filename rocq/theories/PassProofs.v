From Verif Require Import Base PassModel.
Local Open Scope Z.

Definition is_byte (c : Z) : Prop := 0 <= c < 256.
(** *** little-endian numbers *)
Fixpoint le (n : nat) (v : Z) : bytes := match n with O => [] | S n => v mod 256 :: le n (v / 256) end.
Fixpoint unle (l : bytes) : Z := match l with [] => 0 | b :: l => b + 256 * unle l end.
Lemma le_length n : forall v, length (le n v) = n.
Proof. induction n as [|n IH]; intros v; cbn [le length]; [reflexivity|]. rewrite IH. reflexivity. Qed.
Lemma le_bytes n : forall v, Forall is_byte (le n v).
Proof. induction n as [|n IH]; intros v; cbn [le]; constructor; [apply Z.mod_pos_bound; lia|apply IH]. Qed.
Lemma unle_le n : forall v, 0 <= v < 256 ^ Z.of_nat n -> unle (le n v) = v.
Proof.
  induction n as [|n IH]; intros v H; cbn [le unle]; [cbn in H; lia|]. rewrite Nat2Z.inj_succ, Z.pow_succ_r in H by lia.
  rewrite IH; [pose proof (Z.div_mod v 256); lia|]. split; [apply Z.div_pos; lia|apply Z.div_lt_upper_bound; lia].
Qed.
Lemma unle_bound l : Forall is_byte l -> 0 <= unle l < 256 ^ Z.of_nat (length l).
Proof. induction 1 as [|b l Hb _ IH]; cbn [unle length]; [cbn; lia|]. rewrite Nat2Z.inj_succ, Z.pow_succ_r by lia. unfold is_byte in Hb. lia. Qed.
Lemma le_unle l : Forall is_byte l -> le (length l) (unle l) = l.
Proof.
  induction 1 as [|b l Hb _ IH]; cbn [unle length le]; [reflexivity|]. unfold is_byte in Hb.
  replace (b + 256 * unle l) with (b + unle l * 256) by lia. rewrite Z.mod_add, Z.div_add by lia. rewrite Z.mod_small, Z.div_small by lia. rewrite Z.add_0_l, IH. reflexivity.
Qed.
(** *** the header *)
Lemma le8 v : le 8 v = [v mod 256; v / 2^8 mod 256; v / 2^16 mod 256; v / 2^24 mod 256; v / 2^32 mod 256; v / 2^40 mod 256; v / 2^48 mod 256; v / 2^56 mod 256].
Proof. cbn [le]. rewrite !Z.div_div by lia. reflexivity. Qed.
(** a list of at least 17 bytes *)
Definition header (p : Z) (a b : bytes) (t : bytes) : bytes := p :: a ++ b ++ t.
Lemma header_split s : 17 <= blen s -> exists p a b t, s = header p a b t /\ length a = 8%nat /\ length b = 8%nat.
Proof.
  unfold blen, header. intros H. destruct s as [|p s]; [cbn in H; lia|]. exists p, (take 8 s), (take 8 (drop 8 s)), (drop 16 s).
  cbn [length] in H. split; [|split; rewrite take_length; [lia|rewrite drop_length; lia]]. f_equal. rewrite <- (take_drop 8 s) at 1. f_equal. rewrite <- (take_drop 8 (drop 8 s)) at 1. f_equal. rewrite drop_drop. f_equal.
Qed.
Ltac eight a := let b0 := fresh "b" in let b1 := fresh "b" in let b2 := fresh "b" in let b3 := fresh "b" in let b4 := fresh "b" in let b5 := fresh "b" in let b6 := fresh "b" in let b7 := fresh "b" in
  destruct a as [|b0 [|b1 [|b2 [|b3 [|b4 [|b5 [|b6 [|b7 [|? ?]]]]]]]]]; try discriminate.
Lemma read8_unle b0 b1 b2 b3 b4 b5 b6 b7 : Forall is_byte [b0; b1; b2; b3; b4; b5; b6; b7] ->
  u64 (b0 + b1 * 2^8 + b2 * 2^16 + b3 * 2^24 + b4 * 2^32 + b5 * 2^40 + b6 * 2^48 + b7 * 2^56) = unle [b0; b1; b2; b3; b4; b5; b6; b7].
Proof.
  intros H. pose proof (unle_bound _ H) as B. cbn [length] in B. change (256 ^ Z.of_nat 8) with (2^64) in B.
  assert (E : b0 + b1 * 2^8 + b2 * 2^16 + b3 * 2^24 + b4 * 2^32 + b5 * 2^40 + b6 * 2^48 + b7 * 2^56 = unle [b0; b1; b2; b3; b4; b5; b6; b7]) by (cbn [unle]; lia).
  rewrite E. apply u64_id. exact B.
Qed.
Lemma header_reads p a b t : length a = 8%nat -> length b = 8%nat -> Forall is_byte a -> Forall is_byte b ->
  at_ (header p a b t) 0 = Ret p /\ (exists x, at_ (header p a b t) 8 = Ret x) /\ (exists x, at_ (header p a b t) 16 = Ret x) /\
  read8 (header p a b t) 1 = Ret (unle a) /\ read8 (header p a b t) 9 = Ret (unle b) /\ blen (header p a b t) = 17 + blen t.
Proof.
  intros La Lb Ha Hb. eight a. eight b. unfold header. cbn [app].
  split; [reflexivity|]. split; [eexists; reflexivity|]. split; [eexists; reflexivity|].
  split; [rewrite <- read8_unle by exact Ha; reflexivity|]. split; [rewrite <- read8_unle by exact Hb; reflexivity|].
  unfold blen. cbn [length]. lia.
Qed.
Lemma sub_ok s lo hi : 0 <= lo -> lo <= hi -> hi <= blen s -> sub s lo hi = Ret (take (Z.to_nat (hi - lo)) (drop (Z.to_nat lo) s)).
Proof. intros H1 H2 H3. unfold sub. destruct (Z.leb_spec 0 lo); [|lia]. destruct (Z.leb_spec lo hi); [|lia]. destruct (Z.leb_spec hi (blen s)); [reflexivity|lia]. Qed.
(** *** the codec *)
Lemma header_put8_1 p (a b t : bytes) v : length a = 8%nat -> length b = 8%nat -> put8 (header p a b t) 1 v = Ret (header p (le 8 v) b t).
Proof.
  intros La Lb. eight a. eight b. rewrite le8. unfold put8, put, header, blen. cbn [app length Nat.add].
  repeat (match goal with |- context [if ?x <? ?y then _ else _] => destruct (Z.ltb_spec x y); [|lia] end; cbn [rbind insert list_insert length]). reflexivity.
Qed.
Lemma header_put8_9 p (a b t : bytes) v : length a = 8%nat -> length b = 8%nat -> put8 (header p a b t) 9 v = Ret (header p a (le 8 v) t).
Proof.
  intros La Lb. eight a. eight b. rewrite le8. unfold put8, put, header, blen. cbn [app length Nat.add].
  repeat (match goal with |- context [if ?x <? ?y then _ else _] => destruct (Z.ltb_spec x y); [|lia] end; cbn [rbind insert list_insert length]). reflexivity.
Qed.
Lemma header_length p a b t : length a = 8%nat -> length b = 8%nat -> length (header p a b t) = (17 + length t)%nat.
Proof. intros La Lb. unfold header. cbn [length]. rewrite !app_length. lia. Qed.
Lemma header_drop p a b t n : length a = 8%nat -> length b = 8%nat -> drop (17 + n) (header p a b t) = drop n t.
Proof. intros La Lb. eight a. eight b. reflexivity. Qed.
Lemma header_take p a b t n : length a = 8%nat -> length b = 8%nat -> take (17 + n) (header p a b t) = header p a b (take n t).
Proof. intros La Lb. eight a. eight b. reflexivity. Qed.
Lemma header_copy p a b x src y : length a = 8%nat -> length b = 8%nat -> length x = length src -> forall n, n = blen y ->
  copy_into (header p a b (y ++ x)) (17 + n) (17 + n + blen src) src = Ret (header p a b (y ++ src)).
Proof.
  intros La Lb Lx n ->. unfold blen in *. unfold copy_into. rewrite sub_ok by (unfold blen; rewrite ?header_length, ?app_length by assumption; lia). cbn [rbind].
  replace (Z.to_nat (17 + Z.of_nat (length y))) with (17 + length y)%nat by lia. replace (Z.to_nat (17 + Z.of_nat (length y) + Z.of_nat (length src) - (17 + Z.of_nat (length y)))) with (length src) by lia.
  rewrite header_drop, header_take by assumption. rewrite drop_app, take_app. rewrite <- Lx, firstn_all, Lx, Nat.min_id, firstn_all.
  rewrite <- Nat.add_assoc, header_drop by assumption. rewrite drop_ge by (rewrite app_length; lia). rewrite app_nil_r.
  unfold header. cbn [app]. rewrite <- !app_assoc. reflexivity.
Qed.
Definition record (param : Z) (salt hash : bytes) : bytes := header param (le 8 (17 + blen salt)) (le 8 (17 + blen salt + blen hash)) (salt ++ hash).
Lemma new_ph_record param salt hash : 17 + blen salt + blen hash < 2^63 -> new_ph param salt hash = Ret (record param salt hash).
Proof.
  intros H. unfold new_ph, serialize. assert (B1 : 0 <= blen salt) by (unfold blen; lia). assert (B2 : 0 <= blen hash) by (unfold blen; lia).
  assert (E : repeat 0 (17 + length salt + length hash) = header 0 (repeat 0 8) (repeat 0 8) (repeat 0 (length salt) ++ repeat 0 (length hash))).
  { unfold header. cbn [Nat.add repeat app]. rewrite repeat_app. reflexivity. }
  rewrite E. change (at_ (header 0 (repeat 0 8) (repeat 0 8) (repeat 0 (length salt) ++ repeat 0 (length hash))) 16) with (Ret 0). cbn [rbind].
  assert (P : put (header 0 (repeat 0 8) (repeat 0 8) (repeat 0 (length salt) ++ repeat 0 (length hash))) 0 param = Ret (header param (repeat 0 8) (repeat 0 8) (repeat 0 (length salt) ++ repeat 0 (length hash)))).
  { unfold put. unfold blen. rewrite header_length by reflexivity. destruct (Z.ltb_spec (Z.of_nat 0) (Z.of_nat (17 + length (repeat 0 (length salt) ++ repeat 0 (length hash))))); [reflexivity|lia]. }
  rewrite P. cbn [rbind]. cbv zeta. rewrite (u64_id (blen salt + 17)) by (unfold is_u64; lia). rewrite header_put8_1 by reflexivity. cbn [rbind].
  replace (blen salt + 17) with (17 + 0 + blen salt) by lia.
  change (repeat 0 (length salt) ++ repeat 0 (length hash)) with ([] ++ (repeat 0 (length salt) ++ repeat 0 (length hash))).
  assert (C : copy_into (header param (le 8 (17 + 0 + blen salt)) (repeat 0 8) ([] ++ repeat 0 (length salt) ++ repeat 0 (length hash))) 17 (17 + 0 + blen salt) salt =
    Ret (header param (le 8 (17 + 0 + blen salt)) (repeat 0 8) (salt ++ repeat 0 (length hash)))).
  { cbn [app]. unfold copy_into. rewrite sub_ok by (unfold blen in *; rewrite ?header_length, ?app_length, ?repeat_length by (rewrite ?le_length; reflexivity); lia). cbn [rbind].
    change (Z.to_nat 17) with (17 + 0)%nat. replace (Z.to_nat (17 + 0 + blen salt - 17)) with (length salt) by (unfold blen; lia).
    rewrite header_drop, header_take by (rewrite ?le_length; reflexivity). rewrite take_0, drop_0. rewrite take_app_alt by (rewrite repeat_length; reflexivity). rewrite repeat_length, Nat.min_id, firstn_all.
    replace (17 + 0 + length salt)%nat with (17 + length salt)%nat by lia. rewrite header_drop by (rewrite ?le_length; reflexivity). rewrite drop_app_alt by (rewrite repeat_length; reflexivity).
    unfold header. cbn [app]. rewrite <- !app_assoc. reflexivity. }
  rewrite C. cbn [rbind]. rewrite (u64_id (17 + blen salt)) by (unfold is_u64; lia). rewrite (u64_id (blen hash + (17 + blen salt))) by (unfold is_u64; lia).
  rewrite header_put8_9 by (rewrite ?le_length; reflexivity). cbn [rbind].
  replace (blen hash + (17 + blen salt)) with (17 + blen salt + blen hash) by lia.
  rewrite (header_copy param _ _ (repeat 0 (length hash)) hash salt) by (rewrite ?le_length, ?repeat_length; reflexivity).
  unfold record. replace (17 + 0 + blen salt) with (17 + blen salt) by lia. reflexivity.
Qed.
Lemma record_facts param salt hash t : 17 + blen salt + blen hash + blen t < 2^63 -> let s := record param salt hash ++ t in
  ph_validate s = Ret true /\ ph_param s = Ret param /\ ph_salt s = Ret salt /\ ph_hash s = Ret hash /\ blen (record param salt hash) = 17 + blen salt + blen hash.
Proof.
  intros H. cbv zeta. assert (B1 : 0 <= blen salt) by (unfold blen; lia). assert (B2 : 0 <= blen hash) by (unfold blen; lia). assert (B3 : 0 <= blen t) by (unfold blen; lia).
  assert (E : record param salt hash ++ t = header param (le 8 (17 + blen salt)) (le 8 (17 + blen salt + blen hash)) (salt ++ hash ++ t)).
  { unfold record, header. cbn [app]. rewrite <- !app_assoc. reflexivity. }
  rewrite E. destruct (header_reads param (le 8 (17 + blen salt)) (le 8 (17 + blen salt + blen hash)) (salt ++ hash ++ t)) as (R1 & [x R2] & [y R3] & R4 & R5 & R6);
    try (apply le_length); try (apply le_bytes).
  rewrite unle_le in R4 by (change (256 ^ Z.of_nat 8) with (2^64); lia). rewrite unle_le in R5 by (change (256 ^ Z.of_nat 8) with (2^64); lia).
  assert (Lt : blen (salt ++ hash ++ t) = blen salt + blen hash + blen t) by (unfold blen; rewrite !app_length; lia). rewrite Lt in R6.
  split; [|split; [|split; [|split]]].
  - unfold ph_validate. rewrite R6. destruct (Z.ltb_spec (17 + (blen salt + blen hash + blen t)) 17); [lia|]. rewrite R3. cbn [rbind]. rewrite R4. cbn [rbind]. rewrite R5. cbn [rbind].
    rewrite u64_id by (unfold is_u64; lia). destruct (Z.leb_spec 17 (17 + blen salt)); [|lia]. destruct (Z.leb_spec (17 + blen salt) (17 + blen salt + blen hash)); [|lia].
    destruct (Z.leb_spec (17 + blen salt + blen hash) (17 + (blen salt + blen hash + blen t))); [reflexivity|lia].
  - exact R1.
  - unfold ph_salt. rewrite R2. cbn [rbind]. rewrite R4. cbn [rbind]. rewrite sub_ok by (rewrite ?R6; lia). f_equal. change (Z.to_nat 17) with (17 + 0)%nat. rewrite header_drop by apply le_length. cbn [drop].
    replace (Z.to_nat (17 + blen salt - 17)) with (length salt) by (unfold blen; lia). apply take_app.
  - unfold ph_hash. rewrite R3. cbn [rbind]. rewrite R4. cbn [rbind]. rewrite R5. cbn [rbind]. rewrite sub_ok by (rewrite ?R6; lia). f_equal.
    replace (Z.to_nat (17 + blen salt)) with (17 + length salt)%nat by (unfold blen; lia). rewrite header_drop by apply le_length. rewrite drop_app.
    replace (Z.to_nat (17 + blen salt + blen hash - (17 + blen salt))) with (length hash) by (unfold blen; lia). apply take_app.
  - unfold record, blen. rewrite header_length by apply le_length. rewrite app_length. unfold blen in *. lia.
Qed.
(** every accepted byte string is a record, and something after it *)
Lemma validate_record s : Forall is_byte s -> blen s < 2^63 -> ph_validate s = Ret true ->
  exists param salt hash t, s = record param salt hash ++ t /\ 17 + blen salt + blen hash + blen t < 2^63.
Proof.
  intros Hb Hl V. unfold ph_validate in V. destruct (Z.ltb_spec (blen s) 17) as [L|L]; [discriminate|].
  destruct (header_split s L) as (p & a & b & t & -> & La & Lb). unfold header in Hb. apply Forall_cons in Hb as [_ Hb]. apply Forall_app in Hb as [Ha Hb]. apply Forall_app in Hb as [Hb _].
  destruct (header_reads p a b t La Lb Ha Hb) as (R1 & _ & [y R3] & R4 & R5 & R6). rewrite R3 in V. cbn [rbind] in V. rewrite R4 in V. cbn [rbind] in V. rewrite R5 in V. cbn [rbind] in V. injection V as V.
  rewrite R6 in *. rewrite u64_id in V by (unfold is_u64, blen in *; lia). rewrite !andb_true_iff, !Z.leb_le in V. destruct V as [[V1 V2] V3].
  assert (B : 0 <= blen t) by (unfold blen; lia).
  set (salt := take (Z.to_nat (unle a - 17)) t). set (hash := take (Z.to_nat (unle b - unle a)) (drop (Z.to_nat (unle a - 17)) t)).
  assert (Ls : blen salt = unle a - 17) by (unfold salt, blen in *; rewrite take_length; lia).
  assert (Lh : blen hash = unle b - unle a) by (unfold hash, blen in *; rewrite take_length, drop_length; lia).
  exists p, salt, hash, (drop (Z.to_nat (unle b - 17)) t). split.
  - unfold record, header. cbn [app]. f_equal. rewrite Ls, Lh. replace (17 + (unle a - 17)) with (unle a) by lia. replace (unle a + (unle b - unle a)) with (unle b) by lia.
    pose proof (le_unle a Ha) as Ea. pose proof (le_unle b Hb) as Eb. rewrite La in Ea. rewrite Lb in Eb. rewrite Ea, Eb. rewrite <- !app_assoc. f_equal. f_equal.
    unfold salt, hash. rewrite <- (take_drop (Z.to_nat (unle a - 17)) t) at 1. f_equal. rewrite <- (take_drop (Z.to_nat (unle b - unle a)) (drop (Z.to_nat (unle a - 17)) t)) at 1. f_equal. rewrite drop_drop. f_equal. lia.
  - assert (blen (drop (Z.to_nat (unle b - 17)) t) = blen t - (unle b - 17)) by (unfold blen in *; rewrite drop_length; lia). lia.
Qed.
Lemma validate_total s : Forall is_byte s -> blen s < 2^63 -> exists b, ph_validate s = Ret b.
Proof.
  intros Hb Hl. unfold ph_validate. destruct (Z.ltb_spec (blen s) 17) as [L|L]; [eexists; reflexivity|].
  destruct (header_split s L) as (p & a & b & t & -> & La & Lb). unfold header in Hb. apply Forall_cons in Hb as [_ Hb]. apply Forall_app in Hb as [Ha Hb]. apply Forall_app in Hb as [Hb _].
  destruct (header_reads p a b t La Lb Ha Hb) as (R1 & _ & [y R3] & R4 & R5 & R6). rewrite R3. cbn [rbind]. rewrite R4. cbn [rbind]. rewrite R5. cbn [rbind]. eexists. reflexivity.
Qed.
(** *** Base64 *)
Lemma dec_enc i : 0 <= i < 64 -> dec_char (enc_char i) = Some i /\ not_break (enc_char i) = true.
Proof.
  intros H. unfold enc_char. destruct (Z.ltb_spec i 26); [|destruct (Z.ltb_spec i 52); [|destruct (Z.ltb_spec i 62); [|destruct (Z.eqb_spec i 62)]]].
  all: unfold dec_char, not_break.
  all: try (assert (i = 63) as -> by lia; split; reflexivity). all: try (subst i; split; reflexivity).
  - destruct (Z.leb_spec 65 (65 + i)); [|lia]. destruct (Z.leb_spec (65 + i) 90); [|lia]. destruct (Z.eqb_spec (65 + i) 10); [lia|]. destruct (Z.eqb_spec (65 + i) 13); [lia|]. cbn. split; [f_equal; lia|reflexivity].
  - destruct (Z.leb_spec 65 (97 + (i - 26))); [|lia]. destruct (Z.leb_spec (97 + (i - 26)) 90); [lia|]. destruct (Z.leb_spec 97 (97 + (i - 26))); [|lia]. destruct (Z.leb_spec (97 + (i - 26)) 122); [|lia].
    destruct (Z.eqb_spec (97 + (i - 26)) 10); [lia|]. destruct (Z.eqb_spec (97 + (i - 26)) 13); [lia|]. cbn [andb negb orb]. split; [f_equal; lia|reflexivity].
  - destruct (Z.leb_spec 65 (48 + (i - 52))); [lia|]. destruct (Z.leb_spec 97 (48 + (i - 52))); [lia|]. destruct (Z.leb_spec 48 (48 + (i - 52))); [|lia]. destruct (Z.leb_spec (48 + (i - 52)) 57); [|lia].
    destruct (Z.eqb_spec (48 + (i - 52)) 10); [lia|]. destruct (Z.eqb_spec (48 + (i - 52)) 13); [lia|]. cbn [andb negb orb]. split; [f_equal; lia|reflexivity].
Qed.
(** the numbers behind the characters *)
Fixpoint six (s : bytes) : bytes :=
  match s with
  | a :: b :: c :: r => let v := a * 65536 + b * 256 + c in (v / 262144) :: (v / 4096 mod 64) :: (v / 64 mod 64) :: (v mod 64) :: six r
  | [a; b] => let v := a * 65536 + b * 256 in [v / 262144; v / 4096 mod 64; v / 64 mod 64]
  | [a] => let v := a * 65536 in [v / 262144; v / 4096 mod 64]
  | [] => []
  end.
Lemma bytes3_ind (P : bytes -> Prop) : P [] -> (forall a, P [a]) -> (forall a b, P [a; b]) -> (forall a b c r, P r -> P (a :: b :: c :: r)) -> forall s, P s.
Proof.
  intros H0 H1 H2 H3 s. assert (G : P s /\ (forall a, P (a :: s)) /\ (forall a b, P (a :: b :: s))); [|exact (proj1 G)].
  induction s as [|x s (IH1 & IH2 & IH3)]; [split; [exact H0|]; split; [exact H1|exact H2]|]. split; [apply IH2|]. split; [intros a; apply IH3|]. intros a b. apply H3. exact IH1.
Qed.
Ltac zm := Z.div_mod_to_equations; lia.
Lemma six_range s : Forall is_byte s -> Forall (fun i => 0 <= i < 64) (six s).
Proof.
  induction s as [|a|a b|a b c r IH] using bytes3_ind; intros H; cbn [six]; [constructor| | |];
    repeat (apply Forall_cons in H; let h := fresh in destruct H as [h H]; unfold is_byte in h).
  - repeat constructor; zm.
  - repeat constructor; zm.
  - constructor; [zm|]. constructor; [zm|]. constructor; [zm|]. constructor; [zm|]. apply IH. exact H.
Qed.
Lemma encode_six s : b64_encode s = map enc_char (six s).
Proof. induction s as [|a|a b|a b c r IH] using bytes3_ind; cbn [six b64_encode map]; try reflexivity. rewrite IH. reflexivity. Qed.
Lemma groups_six s : Forall is_byte s -> b64_groups (six s) = Some s.
Proof.
  induction s as [|a|a b|a b c r IH] using bytes3_ind; intros H; cbn [six b64_groups]; [reflexivity| | |];
    repeat (apply Forall_cons in H; let h := fresh in destruct H as [h H]; unfold is_byte in h).
  - f_equal. f_equal. zm.
  - f_equal. f_equal; [zm|]. f_equal. zm.
  - rewrite IH by exact H. f_equal. f_equal; [zm|]. f_equal; [zm|]. f_equal. zm.
Qed.
Lemma decode_encode s : Forall is_byte s -> b64_decode (b64_encode s) = Some s.
Proof.
  intros H. rewrite encode_six. unfold b64_decode. pose proof (six_range s H) as R.
  assert (F : List.filter not_break (map enc_char (six s)) = map enc_char (six s)).
  { induction R as [|i l Hi _ IH]; [reflexivity|]. cbn [map List.filter]. rewrite (proj2 (dec_enc i Hi)), IH. reflexivity. }
  rewrite F. assert (M : mapM dec_char (map enc_char (six s)) = Some (six s)).
  { clear F. induction R as [|i l Hi _ IH]; [reflexivity|]. cbn [map mapM]. rewrite (proj1 (dec_enc i Hi)). cbn. cbn in IH. rewrite IH. reflexivity. }
  rewrite M. apply groups_six. exact H.
Qed.
