(** bcryptx on the text of hashes (C135). *)
From Verif Require Import Base PassModel PassProofs BcryptModel BcryptProps BcryptRecModel.
Local Open Scope Z.

Lemma bc_encode_six s : bc_encode s = map bc_char (six s).
Proof. induction s as [|a|a b|a b c r IH] using bytes3_ind; cbn [six bc_encode map]; try reflexivity. rewrite IH. reflexivity. Qed.
Lemma bc_val_char i : 0 <= i < 64 -> bc_val (bc_char i) = Some i /\ not_break (bc_char i) = true /\ 46 <= bc_char i <= 122.
Proof.
  intros H. assert (E : In i (map Z.of_nat (seq 0 64))).
  { apply in_map_iff. exists (Z.to_nat i). split; [lia|]. apply in_seq. lia. }
  revert i E H. apply (proj1 (List.Forall_forall (fun i => 0 <= i < 64 -> bc_val (bc_char i) = Some i /\ not_break (bc_char i) = true /\ 46 <= bc_char i <= 122) _)).
  cbn [seq map]. repeat (constructor; [intros _; vm_compute; repeat split; try reflexivity; intros X; discriminate X|]). constructor.
Qed.
Lemma six_length s : length (six s) = (length s + (length s + 2) / 3)%nat.
Proof.
  induction s as [|a|a b|a b c r IH] using bytes3_ind; try reflexivity. cbn [six length]. rewrite IH.
  replace (S (S (S (length r))) + 2)%nat with (length r + 2 + 1 * 3)%nat by lia. rewrite Nat.div_add by lia. lia.
Qed.
Lemma bc_decode_encode s : Forall is_byte s -> (length s mod 3 = 1)%nat -> bc_decode_salt (bc_encode s) = Some s.
Proof.
  intros H L. rewrite bc_encode_six. unfold bc_decode_salt. pose proof (six_range s H) as R.
  assert (F : List.filter not_break (map bc_char (six s)) = map bc_char (six s)).
  { clear L. induction R as [|i l Hi _ IH]; [reflexivity|]. cbn [map List.filter]. rewrite (proj1 (proj2 (bc_val_char i Hi))), IH. reflexivity. }
  rewrite F. assert (M : mapM bc_val (map bc_char (six s)) = Some (six s)).
  { clear F L. induction R as [|i l Hi _ IH]; [reflexivity|]. cbn [map mapM]. rewrite (proj1 (bc_val_char i Hi)). cbn. cbn in IH. rewrite IH. reflexivity. }
  rewrite M. replace (length (six s) mod 4 =? 2)%nat with true; [apply groups_six; exact H|]. symmetry. apply Nat.eqb_eq. rewrite six_length.
  pose proof (Nat.div_mod (length s) 3 ltac:(lia)) as D. set (q := (length s / 3)%nat) in *. rewrite L in D. rewrite D. replace (3 * q + 1 + 2)%nat with ((q + 1) * 3)%nat by lia. rewrite Nat.div_mul by lia.
  replace (3 * q + 1 + (q + 1))%nat with (2 + q * 4)%nat by lia. rewrite Nat.mod_add by lia. reflexivity.
Qed.
Lemma bc_encode_length s : length (bc_encode s) = (length s + (length s + 2) / 3)%nat.
Proof. rewrite bc_encode_six, map_length. apply six_length. Qed.
Lemma bc_encode_nonzero s : Forall is_byte s -> Forall (fun c => 46 <= c <= 122) (bc_encode s).
Proof. intros H. rewrite bc_encode_six. apply Forall_map. apply (Forall_impl _ _ _ (six_range s H)). intros i Hi. apply bc_val_char. exact Hi. Qed.

(** what Hash prints: the version, the cost, the salt and 31 bytes of the digest, zeros if there are fewer *)
Definition version_text (major minor : Z) : bytes := [36; major] ++ (if minor =? 0 then [] else [minor]) ++ [36].
Lemma bc_copy_pre (pre z src : bytes) n : n = length pre -> bc_copy (pre ++ z) n src = pre ++ take (Nat.min (length z) (length src)) src ++ drop (Nat.min (length z) (length src)) z.
Proof.
  intros ->. unfold bc_copy. rewrite app_length. replace (length pre + length z - length pre)%nat with (length z) by lia. rewrite take_app, drop_app_ge by lia. f_equal. f_equal. f_equal. lia.
Qed.
Lemma padded (h : bytes) m : (31 <= m)%nat -> let k := Nat.min m (length h) in take 31 (take k h ++ drop k (repeat 0 m)) = take 31 (h ++ repeat 0 31).
Proof.
  intros Hm k. apply list_eq. intros i. destruct (decide (i < 31)%nat) as [Hi|Hi]; [|rewrite !lookup_take_ge by lia; reflexivity]. rewrite !lookup_take by exact Hi.
  assert (Lk : length (take k h) = k) by (rewrite take_length; unfold k; lia). destruct (decide (i < length h)%nat) as [L|L].
  - rewrite !lookup_app_l by (rewrite ?Lk; unfold k; lia). apply lookup_take. unfold k. lia.
  - rewrite !lookup_app_r by (rewrite ?Lk; unfold k; lia). rewrite lookup_drop, Lk. assert (Z : forall a b, (a < b)%nat -> repeat 0 b !! a = Some 0).
    { clear. intros a b. revert a. induction b as [|b IH]; intros a H; [lia|]. destruct a; [reflexivity|]. apply (IH a). lia. }
    rewrite !Z by (unfold k; lia). reflexivity.
Qed.
Lemma hashed_text_eq h s c major minor : length s = 22%nat ->
  hashed_text (Hashed h s c major minor) = version_text major minor ++ two_digits c ++ [36] ++ s ++ take 31 (h ++ repeat 0 31).
Proof.
  intros L. do 22 (destruct s as [|? s]; [discriminate L|]). destruct s; [|discriminate L]. clear L.
  unfold hashed_text, version_text, two_digits. cbn [h_hash h_salt h_cost h_major h_minor]. generalize (48 + c / 10) (48 + c mod 10). intros t1 t2.
  destruct (minor =? 0).
  - match goal with |- take ?n (bc_copy ?a ?k h) = _ => let a' := eval vm_compute in (take 28 a) in replace a with (a' ++ repeat 0 32) by reflexivity end.
    rewrite bc_copy_pre by reflexivity. rewrite repeat_length. match goal with |- take ?n (?p ++ ?q) = _ => change n with (length p + 31)%nat; rewrite take_add_app by reflexivity end. rewrite padded by lia. reflexivity.
  - match goal with |- take ?n (bc_copy ?a ?k h) = _ => let a' := eval vm_compute in (take 29 a) in replace a with (a' ++ repeat 0 31) by reflexivity end.
    rewrite bc_copy_pre by reflexivity. rewrite repeat_length. match goal with |- take ?n (?p ++ ?q) = _ => change n with (length p + 31)%nat; rewrite take_add_app by reflexivity end. rewrite padded by lia. reflexivity.
Qed.
(** which texts newFromHash takes, and what it makes of them *)
Definition cost_text (a b c : Z) : Prop :=
  (a = 43 /\ 48 <= b <= 57 /\ c = b - 48 \/ 48 <= a <= 57 /\ 48 <= b <= 57 /\ c = 10 * (a - 48) + (b - 48)) /\ 4 <= c <= 31.
Lemma bc_atoi_exact a b c : bc_atoi a b = Some c /\ bc_check_cost c = true <-> cost_text a b c.
Proof.
  unfold bc_atoi, bc_digit, bc_check_cost, cost_text. rewrite andb_true_iff, !Z.leb_le.
  destruct (Z.eqb_spec a 43) as [->|]; [|destruct (Z.eqb_spec a 45) as [->|]].
  all: repeat match goal with |- context [(?x <=? ?y)] => destruct (Z.leb_spec x y); cbn [andb] end.
  all: split; [intros [X ?]; first [discriminate X|injection X as <-]; lia|intros ?; try lia]; (split; [f_equal|]); lia.
Qed.
Lemma new_from_hash_exact t p : new_from_hash t = Some p <->
  exists m r0 a b sep, t = [36; h_major p; m] ++ r0 ++ [a; b; sep] ++ h_salt p ++ h_hash p /\ h_major p <= 50 /\
    (m = 36 /\ r0 = [] /\ h_minor p = 0 \/ m <> 36 /\ m = h_minor p /\ exists x, r0 = [x]) /\ cost_text a b (h_cost p) /\ length (h_salt p) = 22%nat /\ 59 <= blen t.
Proof.
  unfold new_from_hash. split.
  - destruct (Z.ltb_spec (blen t) 59) as [|L]; [discriminate|]. destruct t as [|p0 [|major [|m r]]]; try discriminate.
    destruct (Z.eqb_spec p0 36) as [->|]; [|discriminate]. cbn [negb]. destruct (Z.ltb_spec 50 major); [discriminate|].
    assert (B : forall q r0 minor, (m = 36 /\ r0 = [] /\ minor = 0 \/ m <> 36 /\ m = minor /\ exists x, r0 = [x]) -> r = r0 ++ q ->
      match q with a :: b :: _ :: r => match bc_atoi a b with Some c => if bc_check_cost c then Some (Hashed (drop 22 r) (take 22 r) c major minor) else None | None => None end | _ => None end = Some p ->
      exists m0 r0 a b sep, 36 :: major :: m :: r = [36; h_major p; m0] ++ r0 ++ [a; b; sep] ++ h_salt p ++ h_hash p /\ h_major p <= 50 /\
        (m0 = 36 /\ r0 = [] /\ h_minor p = 0 \/ m0 <> 36 /\ m0 = h_minor p /\ exists x, r0 = [x]) /\ cost_text a b (h_cost p) /\ length (h_salt p) = 22%nat /\ 59 <= blen (36 :: major :: m :: r)).
    { intros q r0 minor HM HR HQ. destruct q as [|a [|b [|sep q]]]; try discriminate HQ. destruct (bc_atoi a b) as [c|] eqn:A; [|discriminate]. destruct (bc_check_cost c) eqn:C; [|discriminate]. injection HQ as <-. cbn [h_hash h_salt h_cost h_major h_minor].
      exists m, r0, a, b, sep. rewrite take_drop. split; [rewrite HR; reflexivity|]. split; [lia|]. split; [exact HM|]. split; [apply bc_atoi_exact; split; assumption|]. split; [|exact L].
      rewrite take_length. unfold blen in L. rewrite HR in L. cbn [length] in L. rewrite app_length in L. cbn [length] in L. assert (length r0 <= 1)%nat by (destruct HM as [(_ & -> & _)|(_ & _ & x & ->)]; cbn; lia). lia. }
    destruct (Z.eqb_spec m 36) as [->|N]; [apply (B r [] 0); auto|]. destruct r as [|x r]; [discriminate|]. apply (B r [x] m); [|reflexivity]. right. eauto.
  - intros (m & r0 & a & b & sep & -> & HM & HR & HC & HS & HL). destruct p as [h s c major minor]. cbn [h_hash h_salt h_cost h_major h_minor] in *.
    destruct (Z.ltb_spec (blen ([36; major; m] ++ r0 ++ [a; b; sep] ++ s ++ h)) 59) as [|_]; [lia|]. cbn [app]. change (36 =? 36) with true. cbn [negb]. destruct (Z.ltb_spec 50 major); [lia|].
    apply bc_atoi_exact in HC as [C1 C2]. assert (Q : match [a; b; sep] ++ s ++ h with a :: b :: _ :: r => match bc_atoi a b with Some c => if bc_check_cost c then Some (Hashed (drop 22 r) (take 22 r) c major minor) else None | None => None end | _ => None end = Some (Hashed h s c major minor)).
    { cbn [app]. rewrite C1, C2. rewrite take_app_alt, drop_app_alt by (symmetry; exact HS). reflexivity. }
    destruct HR as [(-> & -> & ->)|(N & -> & x & ->)]; [exact Q|]. destruct (Z.eqb_spec minor 36); [done|exact Q].
Qed.
Section rec.
Context (blow : Z -> bytes -> bytes -> bytes).
(** the rounds give 23 bytes *)
Context (BL : forall c s k, length (blow c s k) = 23%nat /\ Forall is_byte (blow c s k)).
Notation enc := (bc_encrypt blow). Notation dec := (bc_decrypt blow).
Notation digest c s k := (bc_encode (blow c s k)).
(** C135: Decrypt accepts exactly these texts for a password: a dollar sign, a version that is
    not above 2 with or without a minor version, any byte, a cost from 4 to 31, any byte, 22
    characters of salt, the 31 characters of the digest of the password, and anything *)
Theorem bcrypt_accepts_exact t pw : dec t pw = (true, None) <->
  exists major version a b sep salt c csalt junk,
    t = [36; major] ++ version ++ [a; b; sep] ++ salt ++ digest c csalt (key_schedule pw) ++ junk /\ major <= 50 /\
    (version = [36] \/ exists minor x, minor <> 36 /\ version = [minor; x]) /\ cost_text a b c /\
    length salt = 22%nat /\ bc_decode_salt salt = Some csalt.
Proof using BL.
  assert (LD : forall c s k, length (digest c s k) = 31%nat) by (intros; rewrite bc_encode_length, (proj1 (BL _ _ _)); reflexivity).
  unfold bc_decrypt, bc_compare, bc_digest. split.
  - destruct (new_from_hash t) as [p|] eqn:N; [|discriminate]. apply new_from_hash_exact in N as (m & r0 & a & b & sep & Et & HM & HR & HC & HS & HL).
    destruct (bc_decode_salt (h_salt p)) as [csalt|] eqn:D; [|discriminate]. case_bool_decide as E; [|discriminate]. intros _.
    rewrite (hashed_text_eq _ (h_salt p)) in E by exact HS. destruct p as [h s c major minor]. cbn [h_hash h_salt h_cost h_major h_minor] in *. rewrite hashed_text_eq in E by exact HS.
    apply app_inv_head in E. apply app_inv_head in E. apply app_inv_head in E. apply app_inv_head in E. rewrite (take_app_alt (digest _ _ _)) in E by (symmetry; apply LD).
    assert (LH : (31 <= length h)%nat).
    { destruct (decide (31 <= length h)%nat) as [|NL]; [assumption|exfalso]. pose proof (bc_encode_nonzero _ (proj2 (BL c csalt (key_schedule pw)))) as NZ. rewrite <- E in NZ.
      assert (Z : take 31 (h ++ repeat 0 31) !! length h = Some 0) by (rewrite lookup_take by lia; rewrite lookup_app_r by lia; rewrite Nat.sub_diag; reflexivity).
      pose proof (Forall_lookup_1 _ _ _ _ NZ Z) as X. cbn in X. lia. }
    rewrite take_app_le in E by exact LH. exists major, (m :: r0), a, b, sep, s, c, csalt, (drop 31 h). split; [|split; [exact HM|split; [|split; [exact HC|split; [exact HS|exact D]]]]].
    + rewrite Et, <- E. rewrite take_drop. reflexivity.
    + destruct HR as [(-> & -> & _)|(N & -> & x & ->)]; [left; reflexivity|right; eauto].
  - intros (major & version & a & b & sep & salt & c & csalt & junk & -> & HM & HV & HC & HS & D).
    set (h := digest c csalt (key_schedule pw) ++ junk). set (minor := match version with [m; _] => m | _ => 0 end).
    assert (N : new_from_hash ([36; major] ++ version ++ [a; b; sep] ++ salt ++ h) = Some (Hashed h salt c major minor)).
    { apply new_from_hash_exact. cbn [h_hash h_salt h_cost h_major h_minor]. exists (default 0 (head version)), (drop 1 version), a, b, sep.
      assert (LL : 59 <= blen ([36; major] ++ version ++ [a; b; sep] ++ salt ++ h)).
      { unfold blen, h. rewrite !app_length, LD, HS. cbn [length]. destruct HV as [->|(mi & x & _ & ->)]; cbn [length]; lia. }
      destruct HV as [->|(mi & x & Nm & ->)]; cbn; (split; [reflexivity|]); (split; [exact HM|]); (split; [|split; [exact HC|split; [exact HS|exact LL]]]); [left; auto|right; eauto]. }
    rewrite N. cbn [h_hash h_salt h_cost h_major h_minor]. rewrite D. rewrite bool_decide_true; [reflexivity|]. rewrite !hashed_text_eq by exact HS. do 4 f_equal. unfold h.
    rewrite take_app_le by (rewrite app_length, LD; lia). rewrite (take_app_alt (digest _ _ _) junk) by (symmetry; apply LD). rewrite take_app_alt by (symmetry; apply LD). reflexivity.
Qed.
(** Encrypt writes one of them *)
Theorem bcrypt_text_exact salt pw : blen pw <= 72 -> length salt = 16%nat -> Forall is_byte salt ->
  enc (Some salt) pw = inl ([36; 50; 97; 36; 49; 48; 36] ++ bc_encode salt ++ digest 10 salt (key_schedule pw)).
Proof using BL.
  intros H L B. unfold bc_encrypt. destruct (Z.ltb_spec 72 (blen pw)); [lia|]. unfold bc_generate, bc_digest. rewrite bc_decode_encode by (assumption || (rewrite L; reflexivity)).
  f_equal. rewrite hashed_text_eq by (rewrite bc_encode_length, L; reflexivity). rewrite take_app_alt; [reflexivity|]. rewrite bc_encode_length, (proj1 (BL _ _ _)). reflexivity.
Qed.
(** and Decrypt of it is true exactly if the digests agree: the contract assumed in C82 holds *)
Theorem bcrypt_text_decrypt salt p q : blen p <= 72 -> length salt = 16%nat -> Forall is_byte salt -> exists t, enc (Some salt) p = inl t /\ length t = 60%nat /\
  dec t q = if decide (blow 10 salt (key_schedule p) = blow 10 salt (key_schedule q)) then (true, None) else (false, Some ErrMismatched).
Proof using BL.
  intros H L B. eexists. split; [apply bcrypt_text_exact; assumption|].
  assert (LS : length (bc_encode salt) = 22%nat) by (rewrite bc_encode_length, L; reflexivity).
  assert (LD : forall c s k, length (digest c s k) = 31%nat) by (intros; rewrite bc_encode_length, (proj1 (BL _ _ _)); reflexivity).
  split; [rewrite !app_length, LS, LD; reflexivity|].
  assert (N : new_from_hash ([36; 50; 97; 36; 49; 48; 36] ++ bc_encode salt ++ digest 10 salt (key_schedule p)) = Some (Hashed (digest 10 salt (key_schedule p)) (bc_encode salt) 10 50 97)).
  { apply new_from_hash_exact. cbn [h_hash h_salt h_cost h_major h_minor]. exists 97, [36], 49, 48, 36. split; [reflexivity|]. split; [lia|]. split; [right; split; [discriminate|]; split; [reflexivity|eauto]|]. split; [unfold cost_text; lia|]. split; [exact LS|]. unfold blen. rewrite !app_length, LS, LD. cbn. lia. }
  unfold bc_decrypt, bc_compare, bc_digest. rewrite N. cbn [h_hash h_salt h_cost h_major h_minor]. rewrite bc_decode_encode by (assumption || (rewrite L; reflexivity)).
  rewrite !hashed_text_eq by exact LS. rewrite !take_app_alt by (symmetry; apply LD).
  destruct (decide _) as [E|E].
  - rewrite bool_decide_true; [reflexivity|]. rewrite E. reflexivity.
  - rewrite bool_decide_false; [reflexivity|]. intros X. do 4 apply app_inv_head in X. apply E.
    assert (INJ : forall s s', Forall is_byte s -> Forall is_byte s' -> bc_encode s = bc_encode s' -> s = s').
    { intros s s' Hs Hs' XE. rewrite !bc_encode_six in XE. assert (six s = six s') as X6.
      { pose proof (six_range s Hs) as R. pose proof (six_range s' Hs') as R'. revert XE R'. generalize (six s'). induction R as [|i l Hi _ IH]; intros [|j l'] XE R'; try discriminate XE; [reflexivity|]. cbn in XE. injection XE as X1 X2. apply Forall_cons in R' as [Hj R'].
        f_equal; [|apply IH; assumption]. pose proof (proj1 (bc_val_char i Hi)) as V1. pose proof (proj1 (bc_val_char j Hj)) as V2. congruence. }
      pose proof (groups_six s Hs) as G1. pose proof (groups_six s' Hs') as G2. congruence. }
    apply INJ; [apply BL|apply BL|exact X].
Qed.
(** C135: the text of a hash is not unique: what follows the 60 bytes, the bytes after the
    version and after the cost, and the version may all be changed *)
Theorem bcrypt_text_malleable_refuted salt pw junk x y major minor : blen pw <= 72 -> length salt = 16%nat -> Forall is_byte salt -> major <= 50 -> minor <> 36 ->
  exists s d, enc (Some salt) pw = inl ([36; 50; 97; 36; 49; 48; 36] ++ s ++ d) /\ dec ([36; major; minor; x; 49; 48; y] ++ s ++ d ++ junk) pw = (true, None) /\ dec ([36; major; 36; 49; 48; y] ++ s ++ d ++ junk) pw = (true, None).
Proof using BL.
  intros H L B HM HN. eexists _, _. split; [apply bcrypt_text_exact; assumption|].
  assert (LS : length (bc_encode salt) = 22%nat) by (rewrite bc_encode_length, L; reflexivity).
  assert (D : bc_decode_salt (bc_encode salt) = Some salt) by (apply bc_decode_encode; [assumption|rewrite L; reflexivity]).
  split; apply bcrypt_accepts_exact.
  - exists major, [minor; x], 49, 48, y, (bc_encode salt), 10, salt, junk. split; [reflexivity|]. split; [exact HM|]. split; [right; eauto|]. split; [unfold cost_text; lia|auto].
  - exists major, [36], 49, 48, y, (bc_encode salt), 10, salt, junk. split; [reflexivity|]. split; [exact HM|]. split; [left; auto|]. split; [unfold cost_text; lia|auto].
Qed.
End rec.
Print Assumptions bcrypt_accepts_exact.
Print Assumptions bcrypt_text_exact.
Print Assumptions bcrypt_text_decrypt.
Print Assumptions bcrypt_text_malleable_refuted.
(** rounds that show the cost and the first bytes of the salt and the key *)
Definition toy_blow (c : Z) (s k : bytes) : bytes := (c mod 256) :: map (fun i => nth i s 0 mod 256) (seq 0 11) ++ map (fun i => nth i k 0 mod 256) (seq 0 11).
Example toy_blow_ok c s k : length (toy_blow c s k) = 23%nat /\ Forall is_byte (toy_blow c s k).
Proof.
  split; [reflexivity|]. assert (M : forall z, is_byte (z mod 256)) by (intros z; unfold is_byte; apply Z.mod_pos_bound; lia). unfold toy_blow. constructor; [apply M|]. apply Forall_app. split; apply Forall_map; apply Forall_true; intros; apply M.
Qed.
Example bcrypt_text_case : let salt := repeat 7 16 in exists t, bc_encrypt toy_blow (Some salt) [104; 105] = inl t /\ length t = 60%nat /\ bc_decrypt toy_blow t [104; 105] = (true, None) /\
  bc_decrypt toy_blow t [104; 106] = (false, Some ErrMismatched) /\ bc_decrypt toy_blow (t ++ [33; 33]) [104; 105] = (true, None) /\ bc_decrypt toy_blow (take 59 t) [104; 105] = (false, Some ErrMismatched) /\ bc_decrypt toy_blow (drop 2 t) [104; 105] = (false, Some ErrMalformed).
Proof. eexists. split; [vm_compute; reflexivity|]. repeat split; vm_compute; reflexivity. Qed.
(** each theorem on a case that meets its hypotheses *)
Lemma sevens_bytes n : Forall is_byte (repeat 7 n).
Proof. induction n; constructor; [unfold is_byte; lia|assumption]. Qed.
Example bcrypt_text_exact_case := bcrypt_text_exact toy_blow toy_blow_ok (repeat 7 16) [104; 105] ltac:(discriminate) eq_refl (sevens_bytes 16).
Example bcrypt_text_decrypt_case := bcrypt_text_decrypt toy_blow toy_blow_ok (repeat 7 16) [104; 105] [104; 106] ltac:(discriminate) eq_refl (sevens_bytes 16).
Example bcrypt_accepts_exact_case : exists t, bc_encrypt toy_blow (Some (repeat 7 16)) [104; 105] = inl t /\ exists major version junk, take (2 + length version) t = [36; major] ++ version /\ drop (60 : nat) t = junk.
Proof.
  destruct bcrypt_text_case as (t & H & L & A & _). exists t. split; [exact H|]. apply (bcrypt_accepts_exact toy_blow toy_blow_ok) in A.
  destruct A as (major & version & a & b & sep & salt & c & csalt & junk & -> & _). exists major, version, (drop 60 ([36; major] ++ version ++ [a; b; sep] ++ salt ++ bc_encode (toy_blow c csalt (key_schedule [104; 105])) ++ junk)).
  split; [|reflexivity]. cbn [Nat.add]. rewrite (app_assoc [36; major]). rewrite take_app_le by (rewrite app_length; cbn; lia). apply take_ge. rewrite app_length. cbn. lia.
Qed.
