(** C164: what the encrypting functions of aesx write, by the standards alone: FIPS 180-4 for
    the key, FIPS 197 for the blocks, SP 800-38A for CBC and CTR, SP 800-38D for GCM. *)
From Verif Require Import Base PassModel PassProofs AesModel AesProps AesExact AesCipherModel AesCipherProofs AesCipherProps GhashField ShaSpecProps AesSpecProps.
Local Open Scope Z.

(** *** Specification *)
(** SP 800-38D, 6.3: the first bit of a block, its most significant one, is the coefficient of
    x^0; the product is taken modulo x^128 + x^7 + x^2 + x + 1 *)
Definition pcoef (v n : Z) : bool := (0 <=? n) && (n <? 128) && Z.testbit v (127 - n).
Definition times_modulus (q : Z -> bool) (n : Z) : bool := xorb (q n) (xorb (q (n - 1)) (xorb (q (n - 2)) (xorb (q (n - 7)) (q (n - 128))))).
Definition gcm_product (x y z : Z) : Prop := 0 <= z < 2^128 /\ exists q : Z -> bool, (forall n, q n = true -> 0 <= n < 127) /\
  forall n, foldr xorb false (map (fun i => pcoef x i && pcoef y (n - i)) (seqZ 0 128)) = xorb (pcoef z n) (times_modulus q n).
(** 6.4 *)
Definition is_ghash (h : Z) (x : bytes) (s : Z) : Prop := exists (n : nat) (y : nat -> Z), length x = (16 * n)%nat /\ y 0%nat = 0 /\
  (forall i, (i < n)%nat -> gcm_product (Z.lxor (y i) (value (take 16 (drop (16 * i) x)))) h (y (S i))) /\ s = y n.
(** 7.1: no additional data; a nonce of 12 bytes and the counter 1 hide the tag *)
Definition is_tag (k nonce c t : bytes) : Prop := exists h e s z len,
  is_aes k (repeat 0 16) h /\ is_aes k (nonce ++ [0; 0; 0; 1]) e /\
  (z < 16)%nat /\ (16 | Z.of_nat (length c + z)) /\ length len = 8%nat /\ Forall is_byte len /\ value len = 8 * Z.of_nat (length c) /\
  is_ghash (value h) (c ++ repeat 0 z ++ repeat 0 8 ++ len) s /\
  length t = 16%nat /\ Forall is_byte t /\ value t = Z.lxor s (value e).
(** SP 800-38A, 6.5: byte j is xored with byte j mod 16 of the encrypted counter *)
Definition is_ctr (k : bytes) (counter : nat -> bytes -> Prop) (data c : bytes) : Prop := length c = length data /\
  forall j x, data !! j = Some x -> exists ctr e y, length ctr = 16%nat /\ Forall is_byte ctr /\ counter (j / 16)%nat ctr /\ is_aes k ctr e /\ e !! (j mod 16)%nat = Some y /\ c !! j = Some (Z.lxor x y).
Definition ctr_output (key iv data out : bytes) : Prop := exists k c, is_sha256 key k /\ out = iv ++ c /\
  is_ctr k (fun i ctr => value ctr = (value iv + Z.of_nat i) mod 2^128) data c.
Definition gcm_output (key nonce data out : bytes) : Prop := exists k c t, is_sha256 key k /\ out = nonce ++ c ++ t /\
  is_ctr k (fun i ctr => exists n, ctr = nonce ++ n /\ length n = 4%nat /\ value n = 2 + Z.of_nat i) data c /\ is_tag k nonce c t.
(** 6.2: block i is xored with the block before, the iv for the first, and encrypted *)
Definition cbc_output (key iv data out : bytes) : Prop := exists k, is_sha256 key k /\ length out = (16 + length data)%nat /\ take 16 out = iv /\
  forall i, (16 * (i + 1) <= length data)%nat -> is_aes k (zip_with Z.lxor (take 16 (drop (16 * i) data)) (take 16 (drop (16 * i) out))) (take 16 (drop (16 * (i + 1)) out)).

(** *** The product *)
Lemma pcoef_lxor a b n : pcoef (Z.lxor a b) n = xorb (pcoef a n) (pcoef b n).
Proof. unfold pcoef. rewrite Z.lxor_spec. destruct ((0 <=? n) && (n <? 128)); reflexivity. Qed.
Lemma pcoef_0 n : pcoef 0 n = false.
Proof. unfold pcoef. rewrite Z.bits_0. apply andb_false_r. Qed.
Definition in_modulus (n : Z) : bool := (n =? 0) || (n =? 1) || (n =? 2) || (n =? 7) || (n =? 128).
Lemma reduce_bit i : 0 <= i < 128 -> Z.testbit (225 * 2 ^ 120) i = (i =? 127) || (i =? 126) || (i =? 125) || (i =? 120).
Proof.
  intros Hi. assert (C : forallb (fun i => eqb (Z.testbit (225 * 2 ^ 120) i) ((i =? 127) || (i =? 126) || (i =? 125) || (i =? 120))) (seqZ 0 128) = true) by (vm_compute; reflexivity).
  rewrite forallb_forall in C. apply eqb_prop, (C i), elem_of_list_In, elem_of_seqZ. lia.
Qed.
Lemma X_coef v n : field v -> pcoef v (n - 1) = xorb (pcoef (X v) n) (pcoef v 127 && in_modulus n).
Proof.
  intros Hv. assert (O : pcoef v 127 = Z.odd v) by (unfold pcoef; rewrite <- Z.bit0_odd; reflexivity). rewrite O. unfold X. assert (H : forall i, 0 <= i -> Z.testbit (v / 2) i = Z.testbit v (i + 1)) by (intros i Hi; rewrite Z.div2_bits by exact Hi; reflexivity).
  assert (Top : Z.testbit v 128 = false). { destruct (Z.eq_dec v 0) as [->|]; [apply Z.bits_0|]. apply Z.bits_above_log2; [apply Hv|]. apply Z.log2_lt_pow2; unfold field in Hv; lia. }
  assert (D : pcoef (v / 2) n = (n <? 128) && pcoef v (n - 1)).
  { unfold pcoef. destruct (Z.leb_spec 0 n), (Z.ltb_spec n 128), (Z.leb_spec 0 (n - 1)), (Z.ltb_spec (n - 1) 128); cbn [andb]; try lia; try reflexivity.
    - rewrite H by lia. f_equal. lia.
    - assert (n = 0) as -> by lia. rewrite H by lia. exact Top. }
  assert (B : pcoef v (n - 1) = ((n <? 128) && pcoef v (n - 1)) || ((n =? 128) && Z.odd v)).
  { unfold pcoef. destruct (Z.ltb_spec n 128), (Z.eqb_spec n 128), (Z.leb_spec 0 (n - 1)), (Z.ltb_spec (n - 1) 128); cbn [andb orb]; rewrite ?orb_false_r; try lia; try reflexivity. subst n. rewrite <- Z.bit0_odd. reflexivity. }
  destruct (Z.odd v) eqn:Eo; cbn [andb].
  - rewrite pcoef_lxor, D. rewrite B at 1. assert (M : pcoef (225 * 2 ^ 120) n = (n =? 0) || (n =? 1) || (n =? 2) || (n =? 7)).
    { unfold pcoef. destruct (Z.leb_spec 0 n), (Z.ltb_spec n 128); cbn [andb]; [rewrite reduce_bit by lia|..].
      all: destruct (Z.eqb_spec n 0), (Z.eqb_spec n 1), (Z.eqb_spec n 2), (Z.eqb_spec n 7); try lia; subst; try reflexivity. }
    rewrite M. unfold in_modulus. rewrite andb_true_r. destruct (Z.eqb_spec n 128) as [->|]; [reflexivity|]. rewrite !orb_false_r. destruct ((n <? 128) && pcoef v (n - 1)), ((n =? 0) || (n =? 1) || (n =? 2) || (n =? 7)); reflexivity.
  - rewrite D. rewrite B at 1. rewrite andb_false_r, orb_false_r, xorb_false_r. reflexivity.
Qed.
(** sums of n terms *)
Definition sum (n : nat) (f : Z -> bool) : bool := foldr xorb false (map f (seqZ 0 (Z.of_nat n))).
Lemma sum_0 f : sum 0 f = false. Proof. reflexivity. Qed.
Lemma sum_cons n f : sum (S n) f = xorb (f 0) (sum n (fun i => f (i + 1))).
Proof.
  unfold sum. rewrite Nat2Z.inj_succ, seqZ_cons by lia. cbn [map foldr]. f_equal. replace (Z.pred (Z.succ (Z.of_nat n))) with (Z.of_nat n) by lia. change (Z.succ 0) with (1 + 0). rewrite <- fmap_add_seqZ, map_map. f_equal. apply map_ext. intros i. f_equal. lia.
Qed.
Lemma sum_ext n f g : (forall i, 0 <= i < Z.of_nat n -> f i = g i) -> sum n f = sum n g.
Proof. intros H. unfold sum. f_equal. apply map_ext_in. intros i Hi. rewrite <- elem_of_list_In, elem_of_seqZ in Hi. apply H. lia. Qed.
Lemma sum_xor n f g : sum n (fun i => xorb (f i) (g i)) = xorb (sum n f) (sum n g).
Proof. unfold sum. induction (seqZ 0 (Z.of_nat n)) as [|i l IH]; cbn [map foldr]; [reflexivity|]. rewrite IH. destruct (f i), (g i), (foldr xorb false (map f l)), (foldr xorb false (map g l)); reflexivity. Qed.
Lemma sum_point n f j : (forall i, 0 <= i < Z.of_nat n -> i <> j -> f i = false) -> sum n f = (0 <=? j) && (j <? Z.of_nat n) && f j.
Proof.
  revert f j. induction n as [|n IH]; intros f j H.
  - rewrite sum_0. destruct (Z.leb_spec 0 j), (Z.ltb_spec j (Z.of_nat 0)); try reflexivity. lia.
  - rewrite sum_cons, (IH _ (j - 1)) by (intros i Hi N; apply H; lia). rewrite Z.sub_add. destruct (Z.eq_dec j 0) as [->|N]; [replace (0 <=? 0 - 1) with false by reflexivity; rewrite xorb_false_r; destruct (Z.ltb_spec 0 (Z.of_nat (S n))); [reflexivity|lia]|].
    rewrite (H 0) by lia. destruct (Z.leb_spec 0 j), (Z.leb_spec 0 (j - 1)), (Z.ltb_spec j (Z.of_nat (S n))), (Z.ltb_spec (j - 1) (Z.of_nat n)); try lia; cbn; destruct (f j); reflexivity.
Qed.
Lemma modulus_sum n (f : Z -> bool) m : sum n (fun j => f j && in_modulus (m - j)) = times_modulus (fun j => (0 <=? j) && (j <? Z.of_nat n) && f j) m.
Proof.
  unfold times_modulus. assert (E : forall j, in_modulus (m - j) = xorb (j =? m) (xorb (j =? m - 1) (xorb (j =? m - 2) (xorb (j =? m - 7) (j =? m - 128))))).
  { intros j. unfold in_modulus. destruct (Z.eqb_spec (m - j) 0), (Z.eqb_spec (m - j) 1), (Z.eqb_spec (m - j) 2), (Z.eqb_spec (m - j) 7), (Z.eqb_spec (m - j) 128), (Z.eqb_spec j m), (Z.eqb_spec j (m - 1)), (Z.eqb_spec j (m - 2)), (Z.eqb_spec j (m - 7)), (Z.eqb_spec j (m - 128)); try lia; reflexivity. }
  assert (P : forall a, sum n (fun j => f j && (j =? a)) = (0 <=? a) && (a <? Z.of_nat n) && f a).
  { intros a. rewrite (sum_point n _ a); [rewrite Z.eqb_refl, andb_true_r; reflexivity|]. intros i _ N. apply Z.eqb_neq in N. rewrite N. apply andb_false_r. }
  rewrite <- !P, <- !sum_xor. apply sum_ext. intros i _. rewrite E. destruct (f i); reflexivity.
Qed.
Lemma G_product n : forall x v, field v -> exists q : Z -> bool, (forall m, q m = true -> 0 <= m < Z.of_nat n - 1) /\
  forall m, sum n (fun j => Z.testbit x (Z.of_nat n - 1 - j) && pcoef v (m - j)) = xorb (pcoef (G n x v) m) (times_modulus q m).
Proof.
  induction n as [|n IH]; intros x v Hv.
  - exists (fun _ => false). split; [discriminate|]. intros m. rewrite sum_0. cbn [G]. rewrite pcoef_0. reflexivity.
  - destruct (IH x (X v) (field_X v Hv)) as (q & Q1 & Q2). set (q' := fun j => (0 <=? j) && (j <? Z.of_nat n) && (Z.testbit x (Z.of_nat n - 1 - j) && pcoef v 127)). exists (fun j => xorb (q j) (q' j)). split.
    { intros m Hm. unfold q' in Hm. destruct (q m) eqn:Em; [apply Q1 in Em; lia|]. destruct (Z.leb_spec 0 m), (Z.ltb_spec m (Z.of_nat n)); try discriminate. lia. }
    intros m. rewrite sum_cons. cbn [G]. rewrite pcoef_lxor. replace (Z.of_nat (S n) - 1 - 0) with (Z.of_nat n) by lia. rewrite Z.sub_0_r.
    rewrite (sum_ext n _ (fun j => xorb (Z.testbit x (Z.of_nat n - 1 - j) && pcoef (X v) (m - j)) ((Z.testbit x (Z.of_nat n - 1 - j) && pcoef v 127) && in_modulus (m - j)))).
    2: { intros j Hj. replace (Z.of_nat (S n) - 1 - (j + 1)) with (Z.of_nat n - 1 - j) by lia. replace (m - (j + 1)) with (m - j - 1) by lia. rewrite (X_coef v (m - j) Hv). destruct (Z.testbit x _), (pcoef (X v) _), (pcoef v 127), (in_modulus _); reflexivity. }
    rewrite sum_xor, Q2, modulus_sum. fold q'. assert (C : pcoef (if Z.testbit x (Z.of_nat n) then v else 0) m = Z.testbit x (Z.of_nat n) && pcoef v m) by (destruct (Z.testbit x _); [reflexivity|apply pcoef_0]). rewrite C.
    assert (T : times_modulus (fun j => xorb (q j) (q' j)) m = xorb (times_modulus q m) (times_modulus q' m)).
    { unfold times_modulus. destruct (q m), (q (m - 1)), (q (m - 2)), (q (m - 7)), (q (m - 128)), (q' m), (q' (m - 1)), (q' (m - 2)), (q' (m - 7)), (q' (m - 128)); reflexivity. }
    rewrite T. change (fun j => (0 <=? j) && (j <? Z.of_nat n) && (Z.testbit x (Z.of_nat n - 1 - j) && pcoef v 127)) with q'. destruct (Z.testbit x (Z.of_nat n) && pcoef v m), (pcoef (G n x (X v)) m), (times_modulus q m), (times_modulus q' m); reflexivity.
Qed.
Lemma product_ok x y : field y -> gcm_product x y (mul x y).
Proof.
  intros Hy. split; [apply field_mul, Hy|]. destruct (G_product 128 x y Hy) as (q & Q1 & Q2). exists q. split; [intros n Hn; apply Q1 in Hn; lia|]. intros n. rewrite <- Q2. change (foldr xorb false (map ?f (seqZ 0 128))) with (sum 128 f). apply sum_ext. intros i Hi. unfold pcoef at 1. destruct (Z.leb_spec 0 i), (Z.ltb_spec i 128); try lia. cbn [andb]. do 2 f_equal; lia.
Qed.
Lemma gcm_product_unique x y z z' : gcm_product x y z -> gcm_product x y z' -> z = z'.
Proof.
  intros [Hz (q & Q1 & Q2)] [Hz' (q' & Q1' & Q2')]. set (d := fun n => xorb (q n) (q' n)).
  assert (T : forall n, times_modulus d n = xorb (pcoef z n) (pcoef z' n)).
  { intros n. specialize (Q2 n). rewrite Q2' in Q2. assert (E : times_modulus d n = xorb (times_modulus q n) (times_modulus q' n)) by (unfold times_modulus, d; destruct (q n), (q (n - 1)), (q (n - 2)), (q (n - 7)), (q (n - 128)), (q' n), (q' (n - 1)), (q' (n - 2)), (q' (n - 7)), (q' (n - 128)); reflexivity).
    rewrite E. destruct (pcoef z n), (pcoef z' n), (times_modulus q n), (times_modulus q' n); try reflexivity; discriminate. }
  assert (Out : forall n, n < 0 \/ 127 <= n -> d n = false).
  { intros n Hn. unfold d. destruct (q n) eqn:A; [apply Q1 in A; lia|]. destruct (q' n) eqn:A'; [apply Q1' in A'; lia|]. reflexivity. }
  assert (D : forall k n, 127 - Z.of_nat k <= n -> d n = false).
  { induction k as [|k IH]; intros n Hn; [apply Out; lia|]. destruct (Z.lt_ge_cases n 0); [apply Out; lia|]. specialize (T (n + 128)). unfold times_modulus in T. rewrite (IH (n + 128)), (IH (n + 128 - 1)), (IH (n + 128 - 2)), (IH (n + 128 - 7)) in T by lia. replace (n + 128 - 128) with n in T by lia. rewrite !xorb_false_l in T. rewrite T. unfold pcoef. destruct (Z.ltb_spec (n + 128) 128); [lia|]. rewrite andb_false_r. reflexivity. }
  assert (D0 : forall n, d n = false) by (intros n; destruct (Z.lt_ge_cases n 0); [apply Out; lia|apply (D 127%nat); lia]).
  apply Z.bits_inj'. intros i Hi. destruct (Z.lt_ge_cases i 128).
  - specialize (T (127 - i)). unfold times_modulus in T. rewrite !D0 in T. cbn [xorb] in T. unfold pcoef in T. replace (127 - (127 - i)) with i in T by lia. destruct (Z.leb_spec 0 (127 - i)), (Z.ltb_spec (127 - i) 128); try lia. cbn [andb] in T. destruct (Z.testbit z i), (Z.testbit z' i); try reflexivity; discriminate.
  - assert (H0 : forall v, 0 <= v < 2^128 -> Z.testbit v i = false) by (intros v Hv; rewrite <- (Z.mod_small v (2^128)) by exact Hv; apply Z.mod_pow2_bits_high; lia). rewrite !H0 by assumption. reflexivity.
Qed.

(** *** GHASH *)
Fixpoint run (n : nat) (h y : Z) (x : bytes) : Z := match n with O => y | S n => run n h (mul (Z.lxor y (value (take 16 x))) h) (drop 16 x) end.
Lemma run_S n : forall h y x, run (S n) h y x = mul (Z.lxor (run n h y x) (value (take 16 (drop (16 * n) x)))) h.
Proof.
  induction n as [|n IH]; intros h y x; [reflexivity|]. change (run (S (S n)) h y x) with (run (S n) h (mul (Z.lxor y (value (take 16 x))) h) (drop 16 x)). rewrite IH, drop_drop. change (run (S n) h y x) with (run n h (mul (Z.lxor y (value (take 16 x))) h) (drop 16 x)). replace (16 * S n)%nat with (16 + 16 * n)%nat by lia. reflexivity.
Qed.
Lemma run_is h x n : field h -> length x = (16 * n)%nat -> is_ghash h x (run n h 0 x).
Proof.
  intros Hh L. exists n, (fun i => run i h 0 x). split; [exact L|]. split; [reflexivity|]. split; [|reflexivity]. intros i Hi. rewrite run_S. apply product_ok, Hh.
Qed.
Lemma step_mul h y b : ghash_step h y b = mul (Z.lxor y (value b)) h.
Proof. unfold ghash_step. rewrite ghash_mul_mul, unbe_value. reflexivity. Qed.
Lemma data_run n : forall h y c z t, (length c + z = 16 * n)%nat -> (z < 16)%nat -> ghash_data n h y c = run n h y (c ++ repeat 0 z ++ t).
Proof.
  induction n as [|n IH]; intros h y c z t L Hz; [reflexivity|]. cbn [ghash_data run]. rewrite step_mul. destruct (Nat.lt_ge_cases (length c) 16) as [S|S].
  - assert (n = 0)%nat as -> by lia. assert (E : take 16 (take 16 c ++ repeat 0 16) = take 16 (c ++ repeat 0 z ++ t)).
    { rewrite (take_ge c) by lia. rewrite !take_app_ge by lia. f_equal. rewrite (take_app_ge (repeat 0 z)) by (rewrite repeat_length; lia). replace z with (16 - length c)%nat by lia. rewrite repeat_length, Nat.sub_diag, take_0, app_nil_r.
      replace (repeat 0 16) with (repeat 0 ((16 - length c) + length c)) by (f_equal; lia). rewrite repeat_app, take_app_alt by (rewrite repeat_length; reflexivity). reflexivity. }
    rewrite E. reflexivity.
  - rewrite (take_app_le (take 16 c)), take_take by (rewrite take_length; lia). rewrite (take_app_le c) by lia. rewrite drop_app_le by lia. rewrite Nat.min_id. apply IH; [rewrite drop_length; lia|exact Hz].
Qed.
Lemma run_app n : forall m h y x, run (n + m) h y x = run m h (run n h y x) (drop (16 * n) x).
Proof. induction n as [|n IH]; intros m h y x; [reflexivity|]. cbn [Nat.add run]. rewrite IH, drop_drop. f_equal. f_equal. lia. Qed.
Lemma zeros_bytes n : Forall is_byte (repeat 0 n).
Proof. apply Forall_forall. intros x Hx. apply elem_of_list_In, repeat_spec in Hx. subst. unfold is_byte. lia. Qed.
Lemma ghash_is h c : field h -> 8 * Z.of_nat (length c) < 2^64 -> exists z len, (z < 16)%nat /\ (16 | Z.of_nat (length c + z)) /\ length len = 8%nat /\ Forall is_byte len /\ value len = 8 * Z.of_nat (length c) /\
  is_ghash h (c ++ repeat 0 z ++ repeat 0 8 ++ len) (ghash h c).
Proof.
  intros Hh Hc. set (n := ((length c + 15) / 16)%nat). pose proof (Nat.div_mod (length c + 15) 16 ltac:(lia)) as D. pose proof (Nat.mod_upper_bound (length c + 15) 16 ltac:(lia)) as M. fold n in D. set (z := (16 * n - length c)%nat). assert (Ez : (length c + z = 16 * n)%nat) by lia.
  destruct (be_ok 8 (Z.of_nat (length c) * 8)) as (B1 & B2 & B3). exists z, (be 8 (Z.of_nat (length c) * 8)). split; [lia|]. split; [exists (Z.of_nat n); lia|]. split; [exact B1|]. split; [exact B2|]. split.
  { rewrite B3. change (256 ^ Z.of_nat 8) with (2^64). rewrite Z.mod_small by lia. lia. }
  replace (ghash h c) with (run (n + 1) h 0 (c ++ repeat 0 z ++ repeat 0 8 ++ be 8 (Z.of_nat (length c) * 8))); [apply run_is; [exact Hh|rewrite !app_length, !repeat_length, B1; lia]|].
  rewrite run_app, <- (data_run n h 0 c z) by lia. unfold ghash. fold n. rewrite step_mul. cbn [run]. rewrite app_assoc, drop_app_alt by (rewrite app_length, repeat_length; lia). rewrite take_ge by (rewrite app_length, B1; cbn; lia). reflexivity.
Qed.
Lemma is_ghash_unique h x s s' : is_ghash h x s -> is_ghash h x s' -> s = s'.
Proof.
  intros (n & y & L & Y0 & Y & ->) (n' & y' & L' & Y0' & Y' & ->). assert (n' = n) as -> by lia. assert (E : forall i, (i <= n)%nat -> y i = y' i); [|apply E; lia]. induction i as [|i IH]; intros Hi; [congruence|]. specialize (Y i ltac:(lia)). specialize (Y' i ltac:(lia)). rewrite <- IH in Y' by lia. apply (gcm_product_unique _ _ _ _ Y Y').
Qed.
(** *** The standards together *)
Lemma sha_key key k : is_sha256 key k -> key_len k /\ Forall is_byte k.
Proof. intros (K & p & n & H & _ & _ & _ & _ & _ & _ & L & B & _). split; [right; right; exact L|exact B]. Qed.
Lemma sum_key key : key_len (sha256_sum key) /\ Forall is_byte (sha256_sum key).
Proof. destruct (sha256_ok key) as [L B]. split; [right; right; exact L|exact B]. Qed.
Lemma enc_is k b : key_len k -> Forall is_byte k -> is_state b -> is_aes k b (aes_enc k b) /\ is_state (aes_enc k b).
Proof. intros Hk Bk Hb. split; [apply aes_fips_exact; auto|apply enc_block16; assumption]. Qed.
Lemma value_block s : is_state s -> 0 <= value s < 2^128.
Proof. intros H. rewrite <- unbe_value. apply block_field, H. Qed.
Lemma tag_is key nonce c : length nonce = 12%nat -> Forall is_byte nonce -> 8 * Z.of_nat (length c) < 2^64 -> is_tag (sha256_sum key) nonce c (gcm_tag (sha256_sum key) nonce c).
Proof.
  intros Ln Bn Hc. destruct (sum_key key) as [Kl Kb]. destruct (tag_xor key nonce c Ln Bn) as (pad & [Pl Pb] & -> & ->). destruct (enc_is _ _ Kl Kb zeros_block) as [Z1 Z2]. pose proof (value_block _ Z2) as Vh.
  destruct (ghash_is (subkey key) c (subkey_field key) Hc) as (z & len & Hz & Dz & Ll & Bl & Vl & Gh).
  exists (aes_enc (sha256_sum key) (repeat 0 16)), (aes_enc (sha256_sum key) (nonce ++ be 4 1)), (ghash (subkey key) c), z, len. split; [exact Z1|].
  assert (Sn : is_state (nonce ++ be 4 1)) by (split; [rewrite app_length, Ln; reflexivity|apply Forall_app; split; [exact Bn|apply be_bytes]]).
  split; [change [0; 0; 0; 1] with (be 4 1); apply (enc_is _ _ Kl Kb Sn)|]. split; [exact Hz|]. split; [exact Dz|]. split; [exact Ll|]. split; [exact Bl|]. split; [exact Vl|]. split; [unfold subkey in Gh at 1; rewrite unbe_value in Gh; exact Gh|].
  assert (Fg : field (ghash (subkey key) c)) by apply ghash_field, subkey_field. split; [rewrite xor_length; rewrite be_length, ?Pl; lia|]. split; [apply xor_bytes; [apply be_bytes|exact Pb]|].
  rewrite <- !unbe_value, unbe_xor by (try apply be_bytes; try exact Pb; rewrite be_length, Pl; reflexivity). rewrite unbe_be. change (256 ^ Z.of_nat 16) with (2^128). rewrite Z.mod_small by exact Fg. reflexivity.
Qed.
Lemma tag_unique k nonce c t t' : key_len k -> Forall is_byte k -> length nonce = 12%nat -> Forall is_byte nonce -> is_tag k nonce c t -> is_tag k nonce c t' -> t = t'.
Proof.
  intros Kl Kb Ln Bn (h & e & s & z & len & A1 & A2 & Hz & Dz & Ll & Bl & Vl & Gh & Lt & Bt & Vt) (h' & e' & s' & z' & len' & A1' & A2' & Hz' & Dz' & Ll' & Bl' & Vl' & Gh' & Lt' & Bt' & Vt').
  pose proof (is_aes_unique _ _ _ _ Kl Kb A1 A1') as <-. pose proof (is_aes_unique _ _ _ _ Kl Kb A2 A2') as <-. assert (z' = z) as -> by (destruct Dz as [a Da], Dz' as [b Db]; lia).
  rewrite (value_inj len' len Bl' Bl ltac:(lia) ltac:(lia)) in Gh'. pose proof (is_ghash_unique _ _ _ _ Gh Gh') as <-. apply value_inj; [exact Bt|exact Bt'|lia|lia].
Qed.
Lemma ctr_unique k (counter : nat -> bytes -> Prop) data c c' : key_len k -> Forall is_byte k ->
  (forall i a b, length a = 16%nat -> length b = 16%nat -> Forall is_byte a -> Forall is_byte b -> counter i a -> counter i b -> a = b) ->
  is_ctr k counter data c -> is_ctr k counter data c' -> c = c'.
Proof.
  intros Kl Kb F [L H] [L' H']. apply list_eq_same_length with (length data); [exact L'|exact L|]. intros j x y Hj Hx Hy. destruct (lookup_lt_is_Some_2 data j Hj) as [d Hd]. destruct (H j d Hd) as (a & e & u & A1 & A2 & A3 & A4 & A5 & A6). destruct (H' j d Hd) as (a' & e' & u' & A1' & A2' & A3' & A4' & A5' & A6').
  pose proof (F _ _ _ A1 A1' A2 A2' A3 A3') as <-. pose proof (is_aes_unique _ _ _ _ Kl Kb A4 A4') as <-. rewrite A5 in A5'. injection A5' as <-. congruence.
Qed.
Lemma blocks_ext n : forall a b, length a = (16 * n)%nat -> length b = (16 * n)%nat -> (forall i, (i < n)%nat -> block a i = block b i) -> a = b.
Proof.
  induction n as [|n IH]; intros a b La Lb H; [destruct a, b; try reflexivity; cbn in *; lia|]. rewrite <- (take_drop 16 a), <- (take_drop 16 b). f_equal; [apply (H 0%nat); lia|]. apply IH; [rewrite drop_length; lia..|]. intros i Hi. specialize (H (S i) ltac:(lia)). unfold block in *. rewrite !drop_drop. replace (16 * S i)%nat with (16 + 16 * i)%nat in H by lia. exact H.
Qed.
Lemma xor_state a b : is_state a -> is_state b -> is_state (zip_with Z.lxor a b).
Proof. intros [La Ba] [Lb Bb]. split; [rewrite zip_with_length; lia|apply xor_bytes; assumption]. Qed.
Section go.
Context (rand : nat -> option bytes).
Context (R : forall n r, rand n = Some r -> length r = n /\ Forall is_byte r).
Let R1 : forall n r, rand n = Some r -> length r = n := fun n r H => proj1 (R n r H).
Let K := aes_contract_holds rand R1.
Theorem ctr_standard data key iv out : Forall is_byte key -> rand 16%nat = Some iv ->
  encrypt_ctr sha256_sum aes_enc rand data key = Ret (inl out) <-> ctr_output key iv data out.
Proof.
  intros Bkey Riv. destruct (sum_key key) as [Kl Kb]. destruct (ctr_exact _ _ _ _ _ K data key iv Riv) as (c & E & L & H). assert (P : ctr_output key iv data (iv ++ c)).
  { exists (sha256_sum key), c. split; [apply sha256_fips, Bkey|]. split; [reflexivity|]. split; [exact L|]. intros j x Hj. destruct (H j x Hj) as (ctr & y & C1 & C2 & C3 & C4 & C5). exists ctr, (aes_enc (sha256_sum key) ctr), y. rewrite <- !unbe_value. split; [exact C1|]. split; [exact C3|]. split; [exact C2|]. split; [apply enc_is; [assumption..|split; assumption]|]. auto. }
  rewrite E. split; [intros X; injection X as <-; exact P|]. intros (k & c' & S & -> & C). do 3 f_equal. rewrite (proj1 (sha256_fips_exact key k Bkey) S) in C. destruct P as (k0 & c0 & S0 & E0 & C0). apply app_inv_head in E0 as <-. rewrite (proj1 (sha256_fips_exact key k0 Bkey) S0) in C0.
  refine (ctr_unique _ _ _ _ _ Kl Kb _ C0 C). intros i a b La Lb Ba Bb Va Vb. apply value_inj; [exact Ba|exact Bb|lia|lia].
Qed.
Theorem gcm_standard data key nonce out : Forall is_byte key -> rand 12%nat = Some nonce -> blen data <= gcm_max ->
  encrypt_gcm sha256_sum aes_enc gcm_tag rand data key = Ret (inl out) <-> gcm_output key nonce data out.
Proof.
  intros Bkey Rn M. destruct (sum_key key) as [Kl Kb]. destruct (R _ _ Rn) as [Ln Bn]. destruct (gcm_exact _ _ _ _ _ K data key nonce Rn M) as (c & E & L & H). assert (P : gcm_output key nonce data (nonce ++ c ++ gcm_tag (sha256_sum key) nonce c)).
  { exists (sha256_sum key), c, (gcm_tag (sha256_sum key) nonce c). split; [apply sha256_fips, Bkey|]. split; [reflexivity|]. split; [|apply tag_is; [exact Ln|exact Bn|rewrite L; unfold blen, gcm_max in M; lia]]. split; [exact L|]. intros j x Hj. destruct (H j x Hj) as (ctr & y & C1 & C2 & C3 & C4 & C5). assert (Sc : is_state (nonce ++ ctr)) by (split; [rewrite app_length; lia|apply Forall_app; auto]).
    exists (nonce ++ ctr), (aes_enc (sha256_sum key) (nonce ++ ctr)), y. destruct Sc as [S1 S2]. split; [exact S1|]. split; [exact S2|]. split; [exists ctr; rewrite <- unbe_value; auto|]. split; [apply enc_is; [assumption..|split; assumption]|]. auto. }
  rewrite E. split; [intros X; injection X as <-; exact P|]. intros (k & c' & t & S & -> & C & T). rewrite (proj1 (sha256_fips_exact key k Bkey) S) in C, T. assert (c' = c) as ->.
  { destruct P as (k0 & c0 & t0 & S0 & E0 & C0 & _). rewrite (proj1 (sha256_fips_exact key k0 Bkey) S0) in C0. apply app_inv_head in E0. assert (Lc : length c0 = length c) by (destruct C0; lia). apply app_inj_1 in E0 as [<- _]; [|lia]. symmetry. refine (ctr_unique _ _ _ _ _ Kl Kb _ C0 C).
    intros i a b La Lb Ba Bb (n & -> & Na & Va) (n' & -> & Nb & Vb). apply Forall_app in Ba as [_ Ba]. apply Forall_app in Bb as [_ Bb]. f_equal. apply value_inj; [exact Ba|exact Bb|lia|lia]. }
  rewrite (tag_unique _ _ _ _ _ Kl Kb Ln Bn T (tag_is key nonce c Ln Bn ltac:(rewrite L; unfold blen, gcm_max in M; lia))). reflexivity.
Qed.
Theorem cbc_standard data key iv out : Forall is_byte key -> Forall is_byte data -> rand 16%nat = Some iv -> (length data mod 16 = 0)%nat ->
  encrypt_cbc sha256_sum aes_enc rand data key = Ret (inl out) <-> cbc_output key iv data out.
Proof.
  intros Bkey Bd Riv M. destruct (sum_key key) as [Kl Kb]. destruct (R _ _ Riv) as [Li Bi]. destruct (cbc_exact _ _ _ _ _ K data key iv Riv M) as (c & E & L & H).
  set (k := sha256_sum key) in *. assert (Ld : length data = (16 * (length data / 16))%nat) by (pose proof (Nat.div_mod (length data) 16 ltac:(lia)); lia). set (n := (length data / 16)%nat) in *. clearbody n.
  assert (Hb : forall i, (16 * (i + 1) <= length data)%nat -> block (iv ++ c) (i + 1) = aes_enc k (zip_with Z.lxor (block data i) (block (iv ++ c) i))).
  { intros i Hi. change (zip_with Z.lxor) with xor. rewrite <- H by exact Hi. unfold block. rewrite drop_app_ge by lia. do 2 f_equal. lia. }
  assert (Sd : forall i, (16 * (i + 1) <= length data)%nat -> is_state (block data i)) by (intros i Hi; split; [unfold block; rewrite take_length, drop_length; lia|apply Forall_take, Forall_drop, Bd]).
  assert (Sc : forall i, (i <= n)%nat -> is_state (block (iv ++ c) i)).
  { induction i as [|i IH]; intros Hi; [unfold block; rewrite Nat.mul_0_r, drop_0, take_app_alt by lia; split; assumption|]. replace (S i) with (i + 1)%nat by lia. rewrite Hb by lia. apply enc_block16; [exact Kb|]. apply xor_state; [apply Sd; lia|apply IH; lia]. }
  assert (P : cbc_output key iv data (iv ++ c)).
  { exists k. split; [apply sha256_fips, Bkey|]. split; [rewrite app_length; lia|]. split; [apply take_app_alt; lia|]. intros i Hi. fold (block data i) (block (iv ++ c) i) (block (iv ++ c) (i + 1)). rewrite Hb by exact Hi. apply enc_is; [assumption..|]. apply xor_state; [apply Sd; exact Hi|apply Sc; lia]. }
  rewrite E. split; [intros X; injection X as <-; exact P|]. intros (k' & Sk & Lo & T & C). rewrite (proj1 (sha256_fips_exact key k' Bkey) Sk) in C. fold k in C. do 2 f_equal.
  apply (blocks_ext (n + 1)); [rewrite app_length; lia|lia|]. induction i as [|i IH]; intros Hi; [unfold block; rewrite Nat.mul_0_r, !drop_0, T; apply take_app_alt; lia|]. replace (S i) with (i + 1)%nat by lia. specialize (C i ltac:(lia)). fold (block data i) (block out i) (block out (i + 1)) in C. rewrite <- IH in C by lia. rewrite Hb by lia. symmetry. apply aes_fips_exact; [assumption..| |exact C]. apply xor_state; [apply Sd; lia|apply Sc; lia].
Qed.
End go.

(** *** Decryption *)
Section back.
Context (out extra key : bytes) (Bkey : Forall is_byte key) (Bout : Forall is_byte out).
Let rand : nat -> option bytes := fun n => Some (take n (out ++ repeat 0 n)).
Let R : forall n r, rand n = Some r -> length r = n /\ Forall is_byte r.
Proof. intros n r [= <-]. split; [rewrite take_length, app_length, repeat_length; lia|apply Forall_take, Forall_app; split; [exact Bout|apply zeros_bytes]]. Qed.
Let R1 : forall n r, rand n = Some r -> length r = n := fun n r H => proj1 (R n r H).
Let K := aes_contract_holds rand R1.
Lemma rand_head n : (n <= length out)%nat -> rand n = Some (take n out).
Proof. intros L. unfold rand. rewrite take_app_le by exact L. reflexivity. Qed.
Theorem ctr_standard_back data : decrypt_ctr sha256_sum aes_enc out extra key = Ret (inl data) <-> (16 <= length out)%nat /\ ctr_output key (take 16 out) data out.
Proof.
  destruct (Nat.lt_ge_cases (length out) 16) as [S|S].
  { rewrite (proj2 (ctr_decrypt_panics _ _ _ _ _ K out extra key) S). split; [discriminate|lia]. }
  pose proof (rand_head _ S) as Rh. rewrite <- (ctr_standard rand R data key _ out Bkey Rh). split.
  - intros H. split; [exact S|]. unfold decrypt_ctr in H. rewrite (cipher_ok _ _ _ _ _ K), cut_long in H by exact S. injection H as <-. unfold encrypt_ctr. rewrite (cipher_ok _ _ _ _ _ K), Rh, xks_undo, take_drop; [reflexivity|]. intros i. apply (ctr_block_length _ _ _ _ _ K).
  - intros [_ H]. destruct (ctr_roundtrip _ _ _ _ _ K data key _ extra Rh) as (c & E & _ & D). rewrite E in H. injection H as H. rewrite H in D. exact D.
Qed.
Theorem gcm_standard_back data : decrypt_gcm sha256_sum aes_enc gcm_tag out extra key = Ret (inl data) <-> (12 <= length out)%nat /\ blen data <= gcm_max /\ gcm_output key (take 12 out) data out.
Proof.
  destruct (Nat.lt_ge_cases (length out) 12) as [S|S].
  { rewrite (proj2 (gcm_decrypt_panics _ _ _ _ _ K out extra key) S). split; [discriminate|lia]. }
  pose proof (rand_head _ S) as Rh. split.
  - intros H. apply (gcm_authentic _ _ _ _ _ K) in H as (nonce & c & E & Ln & Se). assert (M : blen data <= gcm_max) by (unfold seal in Se; rewrite bool_decide_true in Se by exact Ln; destruct (Z.ltb_spec gcm_max (blen data)); [discriminate|lia]). split; [exact S|]. split; [exact M|].
    apply (gcm_standard rand R data key _ out Bkey Rh M). unfold encrypt_gcm. rewrite (cipher_ok _ _ _ _ _ K), Rh. rewrite E, take_app_alt by (symmetry; exact Ln). rewrite Se. reflexivity.
  - intros (_ & M & H). apply (gcm_standard rand R data key _ out Bkey Rh M) in H. destruct (gcm_roundtrip _ _ _ _ _ K data key _ extra Rh M) as (c & E & _ & D). rewrite E in H. injection H as H. rewrite H in D. exact D.
Qed.
Theorem gcm_standard_refuses : decrypt_gcm sha256_sum aes_enc gcm_tag out extra key = Ret (inr ErrOpen) <-> (12 <= length out)%nat /\ ~ exists data, blen data <= gcm_max /\ gcm_output key (take 12 out) data out.
Proof.
  destruct (Nat.lt_ge_cases (length out) 12) as [S|S].
  { rewrite (proj2 (gcm_decrypt_panics _ _ _ _ _ K out extra key) S). split; [discriminate|lia]. }
  assert (D : decrypt_gcm sha256_sum aes_enc gcm_tag out extra key = Ret (inr ErrOpen) \/ exists data, decrypt_gcm sha256_sum aes_enc gcm_tag out extra key = Ret (inl data)).
  { unfold decrypt_gcm. rewrite (cipher_ok _ _ _ _ _ K), cut_long by exact S. unfold open. rewrite bool_decide_true by (rewrite take_length; lia). repeat (case_match; eauto). }
  split.
  - intros H. split; [exact S|]. intros (data & M & G). rewrite (proj2 (gcm_standard_back data) (conj S (conj M G))) in H. discriminate.
  - intros [_ N]. destruct D as [D|[data D]]; [exact D|]. exfalso. apply N. exists data. apply (gcm_standard_back data) in D. tauto.
Qed.
Lemma cbc_redo k n : Forall is_byte k -> forall prev src, is_state prev -> length src = (16 * n)%nat -> Forall is_byte src ->
  cbc_enc aes_enc k prev n (cbc_dec aes_dec k prev n src) = src /\ Forall is_byte (cbc_dec aes_dec k prev n src) /\ length (cbc_dec aes_dec k prev n src) = (16 * n)%nat.
Proof.
  intros Bk. induction n as [|n IH]; intros prev src [Lp Bp] L B; [destruct src; [split; [reflexivity|split; [constructor|reflexivity]]|discriminate]|]. cbn [cbc_enc cbc_dec].
  assert (Sb : is_state (take 16 src)) by (split; [rewrite take_length; lia|apply Forall_take, B]). destruct (codes k _ Bk Sb) as [_ Cd]. pose proof (round_keys_ok k Bk) as Kk. destruct (cipher_ok_inv k _ Kk Sb) as (_ & [Ld Bd] & _ & U). rewrite <- Cd in *.
  destruct (IH (take 16 src) (drop 16 src) Sb ltac:(rewrite drop_length; lia) ltac:(apply Forall_drop, B)) as (I1 & I2 & I3). set (d := xor (aes_dec k (take 16 src)) prev) in *. assert (Lx : length d = 16%nat) by (unfold d; rewrite xor_length; lia). rewrite (take_app_alt d) by lia. rewrite (drop_app_alt d) by lia.
  assert (Ed : aes_enc k (xor d prev) = take 16 src) by (unfold d; rewrite xor_undo by lia; rewrite (proj1 (codes k _ Bk (conj Ld Bd))); exact U). rewrite Ed, I1, take_drop. split; [reflexivity|]. split; [apply Forall_app; split; [apply xor_bytes; assumption|exact I2]|rewrite app_length; lia].
Qed.
Theorem cbc_standard_back data : decrypt_cbc sha256_sum aes_dec out extra key = Ret (inl data) <-> (16 <= length out)%nat /\ (length out mod 16 = 0)%nat /\ Forall is_byte data /\ cbc_output key (take 16 out) data out.
Proof.
  destruct (Nat.lt_ge_cases (length out) 16) as [S|S].
  { rewrite (proj2 (cbc_decrypt_panics _ _ _ _ _ K out extra key)) by lia. split; [discriminate|lia]. }
  destruct (Nat.eq_dec (length out mod 16)%nat 0%nat) as [M|M].
  2:{ rewrite (proj2 (cbc_decrypt_panics _ _ _ _ _ K out extra key)) by lia. split; [discriminate|lia]. }
  pose proof (rand_head _ S) as Rh. destruct (sum_key key) as [Kl Kb]. assert (Lo : exists n, length (drop 16 out) = (16 * n)%nat) by (exists (length out / 16 - 1)%nat; rewrite drop_length; pose proof (Nat.div_mod (length out) 16 ltac:(lia)); lia). destruct Lo as [n Ln].
  assert (Mn : ((16 * n) mod 16 = 0)%nat) by (rewrite Nat.mul_comm; apply Nat.mod_mul; lia). assert (Dn : ((16 * n) / 16 = n)%nat) by (rewrite Nat.mul_comm; apply Nat.div_mul; lia).
  split.
  - intros H. unfold decrypt_cbc in H. rewrite (cipher_ok _ _ _ _ _ K), cut_long in H by exact S. unfold crypt_blocks in H. rewrite Ln, Mn, Dn in H. cbn [Nat.eqb rbind] in H. injection H as H.
    destruct (cbc_redo (sha256_sum key) n Kb (take 16 out) (drop 16 out)) as (E1 & E2 & E3); [split; [rewrite take_length; lia|apply Forall_take, Bout]|exact Ln|apply Forall_drop, Bout|]. rewrite H in E1, E2, E3. split; [exact S|]. split; [exact M|]. split; [exact E2|].
    apply (cbc_standard rand R data key _ out Bkey E2 Rh); [rewrite E3; exact Mn|]. unfold encrypt_cbc. rewrite (cipher_ok _ _ _ _ _ K), Rh. unfold crypt_blocks. rewrite E3, Mn, Dn. cbn [Nat.eqb rbind]. rewrite E1, take_drop. reflexivity.
  - intros (_ & _ & Bd & H). assert (Md : (length data mod 16 = 0)%nat) by (destruct H as (k & _ & L & _); rewrite drop_length in Ln; replace (length data) with (16 * n)%nat by lia; exact Mn).
    apply (cbc_standard rand R data key _ out Bkey Bd Rh Md) in H. destruct (cbc_roundtrip _ _ _ _ _ K data key _ extra Rh Md) as (c & E & _ & D). rewrite E in H. injection H as H. rewrite H in D. exact D.
Qed.
End back.

(** the hypotheses are met: a GCM output exists for the key "key", the nonce 0..11 and the
    data "hello" *)
Example aes_standard_case : let key := [107; 101; 121] in let nonce := seqZ 0 12 in let data := [104; 101; 108; 108; 111] in
  Forall is_byte key /\ Forall is_byte nonce /\ blen data <= gcm_max /\ (exists out, gcm_output key nonce data out /\ length out = 33%nat /\ take 12 out = nonce).
Proof.
  cbn zeta. assert (Bk : Forall is_byte [107; 101; 121]) by (repeat constructor; unfold is_byte; lia). assert (Bn : Forall is_byte (seqZ 0 12)) by (vm_compute seqZ; repeat constructor; unfold is_byte; lia). split; [exact Bk|]. split; [exact Bn|]. split; [vm_compute; discriminate|].
  set (rand := fun n => if decide (n = 12%nat) then Some (seqZ 0 12) else None). assert (R : forall n r, rand n = Some r -> length r = n /\ Forall is_byte r) by (intros n r; unfold rand; case_decide as E; [|discriminate]; intros [= <-]; subst; split; [reflexivity|exact Bn]).
  destruct (gcm_roundtrip _ _ _ _ _ (aes_contract_holds rand (fun n r H => proj1 (R n r H))) [104; 101; 108; 108; 111] [107; 101; 121] (seqZ 0 12) [] eq_refl ltac:(vm_compute; discriminate)) as (c & E & L & _).
  exists (seqZ 0 12 ++ c). split; [apply (gcm_standard rand R); [exact Bk|reflexivity|vm_compute; discriminate|exact E]|]. split; [rewrite app_length, L; reflexivity|apply take_app_alt; reflexivity].
Qed.
(** each theorem on a case that meets its hypotheses *)
Lemma ex_rand_bytes n r : (fun n => Some (repeat 7 n)) n = Some r -> length r = n /\ Forall is_byte r.
Proof. intros [= <-]. split; [apply repeat_length|apply repeat_bytes, byte_7]. Qed.
Example ctr_standard_case out := ctr_standard _ ex_rand_bytes [1; 2; 3] [7; 7] _ out (repeat_bytes 7 2 byte_7) eq_refl.
Example cbc_standard_case out := cbc_standard _ ex_rand_bytes (repeat 1 32) [7; 7] _ out (repeat_bytes 7 2 byte_7) (repeat_bytes 1 32 byte_1) eq_refl eq_refl.
Example ctr_standard_back_case := ctr_standard_back (repeat 1 20) [] [7; 7] (repeat_bytes 7 2 byte_7) (repeat_bytes 1 20 byte_1).
Example gcm_standard_back_case := gcm_standard_back (repeat 1 30) [] [7; 7] (repeat_bytes 7 2 byte_7) (repeat_bytes 1 30 byte_1).
Example gcm_standard_refuses_case := gcm_standard_refuses (repeat 1 30) [] [7; 7] (repeat_bytes 7 2 byte_7) (repeat_bytes 1 30 byte_1).
Example cbc_standard_back_case := cbc_standard_back (repeat 1 48) [] [7; 7] (repeat_bytes 7 2 byte_7) (repeat_bytes 1 48 byte_1).
Print Assumptions ctr_standard.
Print Assumptions gcm_standard.
Print Assumptions cbc_standard.
Print Assumptions ctr_standard_back.
Print Assumptions gcm_standard_back.
Print Assumptions cbc_standard_back.
Print Assumptions gcm_standard_refuses.
