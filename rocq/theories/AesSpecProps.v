(** C163: the block cipher of the model is the AES of FIPS 197. *)
From Verif Require Import Base PassModel PassProofs AesModel AesProps AesCipherModel AesCipherProofs.
Local Open Scope Z.

(** *** Specification *)
(** 4.2: bytes are polynomials over the field of two elements, the product is taken modulo
    x^8 + x^4 + x^3 + x + 1, which is 283.  The coefficient of x^n in the product of two
    polynomials, the second with eight coefficients: *)
Definition coeff (a b n : Z) : bool := foldr xorb false (map (fun i => Z.testbit a (n - i) && Z.testbit b i) (seqZ 0 8)).
Definition field_product (x y z : Z) : Prop := is_byte z /\ exists q, is_byte q /\ forall n, 0 <= n -> coeff x y n = xorb (Z.testbit z n) (coeff 283 q n).
(** 5.1.1: the inverse, 0 for 0, and then the affine map *)
Definition sub_byte (x y : Z) : Prop := is_byte y /\ exists v, is_byte v /\ (x = 0 -> v = 0) /\ (x <> 0 -> field_product x v 1) /\
  forall i, 0 <= i < 8 -> Z.testbit y i = xorb (Z.testbit v i) (xorb (Z.testbit v ((i + 4) mod 8)) (xorb (Z.testbit v ((i + 5) mod 8)) (xorb (Z.testbit v ((i + 6) mod 8)) (xorb (Z.testbit v ((i + 7) mod 8)) (Z.testbit 99 i))))).
(** 3.4: row r, column c of a state *)
Definition get (s : bytes) (r c : nat) : Z := nth (r + 4 * c) s 0.
Definition cells (P : nat -> nat -> Prop) : Prop := forall r c, (r < 4)%nat -> (c < 4)%nat -> P r c.
Definition SubBytes (s s' : bytes) : Prop := cells (fun r c => sub_byte (get s r c) (get s' r c)).
Definition ShiftRows (s s' : bytes) : Prop := cells (fun r c => get s' r c = get s r ((c + r) mod 4)).
Definition MixColumns (s s' : bytes) : Prop := cells (fun r c => exists p : nat -> Z,
  (forall k, (k < 4)%nat -> field_product (nth ((k + 4 - r) mod 4) [2; 3; 1; 1] 0) (get s k c) (p k)) /\
  get s' r c = Z.lxor (p 0%nat) (Z.lxor (p 1%nat) (Z.lxor (p 2%nat) (p 3%nat)))).
Definition AddRoundKey (w : nat -> nat -> Z) (n : nat) (s s' : bytes) : Prop := cells (fun r c => get s' r c = Z.lxor (get s r c) (w (4 * n + c)%nat r)).
(** 5.2: [w i j] is byte j of word i, [rc i] the constant of round i *)
Definition KeyExpansion (k : bytes) (w : nat -> nat -> Z) : Prop := let nk := (length k / 4)%nat in exists rc : nat -> Z,
  rc 1%nat = 1 /\ (forall i, (1 <= i)%nat -> field_product 2 (rc i) (rc (i + 1)%nat)) /\
  (forall i j, (i < nk)%nat -> (j < 4)%nat -> w i j = nth (4 * i + j) k 0) /\
  (forall i j, (nk <= i < 4 * (nk + 7))%nat -> (j < 4)%nat -> exists t, w i j = Z.lxor (w (i - nk)%nat j) t /\
     ((i mod nk = 0)%nat -> exists u, sub_byte (w (i - 1)%nat ((j + 1) mod 4)%nat) u /\ t = Z.lxor u (if (j =? 0)%nat then rc (i / nk)%nat else 0)) /\
     ((i mod nk <> 0)%nat -> nk = 8%nat -> (i mod nk = 4)%nat -> sub_byte (w (i - 1)%nat j) t) /\
     ((i mod nk <> 0)%nat -> (nk <> 8%nat \/ (i mod nk <> 4)%nat) -> t = w (i - 1)%nat j)).
(** 5.1: the state after round r is [s r]; the last round has no MixColumns *)
Definition is_state (s : bytes) : Prop := length s = 16%nat /\ Forall is_byte s.
Definition is_aes (k b d : bytes) : Prop := let nr := (length k / 4 + 6)%nat in exists w (s : nat -> bytes), KeyExpansion k w /\
  (forall r, (r <= nr)%nat -> is_state (s r)) /\ AddRoundKey w 0 b (s 0%nat) /\
  (forall r, (r < nr)%nat -> exists s1 s2, is_state s1 /\ is_state s2 /\ SubBytes (s r) s1 /\ ShiftRows s1 s2 /\
     if (r + 1 =? nr)%nat then AddRoundKey w nr s2 (s nr) else exists s3, is_state s3 /\ MixColumns s2 s3 /\ AddRoundKey w (r + 1) s3 (s (r + 1)%nat)) /\
  d = s nr.

(** *** The field *)
Definition clmul (a b : Z) : Z := foldr (fun i x => Z.lxor (if Z.testbit b i then Z.shiftl a i else 0) x) 0 (seqZ 0 8).
Lemma clmul_bit a b n : 0 <= n -> Z.testbit (clmul a b) n = coeff a b n.
Proof.
  intros Hn. unfold clmul, coeff. assert (H : Forall (fun i => 0 <= i) (seqZ 0 8)) by (apply Forall_forall; intros i Hi; apply elem_of_seqZ in Hi; lia). revert H. induction (seqZ 0 8) as [|i l IH]; intros H; cbn [foldr map]; [apply Z.bits_0|].
  apply Forall_cons in H as [Hi H]. rewrite Z.lxor_spec, IH by exact H. f_equal. destruct (Z.testbit b i); [rewrite Z.shiftl_spec by exact Hn; rewrite andb_true_r; reflexivity|rewrite andb_false_r; apply Z.bits_0].
Qed.
Lemma product_iff x y z : field_product x y z <-> is_byte z /\ exists q, is_byte q /\ clmul x y = Z.lxor z (clmul 283 q).
Proof.
  unfold field_product. split; intros [Hz (q & Hq & H)]; (split; [exact Hz|]); exists q; (split; [exact Hq|]).
  - apply Z.bits_inj'. intros n Hn. rewrite Z.lxor_spec, !clmul_bit by exact Hn. apply H, Hn.
  - intros n Hn. rewrite <- !clmul_bit by exact Hn. rewrite H, Z.lxor_spec. reflexivity.
Qed.
(** the quotient and the rest *)
Fixpoint divide (n : nat) (v q : Z) : Z * Z :=
  match n with O => (v, q) | S n => if Z.testbit v (Z.of_nat n + 8) then divide n (Z.lxor v (Z.shiftl 283 (Z.of_nat n))) (2 * q + 1) else divide n v (2 * q) end.
Definition productb (x y z : Z) : bool := let '(r, q) := divide 8 (clmul x y) 0 in byteb z && byteb q && (clmul x y =? Z.lxor z (clmul 283 q)).
Lemma productb_ok x y z : productb x y z = true -> field_product x y z.
Proof.
  unfold productb. destruct (divide 8 (clmul x y) 0) as [r q]. rewrite !andb_true_iff, !byteb_spec, Z.eqb_eq. intros [[Hz Hq] H]. apply product_iff. eauto.
Qed.
Lemma clmul_lxor a b c : clmul a (Z.lxor b c) = Z.lxor (clmul a b) (clmul a c).
Proof.
  apply Z.bits_inj'. intros n Hn. rewrite Z.lxor_spec, !clmul_bit by exact Hn. unfold coeff. induction (seqZ 0 8) as [|i l IH]; cbn [foldr map]; [reflexivity|]. rewrite IH, Z.lxor_spec.
  destruct (Z.testbit a (n - i)), (Z.testbit b i), (Z.testbit c i), (foldr _ _ (map (fun i => _ && Z.testbit b i) l)), (foldr _ _ (map (fun i => _ && Z.testbit c i) l)); reflexivity.
Qed.
Lemma modulus_low q : is_byte q -> is_byte (clmul 283 q) -> q = 0.
Proof.
  intros Hq H. assert (C : forallb (fun q => negb (byteb (clmul 283 q)) || (q =? 0)) all_bytes = true) by (vm_compute; reflexivity). pose proof (by_bytes _ C q Hq) as D. cbn beta in D. rewrite (proj2 (byteb_spec _) H) in D. cbn in D. apply Z.eqb_eq, D.
Qed.
Lemma product_unique x y z z' : field_product x y z -> field_product x y z' -> z = z'.
Proof.
  rewrite !product_iff. intros [Hz (q & Hq & E)] [Hz' (q' & Hq' & E')]. assert (L : Z.lxor z z' = clmul 283 (Z.lxor q q')).
  { rewrite clmul_lxor.
    assert (G : forall a b c d, Z.lxor a b = Z.lxor c d -> Z.lxor a c = Z.lxor b d).
    { intros a b c d H. apply (f_equal (fun v => Z.lxor v (Z.lxor b c))) in H. replace (Z.lxor (Z.lxor a b) (Z.lxor b c)) with (Z.lxor a c) in H; [|rewrite Z.lxor_assoc, <- (Z.lxor_assoc b b c), Z.lxor_nilpotent, Z.lxor_0_l; reflexivity].
      rewrite H. rewrite (Z.lxor_comm c d), (Z.lxor_comm b c), Z.lxor_assoc, <- (Z.lxor_assoc c c b), Z.lxor_nilpotent, Z.lxor_0_l. apply Z.lxor_comm. }
    apply G. congruence. }
  assert (Z0 : Z.lxor q q' = 0) by (apply modulus_low; [apply lxor_byte; assumption|rewrite <- L; apply lxor_byte; assumption]). rewrite Z0 in L. change (clmul 283 0) with 0 in L. apply Z.lxor_eq, L.
Qed.

(** the S-box *)
Definition inverse_of (y : Z) : Z := let u := Z.lxor y 99 in foldr (fun i x => x + (if xorb (Z.testbit u ((i + 2) mod 8)) (xorb (Z.testbit u ((i + 5) mod 8)) (Z.testbit u ((i + 7) mod 8))) then 2^i else 0)) 0 (seqZ 0 8).
Definition affine_bits (v y : Z) : bool := forallb (fun i => eqb (Z.testbit y i) (xorb (Z.testbit v i) (xorb (Z.testbit v ((i + 4) mod 8)) (xorb (Z.testbit v ((i + 5) mod 8)) (xorb (Z.testbit v ((i + 6) mod 8)) (xorb (Z.testbit v ((i + 7) mod 8)) (Z.testbit 99 i))))))) (seqZ 0 8).
Lemma affine_bits_spec v y : affine_bits v y = true <-> forall i, 0 <= i < 8 -> Z.testbit y i = xorb (Z.testbit v i) (xorb (Z.testbit v ((i + 4) mod 8)) (xorb (Z.testbit v ((i + 5) mod 8)) (xorb (Z.testbit v ((i + 6) mod 8)) (xorb (Z.testbit v ((i + 7) mod 8)) (Z.testbit 99 i))))).
Proof.
  unfold affine_bits. rewrite forallb_forall. split; intros H i Hi.
  - apply eqb_prop, H. apply elem_of_list_In, elem_of_seqZ. lia.
  - rewrite <- elem_of_list_In, elem_of_seqZ in Hi. rewrite H by lia. apply eqb_reflx.
Qed.
Lemma sbox_sub x : is_byte x -> sub_byte x (sbox x).
Proof.
  intros Hx. assert (C : forallb (fun x => let y := sbox x in let v := inverse_of y in byteb v && (if x =? 0 then v =? 0 else productb x v 1) && affine_bits v y) all_bytes = true) by (vm_compute; reflexivity).
  pose proof (by_bytes _ C x Hx) as D. cbn beta zeta in D. rewrite !andb_true_iff, byteb_spec, affine_bits_spec in D. destruct D as [[D1 D2] D3]. split; [apply sbox_byte, Hx|]. exists (inverse_of (sbox x)). split; [exact D1|]. split; [|split; [|exact D3]].
  - intros E. rewrite (proj2 (Z.eqb_eq _ _) E) in D2. apply Z.eqb_eq, D2.
  - intros N. rewrite (proj2 (Z.eqb_neq _ _) N) in D2. apply productb_ok, D2.
Qed.
Lemma byte_ext x y : is_byte x -> is_byte y -> (forall i, 0 <= i < 8 -> Z.testbit x i = Z.testbit y i) -> x = y.
Proof.
  intros Hx Hy H. unfold is_byte in *. assert (Ex : x = x mod 2^8) by (rewrite Z.mod_small by lia; reflexivity). assert (Ey : y = y mod 2^8) by (rewrite Z.mod_small by lia; reflexivity). rewrite Ex, Ey. apply Z.bits_inj'. intros i Hi. destruct (Z.lt_ge_cases i 8); [rewrite !Z.mod_pow2_bits_low by lia; apply H; lia|rewrite !Z.mod_pow2_bits_high by lia; reflexivity].
Qed.
(** no divisors of zero: multiplying by the inverse undoes multiplying, on the eight powers of x and so everywhere *)
Definition additive (f : Z -> Z) : Prop := forall v w, f (Z.lxor v w) = Z.lxor (f v) (f w).
Fixpoint rest (n : nat) (v : Z) : Z := match n with O => v | S n => rest n (Z.lxor v (if Z.testbit v (Z.of_nat n + 8) then Z.shiftl 283 (Z.of_nat n) else 0)) end.
Lemma swap_lxor a b c d : Z.lxor (Z.lxor a b) (Z.lxor c d) = Z.lxor (Z.lxor a c) (Z.lxor b d).
Proof. rewrite !Z.lxor_assoc. f_equal. rewrite <- !Z.lxor_assoc. f_equal. apply Z.lxor_comm. Qed.
Lemma rest_additive n : additive (rest n).
Proof.
  induction n as [|n IH]; intros v w; cbn [rest]; [reflexivity|]. rewrite <- IH. f_equal. rewrite Z.lxor_spec, swap_lxor. f_equal. destruct (Z.testbit v _), (Z.testbit w _); cbn; rewrite ?Z.lxor_0_r, ?Z.lxor_0_l, ?Z.lxor_nilpotent; reflexivity.
Qed.
Definition mulf (x w : Z) : Z := rest 8 (clmul x w).
Lemma mulf_additive x : additive (mulf x).
Proof. intros v w. unfold mulf. rewrite clmul_lxor. apply rest_additive. Qed.
Definition bits8 (w : Z) : list Z := map (fun i => if Z.testbit w i then 2^i else 0) (seqZ 0 8).
Lemma bits8_sum w : is_byte w -> foldr Z.lxor 0 (bits8 w) = w.
Proof. intros Hw. assert (C : forallb (fun w => foldr Z.lxor 0 (bits8 w) =? w) all_bytes = true) by (vm_compute; reflexivity). apply Z.eqb_eq, (by_bytes _ C w Hw). Qed.
Lemma additive_0 f : additive f -> f 0 = 0.
Proof. intros H. specialize (H 0 0). rewrite Z.lxor_nilpotent in H. rewrite H. apply Z.lxor_nilpotent. Qed.
Lemma additive_sum f l : additive f -> f (foldr Z.lxor 0 l) = foldr Z.lxor 0 (map f l).
Proof. intros H. induction l as [|a l IH]; cbn [foldr map]; [apply additive_0, H|]. rewrite H, IH. reflexivity. Qed.
Lemma additive_id f w : additive f -> forallb (fun i => f (2^i) =? 2^i) (seqZ 0 8) = true -> is_byte w -> f w = w.
Proof.
  intros H B Hw. rewrite <- (bits8_sum w Hw) at 1. rewrite additive_sum by exact H. rewrite <- (bits8_sum w Hw) at 2. f_equal. unfold bits8. rewrite map_map. apply map_ext_in. intros i Hi. destruct (Z.testbit w i); [|apply additive_0, H]. rewrite forallb_forall in B. apply Z.eqb_eq, B, Hi.
Qed.
Lemma undone_all : forallb (fun x => (x =? 0) || forallb (fun i => mulf (inverse_of (sbox x)) (mulf x (2^i)) =? 2^i) (seqZ 0 8)) all_bytes = true.
Proof. vm_compute. reflexivity. Qed.
Lemma no_rest_all : forallb (fun q => rest 8 (clmul 283 q) =? 0) all_bytes = true.
Proof. vm_compute. reflexivity. Qed.
Lemma product_undo x w : is_byte x -> is_byte w -> x <> 0 -> mulf (inverse_of (sbox x)) (mulf x w) = w.
Proof.
  intros Hx Hw Nx. pose proof (by_bytes _ undone_all x Hx) as D. cbn beta in D. apply orb_true_iff in D as [D|D]; [apply Z.eqb_eq in D; contradiction|].
  apply (additive_id (fun w => mulf (inverse_of (sbox x)) (mulf x w)) w); [|exact D|exact Hw]. intros v v'. rewrite !mulf_additive. reflexivity.
Qed.
Lemma no_rest_eq q : is_byte q -> rest 8 (clmul 283 q) = 0.
Proof. intros H. pose proof (by_bytes _ no_rest_all q H) as D. cbn beta in D. apply Z.eqb_eq. exact D. Qed.
Lemma rest_eq x w q : is_byte q -> clmul x w = clmul 283 q -> mulf x w = 0.
Proof. intros H E. unfold mulf. rewrite E. apply no_rest_eq, H. Qed.
Lemma mulf_0 x : mulf x 0 = 0.
Proof. apply (additive_0 (mulf x)), mulf_additive. Qed.
Lemma product_zero x w : is_byte x -> is_byte w -> x <> 0 -> field_product x w 0 -> w = 0.
Proof.
  intros Hx Hw Nx P. apply product_iff in P as [_ (q & Hq & E)]. rewrite Z.lxor_0_l in E. pose proof (product_undo x w Hx Hw Nx) as U. rewrite (rest_eq x w q Hq E), mulf_0 in U. symmetry. exact U.
Qed.
Lemma product_lxor x y y' z z' : field_product x y z -> field_product x y' z' -> field_product x (Z.lxor y y') (Z.lxor z z').
Proof.
  rewrite !product_iff. intros [Hz (q & Hq & E)] [Hz' (q' & Hq' & E')]. split; [apply lxor_byte; assumption|]. exists (Z.lxor q q'). split; [apply lxor_byte; assumption|]. rewrite !clmul_lxor, E, E'. apply swap_lxor.
Qed.
Lemma sub_byte_unique x y y' : is_byte x -> sub_byte x y -> sub_byte x y' -> y = y'.
Proof.
  intros Hx (Hy & v & Hv & V0 & V1 & A) (Hy' & v' & Hv' & V0' & V1' & A'). assert (v = v') as <-.
  { destruct (Z.eq_dec x 0) as [E|N]; [rewrite V0, V0' by exact E; reflexivity|]. apply Z.lxor_eq. apply (product_zero x); [exact Hx|apply lxor_byte; assumption|exact N|]. rewrite <- (Z.lxor_nilpotent 1). apply product_lxor; auto. }
  apply byte_ext; [exact Hy|exact Hy'|]. intros i Hi. rewrite A, A' by exact Hi. reflexivity.
Qed.
Lemma one_all : forallb (fun x => productb 1 x x && productb 2 x (mul2 x) && productb 3 x (mul3 x)) all_bytes = true.
Proof. vm_compute. reflexivity. Qed.
Lemma mul_ok x : is_byte x -> field_product 1 x x /\ field_product 2 x (mul2 x) /\ field_product 3 x (mul3 x).
Proof. intros H. pose proof (by_bytes _ one_all x H) as D. cbn beta in D. rewrite !andb_true_iff in D. destruct D as [[D1 D2] D3]. auto using productb_ok. Qed.
(** *** The steps of a round *)
Lemma state_ext s s' : length s = 16%nat -> length s' = 16%nat -> cells (fun r c => get s r c = get s' r c) -> s = s'.
Proof.
  intros L L' H. apply (nth_ext _ _ 0 0); [lia|]. rewrite L. intros i Hi. pose proof (Nat.mod_upper_bound i 4 ltac:(lia)). pose proof (Nat.div_mod i 4 ltac:(lia)) as D. specialize (H (i mod 4)%nat (i / 4)%nat ltac:(lia) ltac:(lia)). unfold get in H. replace (i mod 4 + 4 * (i / 4))%nat with i in H by lia. exact H.
Qed.
Lemma get_byte s r c : block16 s -> (r < 4)%nat -> (c < 4)%nat -> is_byte (get s r c).
Proof. intros [L H] Hr Hc. unfold get. rewrite Forall_forall in H. apply H, elem_of_list_In, nth_In. lia. Qed.
Ltac all_cells := intros r c Hr Hc; destruct r as [|[|[|[|r]]]]; [| | | |lia]; (destruct c as [|[|[|[|c]]]]; [| | | |lia]).
Lemma sub_ok s : block16 s -> SubBytes s (map sbox s).
Proof.
  intros Hs r c Hr Hc. unfold get. rewrite (nth_indep (map sbox s) 0 (sbox 0)) by (rewrite map_length; destruct Hs; lia). rewrite map_nth. apply sbox_sub. apply (get_byte s r c Hs Hr Hc).
Qed.
Lemma shift_ok s : block16 s -> ShiftRows s (shift_rows s).
Proof. intros _. all_cells; reflexivity. Qed.
Definition mulc (a x : Z) : Z := if a =? 1 then x else if a =? 2 then mul2 x else mul3 x.
Lemma mulc_ok n x : is_byte x -> (n < 4)%nat -> field_product (nth n [2; 3; 1; 1] 0) x (mulc (nth n [2; 3; 1; 1] 0) x).
Proof. intros H Hn. destruct (mul_ok x H) as (M1 & M2 & M3). destruct n as [|[|[|[|n]]]]; [exact M2|exact M3|exact M1|exact M1|lia]. Qed.
Lemma mix_ok s : block16 s -> MixColumns s (mix_columns s).
Proof.
  intros Hs. assert (P : forall r c, (r < 4)%nat -> (c < 4)%nat -> forall k, (k < 4)%nat -> field_product (nth ((k + 4 - r) mod 4) [2; 3; 1; 1] 0) (get s k c) (mulc (nth ((k + 4 - r) mod 4) [2; 3; 1; 1] 0) (get s k c))).
  { intros r c Hr Hc k Hk. apply mulc_ok; [apply get_byte; assumption|apply Nat.mod_upper_bound; lia]. }
  intros r c Hr Hc. exists (fun k => mulc (nth ((k + 4 - r) mod 4) [2; 3; 1; 1] 0) (get s k c)). split; [apply P; assumption|]. clear P.
  destruct (block_split s Hs) as (b0 & b1 & b2 & b3 & b4 & b5 & b6 & b7 & b8 & b9 & b10 & b11 & b12 & b13 & b14 & b15 & -> & _). revert r c Hr Hc. all_cells; cbn -[Z.lxor mul2 mul3]; unfold xor4; rewrite !Z.lxor_assoc; reflexivity.
Qed.
Lemma xor_nth a b i : length a = length b -> nth i (xor a b) 0 = Z.lxor (nth i a 0) (nth i b 0).
Proof.
  revert b i. induction a as [|x a IH]; intros [|y b] i L; try discriminate; [destruct i; reflexivity|]. destruct i as [|i]; [reflexivity|]. injection L as L. apply (IH b i L).
Qed.
Lemma add_ok w n s rk : block16 s -> block16 rk -> (forall r c, (r < 4)%nat -> (c < 4)%nat -> w (4 * n + c)%nat r = get rk r c) -> AddRoundKey w n s (xor s rk).
Proof. intros [Ls _] [Lk _] H r c Hr Hc. rewrite H by assumption. apply xor_nth. lia. Qed.
(** *** The key *)
Lemma words_nth n : forall k i, (i < n)%nat -> nth i (words n k) [] = take 4 (drop (4 * i) k).
Proof.
  induction n as [|n IH]; intros k i Hi; [lia|]. cbn [words]. destruct i as [|i]; [reflexivity|]. cbn [nth]. rewrite IH, drop_drop by lia. f_equal. f_equal. lia.
Qed.
Lemma words_length n : forall k, length (words n k) = n.
Proof. induction n as [|n IH]; intros k; cbn [words length]; [reflexivity|]. rewrite IH. reflexivity. Qed.
Lemma expand_spec n nk : forall ws, length (expand n nk ws) = (length ws + n)%nat /\ (forall i, (i < length ws)%nat -> nth i (expand n nk ws) [] = nth i ws []) /\
  ((0 < nk <= length ws)%nat -> forall i, (length ws <= i < length ws + n)%nat -> nth i (expand n nk ws) [] = key_word nk (expand n nk ws) i).
Proof.
  induction n as [|n IH]; intros ws; cbn [expand]; [split; [lia|]; split; [reflexivity|lia]|].
  set (v := key_word nk ws (length ws)). destruct (IH (ws ++ [v])) as (I1 & I2 & I3). rewrite app_length in *. cbn [length] in *. split; [lia|].
  assert (I2' : forall i, (i < length ws)%nat -> nth i (expand n nk (ws ++ [v])) [] = nth i ws []) by (intros i Hi; rewrite I2 by lia; apply app_nth1; lia). split; [exact I2'|].
  intros Hn i Hi. destruct (Nat.eq_dec i (length ws)) as [->|N]; [|apply I3; lia]. rewrite (I2 (length ws)) by lia. rewrite app_nth2, Nat.sub_diag by lia. cbn [nth]. unfold v, key_word. rewrite !I2' by lia. reflexivity.
Qed.
Definition key_len (k : bytes) : Prop := length k = 16%nat \/ length k = 24%nat \/ length k = 32%nat.
Lemma list4 (l : bytes) : length l = 4%nat -> exists a b c d, l = [a; b; c; d].
Proof. destruct l as [|a [|b [|c [|d [|? ?]]]]]; try discriminate. eauto. Qed.
Lemma nth_drop_list {A} (l : list A) n i d : nth (n + i) l d = nth i (drop n l) d.
Proof. revert n. induction l as [|x l IH]; intros [|n]; cbn; try reflexivity; [destruct i; reflexivity|apply IH]. Qed.
Lemma nth_take_list (l : bytes) n i : (i < n)%nat -> nth i (take n l) 0 = nth i l 0.
Proof. revert n i. induction l as [|x l IH]; intros [|n] i Hi; try lia; [reflexivity|]. destruct i as [|i]; [reflexivity|]. cbn. apply IH. lia. Qed.
Section key.
  Variable k : bytes.
  Hypothesis Hk : key_len k.
  Hypothesis Bk : Forall is_byte k.
  Let nk := (length k / 4)%nat.
  Let ws := key_words k.
  Let w (i j : nat) : Z := nth j (nth i ws []) 0.
  Lemma nk_cases : (nk = 4 \/ nk = 6 \/ nk = 8)%nat /\ length k = (4 * nk)%nat.
  Proof. unfold nk. destruct Hk as [-> | [-> | ->]]; cbn; auto. Qed.
  Lemma ws_length : length ws = (4 * (nk + 7))%nat.
  Proof. unfold ws, key_words. fold nk. cbn zeta. destruct (expand_spec (4 * (nk + 7) - nk) nk (words nk k)) as (-> & _ & _). rewrite words_length. lia. Qed.
  Lemma ws_first i : (i < nk)%nat -> nth i ws [] = take 4 (drop (4 * i) k).
  Proof. intros Hi. unfold ws, key_words. fold nk. cbn zeta. destruct (expand_spec (4 * (nk + 7) - nk) nk (words nk k)) as (_ & E & _). rewrite words_length in E. rewrite E by exact Hi. apply words_nth, Hi. Qed.
  Lemma ws_next i : (nk <= i < 4 * (nk + 7))%nat -> nth i ws [] = key_word nk ws i.
  Proof. intros Hi. unfold ws, key_words. fold nk. cbn zeta. destruct (expand_spec (4 * (nk + 7) - nk) nk (words nk k)) as (_ & _ & E). rewrite words_length in E. destruct nk_cases as [C _]. apply E; lia. Qed.
  Lemma ws_bytes : Forall (Forall is_byte) ws.
  Proof. apply expand_bytes, words_byte, Bk. Qed.
  Lemma ws_word i : (i < 4 * (nk + 7))%nat -> length (nth i ws []) = 4%nat /\ Forall is_byte (nth i ws []).
  Proof.
    intros Hi. split; [|apply nth_bytes, ws_bytes]. destruct nk_cases as [C L]. induction i as [i IH] using lt_wf_ind. destruct (Nat.lt_ge_cases i nk) as [H|H].
    - rewrite ws_first by exact H. rewrite take_length, drop_length. lia.
    - rewrite ws_next by lia. unfold key_word. assert (L1 : length (nth (i - 1) ws []) = 4%nat) by (apply IH; lia). assert (L2 : length (nth (i - nk) ws []) = 4%nat) by (apply IH; lia). destruct (list4 _ L1) as (a & b & c & d & ->). destruct (list4 _ L2) as (a' & b' & c' & d' & ->).
      destruct (i mod nk =? 0)%nat, ((6 <? nk)%nat && (i mod nk =? 4)%nat); reflexivity.
  Qed.
  Lemma rcon_next i : (1 <= i)%nat -> field_product 2 (rcon i) (rcon (i + 1)).
  Proof. intros Hi. destruct (mul_ok (rcon i) (rcon_byte i)) as (_ & M & _). replace (rcon (i + 1)) with (mul2 (rcon i)); [exact M|]. unfold rcon, mul2. replace (i + 1 - 1)%nat with (S (i - 1)) by lia. reflexivity. Qed.
  Lemma expansion_ok : KeyExpansion k w.
  Proof.
    destruct nk_cases as [C L]. unfold KeyExpansion. fold nk. exists rcon. split; [reflexivity|]. split; [exact rcon_next|]. split.
    - intros i j Hi Hj. unfold w. rewrite ws_first by exact Hi. rewrite nth_take_list, <- nth_drop_list by exact Hj. reflexivity.
    - intros i j Hi Hj. destruct (ws_word (i - 1)%nat ltac:(lia)) as [L1 B1]. destruct (ws_word (i - nk)%nat ltac:(lia)) as [L2 B2].
      assert (E : forall j, w i j = nth j (key_word nk ws i) 0) by (intros j'; unfold w; rewrite ws_next by lia; reflexivity). rewrite E. unfold key_word, w. destruct (list4 _ L1) as (a & b & c & d & E1). rewrite E1 in *. destruct (list4 _ L2) as (a' & b' & c' & d' & E2). rewrite E2 in *.
      assert (F : is_byte a /\ is_byte b /\ is_byte c /\ is_byte d) by (repeat (apply Forall_cons in B1 as [? B1]; split; [assumption|]); apply Forall_cons in B1 as [? ?]; assumption). destruct F as (Fa & Fb & Fc & Fd).
      destruct (Nat.eqb_spec (i mod nk) 0) as [M|M].
      + exists (nth j (xor (map sbox [b; c; d; a]) [rcon (i / nk); 0; 0; 0]) 0). split; [destruct j as [|[|[|[|j]]]]; [reflexivity|reflexivity|reflexivity|reflexivity|lia]|]. split; [|split; [intros; contradiction|intros; contradiction]].
        intros _. exists (nth j (map sbox [b; c; d; a]) 0). destruct j as [|[|[|[|j]]]]; [| | | |lia]; (split; [apply sbox_sub; assumption|]); reflexivity.
      + destruct (Nat.ltb_spec 6 nk) as [N|N]; [assert (N8 : nk = 8%nat) by lia|]; cbn [andb]; [destruct (Nat.eqb_spec (i mod nk) 4) as [M4|M4]|].
        * exists (nth j (map sbox [a; b; c; d]) 0). split; [destruct j as [|[|[|[|j]]]]; [reflexivity|reflexivity|reflexivity|reflexivity|lia]|]. split; [intros; contradiction|]. split; [|intros _ [?|?]; contradiction].
          intros _ _ _. destruct j as [|[|[|[|j]]]]; [| | | |lia]; apply sbox_sub; assumption.
        * exists (nth j [a; b; c; d] 0). split; [destruct j as [|[|[|[|j]]]]; [reflexivity|reflexivity|reflexivity|reflexivity|lia]|]. split; [intros; contradiction|]. split; [intros; contradiction|reflexivity].
        * exists (nth j [a; b; c; d] 0). split; [destruct j as [|[|[|[|j]]]]; [reflexivity|reflexivity|reflexivity|reflexivity|lia]|]. split; [intros; contradiction|]. split; [intros; lia|reflexivity].
  Qed.
  Lemma round_key_get n r c : (n < nk + 7)%nat -> (r < 4)%nat -> (c < 4)%nat -> w (4 * n + c)%nat r = get (round_key ws n) r c.
  Proof.
    intros Hn Hr Hc. unfold w, round_key. assert (Q : forall i, (i < 4)%nat -> length (nth i (drop (4 * n) ws) []) = 4%nat) by (intros i Hi; rewrite <- nth_drop_list; apply ws_word; lia). rewrite nth_drop_list.
    assert (L : (4 <= length (drop (4 * n) ws))%nat) by (rewrite drop_length, ws_length; lia). destruct (drop (4 * n) ws) as [|v0 [|v1 [|v2 [|v3 l]]]]; try (cbn in L; lia).
    destruct (list4 v0 (Q 0%nat ltac:(lia))) as (? & ? & ? & ? & ->). destruct (list4 v1 (Q 1%nat ltac:(lia))) as (? & ? & ? & ? & ->). destruct (list4 v2 (Q 2%nat ltac:(lia))) as (? & ? & ? & ? & ->). destruct (list4 v3 (Q 3%nat ltac:(lia))) as (? & ? & ? & ? & ->).
    clear - Hr Hc. revert r c Hr Hc. all_cells; reflexivity.
  Qed.
  Theorem cipher_fips b : block16 b -> is_aes k b (cipher k b).
  Proof.
    intros Hb. destruct nk_cases as [C L]. unfold is_aes. fold nk. set (nr := (nk + 6)%nat). set (rk := round_key ws). assert (Rk : forall r, block16 (rk r)) by (intros r; apply round_key_block, ws_bytes).
    set (mid := map rk (seq 1 (nr - 1))). set (st := fun r => foldl round (xor b (rk 0%nat)) (take r mid)). assert (Lm : length mid = (nr - 1)%nat) by (unfold mid; rewrite map_length, seq_length; reflexivity).
    assert (Fm : Forall block16 mid) by (apply Forall_forall; intros x Hx; apply elem_of_list_In, in_map_iff in Hx as (i & <- & _); apply Rk).
    assert (St : forall r, block16 (st r)) by (intros r; unfold st; apply rounds_block; [apply Forall_take, Fm|apply xor_block; [exact Hb|apply Rk]]).
    assert (Step : forall r, (r + 1 < nr)%nat -> st (r + 1)%nat = round (st r) (rk (r + 1)%nat)).
    { intros r Hr. unfold st. assert (E : mid !! r = Some (rk (r + 1)%nat)) by (unfold mid; rewrite list_lookup_fmap, lookup_seq_lt by lia; rewrite (Nat.add_comm r 1); reflexivity). rewrite Nat.add_1_r, (take_S_r _ _ _ E), foldl_app. cbn [foldl]. rewrite ?Nat.add_1_r. reflexivity. }
    set (s := fun r => if (r =? nr)%nat then cipher k b else st r). assert (Ec : cipher k b = xor (shift_rows (map sbox (st (nr - 1)%nat))) (rk nr)).
    { unfold cipher, round_keys. fold ws. change (rounds k) with nr. fold rk. unfold st. rewrite take_ge by lia. reflexivity. }
    assert (Sub : forall r, block16 (map sbox (st r))) by (intros r; apply sub_block, St). assert (Shi : forall r, block16 (shift_rows (map sbox (st r)))) by (intros r; apply shift_block, Sub). assert (Mix : forall r, block16 (mix_columns (shift_rows (map sbox (st r))))) by (intros r; apply mix_block, Shi).
    exists w, s. split; [exact expansion_ok|]. split; [|split; [|split]].
    - intros r Hr. unfold s. destruct (Nat.eqb_spec r nr); [rewrite Ec; apply xor_block; [apply Shi|apply Rk]|apply St].
    - unfold s. replace (0 =? nr)%nat with false by (symmetry; apply Nat.eqb_neq; lia). apply add_ok; [exact Hb|apply Rk|]. intros r c Hr Hc. apply (round_key_get 0); lia.
    - intros r Hr. exists (map sbox (st r)), (shift_rows (map sbox (st r))). split; [apply Sub|]. split; [apply Shi|]. unfold s. destruct (Nat.eqb_spec r nr); [lia|]. split; [apply sub_ok, St|]. split; [apply shift_ok, Sub|]. rewrite Nat.eqb_refl. destruct (Nat.eqb_spec (r + 1) nr) as [E|E].
      + rewrite Ec. replace (nr - 1)%nat with r by lia. apply add_ok; [apply Shi|apply Rk|]. intros r' c Hr' Hc. apply round_key_get; lia.
      + exists (mix_columns (shift_rows (map sbox (st r)))). split; [apply Mix|]. split; [apply mix_ok, Shi|]. rewrite Step by lia. apply add_ok; [apply Mix|apply Rk|]. intros r' c Hr' Hc. apply round_key_get; lia.
    - unfold s. rewrite Nat.eqb_refl. reflexivity.
  Qed.
End key.

(** *** there is no other block *)
Lemma Sub_unique s a a' : is_state s -> is_state a -> is_state a' -> SubBytes s a -> SubBytes s a' -> a = a'.
Proof. intros Hs [L _] [L' _] H H'. apply state_ext; [exact L|exact L'|]. intros r c Hr Hc. apply (sub_byte_unique (get s r c)); [apply get_byte; assumption|apply H; assumption|apply H'; assumption]. Qed.
Lemma Shift_unique s a a' : is_state a -> is_state a' -> ShiftRows s a -> ShiftRows s a' -> a = a'.
Proof. intros [L _] [L' _] H H'. apply state_ext; [exact L|exact L'|]. intros r c Hr Hc. rewrite (H r c Hr Hc), (H' r c Hr Hc). reflexivity. Qed.
Lemma Mix_unique s a a' : is_state a -> is_state a' -> MixColumns s a -> MixColumns s a' -> a = a'.
Proof.
  intros [L _] [L' _] H H'. apply state_ext; [exact L|exact L'|]. intros r c Hr Hc. destruct (H r c Hr Hc) as (p & P & ->). destruct (H' r c Hr Hc) as (p' & P' & ->).
  assert (E : forall k, (k < 4)%nat -> p k = p' k) by (intros k Hk; eapply product_unique; [apply P, Hk|apply P', Hk]). rewrite !E by lia. reflexivity.
Qed.
Lemma Add_unique w w' n s a a' : is_state a -> is_state a' -> (forall i j, (i < 4 * (n + 1))%nat -> (j < 4)%nat -> w i j = w' i j) -> AddRoundKey w n s a -> AddRoundKey w' n s a' -> a = a'.
Proof. intros [L _] [L' _] E H H'. apply state_ext; [exact L|exact L'|]. intros r c Hr Hc. rewrite (H r c Hr Hc), (H' r c Hr Hc), E by lia. reflexivity. Qed.
Lemma sub_byte_byte x y : sub_byte x y -> is_byte y.
Proof. intros [H _]. exact H. Qed.
Lemma expansion_unique k w w' : key_len k -> Forall is_byte k -> KeyExpansion k w -> KeyExpansion k w' -> forall i j, (i < 4 * (length k / 4 + 7))%nat -> (j < 4)%nat -> w i j = w' i j /\ is_byte (w i j).
Proof.
  intros Hk Bk (rc & R1 & R2 & W1 & W2) (rc' & R1' & R2' & W1' & W2'). destruct (nk_cases k Hk) as [C L]. set (nk := (length k / 4)%nat) in *.
  assert (ER : forall i, (1 <= i)%nat -> rc i = rc' i /\ is_byte (rc i)).
  { intros i Hi. induction i as [|i IH]; [lia|]. destruct i as [|i]; [rewrite R1, R1'; split; [reflexivity|unfold is_byte; lia]|]. destruct (IH ltac:(lia)) as [E B]. specialize (R2 (S i) ltac:(lia)). specialize (R2' (S i) ltac:(lia)). rewrite Nat.add_1_r in R2, R2'. rewrite <- E in R2'. split; [apply (product_unique _ _ _ _ R2 R2')|apply R2]. }
  intros i. induction i as [i IH] using lt_wf_ind. intros j Hi Hj. destruct (Nat.lt_ge_cases i nk) as [H|H].
  - rewrite W1, W1' by assumption. split; [reflexivity|]. rewrite Forall_forall in Bk. apply Bk, elem_of_list_In, nth_In. lia.
  - destruct (W2 i j ltac:(lia) Hj) as (t & -> & T1 & T2 & T3). destruct (W2' i j ltac:(lia) Hj) as (t' & -> & T1' & T2' & T3'). destruct (IH (i - nk)%nat ltac:(lia) j ltac:(lia) Hj) as [<- Bw].
    assert (G : t = t' /\ is_byte t); [|destruct G as [<- Bt]; split; [reflexivity|apply lxor_byte; assumption]]. destruct (Nat.eq_dec (i mod nk)%nat 0%nat) as [M|M].
    + destruct (T1 M) as (u & U & ->). destruct (T1' M) as (u' & U' & ->). pose proof (Nat.mod_upper_bound (j + 1) 4 ltac:(lia)) as Mj. destruct (IH (i - 1)%nat ltac:(lia) ((j + 1) mod 4)%nat ltac:(lia) Mj) as [E B]. rewrite <- E in U'. rewrite (sub_byte_unique _ _ _ B U U').
      assert (Q : (1 <= i / nk)%nat) by (apply Nat.div_le_lower_bound; lia). destruct (ER _ Q) as [<- Br]. split; [reflexivity|]. apply lxor_byte; [apply (sub_byte_byte _ _ U')|]. destruct (j =? 0)%nat; [exact Br|unfold is_byte; lia].
    + destruct (IH (i - 1)%nat ltac:(lia) j ltac:(lia) Hj) as [E B]. rewrite <- E in T2', T3'. destruct (Nat.eq_dec nk 8%nat) as [N8|N8]; [destruct (Nat.eq_dec (i mod nk)%nat 4%nat) as [M4|M4]|].
      * specialize (T2 M N8 M4). specialize (T2' M N8 M4). split; [apply (sub_byte_unique _ _ _ B T2 T2')|apply (sub_byte_byte _ _ T2)].
      * rewrite T3, T3' by auto. auto.
      * rewrite T3, T3' by auto. auto.
Qed.
Lemma is_aes_unique k b d d' : key_len k -> Forall is_byte k -> is_aes k b d -> is_aes k b d' -> d = d'.
Proof.
  intros Hk Bk (w & s & K & S & S0 & R & ->) (w' & s' & K' & S' & S0' & R' & ->). destruct (nk_cases k Hk) as [C _]. set (nr := (length k / 4 + 6)%nat) in *.
  assert (W : forall n i j, (n <= nr)%nat -> (i < 4 * (n + 1))%nat -> (j < 4)%nat -> w i j = w' i j) by (intros n i j Hn Hi Hj; apply (expansion_unique k w w' Hk Bk K K'); [unfold nr in Hn; lia|exact Hj]).
  assert (E : forall r, (r <= nr)%nat -> s r = s' r); [|apply E; lia]. induction r as [|r IH]; intros Hr.
  - apply (Add_unique w w' 0 b); [apply S; lia|apply S'; lia| |exact S0|exact S0']. intros i j Hi Hj. apply (W 0%nat); lia.
  - specialize (IH ltac:(lia)). destruct (R r ltac:(lia)) as (s1 & s2 & I1 & I2 & A1 & A2 & A3). destruct (R' r ltac:(lia)) as (s1' & s2' & I1' & I2' & A1' & A2' & A3'). rewrite <- IH in A1'. pose proof (Sub_unique (s r) s1 s1' (S r ltac:(lia)) I1 I1' A1 A1') as <-. pose proof (Shift_unique s1 s2 s2' I2 I2' A2 A2') as <-. rewrite <- Nat.add_1_r. destruct (Nat.eqb_spec (r + 1) nr) as [En|En].
    + rewrite En. apply (Add_unique w w' nr s2); [apply S; lia|apply S'; lia|intros i j; apply W; lia|exact A3|exact A3'].
    + destruct A3 as (s3 & I3 & M3 & A3). destruct A3' as (s3' & I3' & M3' & A3'). pose proof (Mix_unique s2 s3 s3' I3 I3' M3 M3') as <-. apply (Add_unique w w' (r + 1) s3); [apply S; lia|apply S'; lia|intros i j; apply W; lia|exact A3|exact A3'].
Qed.

(** *** C163 *)
Lemma codes k b : Forall is_byte k -> is_state b -> aes_enc k b = cipher k b /\ aes_dec k b = inv_cipher k b.
Proof.
  intros Bk Hb. unfold aes_enc, aes_dec. replace (is_bytes k) with true by (symmetry; unfold is_bytes; apply forallb_forall; intros x Hx; rewrite <- elem_of_list_In in Hx; rewrite Forall_forall in Bk; specialize (Bk x Hx); unfold is_byte in Bk; apply andb_true_iff; rewrite Z.leb_le, Z.ltb_lt; lia). rewrite (proj2 (is_block_spec b) Hb). auto.
Qed.
Theorem aes_fips_exact k b d : key_len k -> Forall is_byte k -> is_state b -> is_aes k b d <-> d = aes_enc k b.
Proof.
  intros Hk Bk Hb. rewrite (proj1 (codes k b Bk Hb)). pose proof (cipher_fips k Hk Bk b Hb) as P. split; [|intros ->; exact P]. intros H. apply (is_aes_unique k b); assumption.
Qed.
(** decryption finds the block that the standard encrypts to the given one *)
Theorem aes_fips_inverse k b d : key_len k -> Forall is_byte k -> is_state b -> is_state d -> is_aes k b d <-> b = aes_dec k d.
Proof.
  intros Hk Bk Hb Hd. rewrite aes_fips_exact by assumption. rewrite (proj1 (codes k b Bk Hb)), (proj2 (codes k d Bk Hd)). pose proof (round_keys_ok k Bk) as K. split; intros ->; symmetry; apply cipher_ok_inv; assumption.
Qed.
(** the vectors of appendix C: one for each length of key *)
Definition upto (n : nat) : bytes := map Z.of_nat (seq 0 n).
Definition text_c : bytes := be 16 0x00112233445566778899aabbccddeeff.
Example aes_fips_case : Forall (fun n => key_len (upto n) /\ Forall is_byte (upto n)) [16; 24; 32]%nat /\ is_state text_c /\
  is_aes (upto 16) text_c (be 16 0x69c4e0d86a7b0430d8cdb78070b4c55a) /\ is_aes (upto 24) text_c (be 16 0xdda97ca4864cdfe06eaf70a0ec0d7191) /\
  is_aes (upto 32) text_c (be 16 0x8ea2b7ca516745bfeafc49904b496089) /\ ~ is_aes (upto 32) text_c text_c.
Proof.
  assert (B : forall n, (n <= 256)%nat -> Forall is_byte (upto n)) by (intros n Hn; apply Forall_forall; intros x Hx; apply elem_of_list_In, in_map_iff in Hx as (i & <- & Hi); apply in_seq in Hi; unfold is_byte; lia).
  assert (K : Forall (fun n => key_len (upto n)) [16; 24; 32]%nat) by (repeat constructor; unfold key_len, upto; rewrite map_length, seq_length; lia). apply Forall_cons in K as [K1 K]. apply Forall_cons in K as [K2 K]. apply Forall_cons in K as [K3 _].
  assert (T : is_state text_c) by (apply is_block_spec; vm_compute; reflexivity). split; [repeat (apply Forall_cons; split; [split; [assumption|apply B; lia]|]); constructor|]. split; [exact T|].
  rewrite !aes_fips_exact by (assumption || (apply B; lia)). split; [vm_compute; reflexivity|]. split; [vm_compute; reflexivity|]. split; [vm_compute; reflexivity|]. intros E. vm_compute in E. discriminate.
Qed.
Print Assumptions aes_fips_exact.
Print Assumptions aes_fips_inverse.
