(** C96, exactly: which integers survive a float, and what becomes of the others. *)
From Coq Require Import Floats.SpecFloat ZArith.
From Verif Require Import Base ConvModel ConvProofs ConvProofs2 ConvFloat ConvNearest ConvNearestProps.
Local Open Scope Z.

(** the number of binary digits of the two types *)
Definition places (F : nty) : Z := match F with F32 => 24 | _ => 53 end.
(** x has at most that many binary digits, not counting zeroes at the end *)
Definition short (F : nty) (x : Z) : Prop := exists m k, 0 <= k /\ x = m * 2^k /\ Z.abs m < 2^(places F).
(** the smallest number above the values of an integer type *)
Definition beyond (t : ity) : Z := if signed t then 2^(bits t - 1) else 2^(bits t).

Lemma representable F x : F = F32 \/ F = F64 -> short F x -> Z.abs x <= 2^64 -> exists g, finite g /\ of_type F g /\ amount g = x * 2^1074.
Proof.
  intros HF (m & k & Hk & Ex & Hm) Hx. destruct (decide (m = 0)) as [->|N].
  { exists (S754_zero false). split; [exact I|]. split; [destruct HF as [-> | ->]; reflexivity|]. cbn [amount]. lia. }
  assert (HP : exists emax, (forall g, of_type F g <-> valid_binary (places F) emax g = true) /\ emax - places F >= 100 /\ emin (places F) emax <= -100 /\ 24 <= places F <= 53 /\ -1074 <= emin (places F) emax).
  { destruct HF as [-> | ->]; [exists 128|exists 1024]; (split; [intros g; reflexivity|]); vm_compute; repeat split; discriminate. }
  destruct HP as (emax & HT & P1 & P2 & P3 & P4). set (p := places F) in *. clearbody p.
  set (a := Z.abs m) in *. assert (Ha : 0 < a) by lia. pose proof (Z.log2_spec a Ha) as [L1 L2]. pose proof (Z.log2_nonneg a) as L0. set (d := Z.log2 a) in *.
  assert (Hd : d < p) by (apply (Z.pow_lt_mono_r_iff 2); lia). assert (Hj0 : exists j, j = p - 1 - d) by eauto. destruct Hj0 as [j Ej].
  assert (Hj : 0 <= j <= 52) by lia. set (q := a * 2^j). assert (J0 : 0 < 2^j) by (apply Z.pow_pos_nonneg; lia).
  assert (Hq : 2^(p - 1) <= q < 2^p).
  { unfold q. split.
    - replace (p - 1) with (d + j) by lia. rewrite Z.pow_add_r by lia. apply Z.mul_le_mono_nonneg_r; lia.
    - replace p with (Z.succ d + j) by lia. rewrite (Z.pow_add_r 2 (Z.succ d) j) by lia. apply Z.mul_lt_mono_pos_r; lia. }
  assert (K : k <= 64).
  { apply (Z.pow_le_mono_r_iff 2); [lia|lia|]. assert (0 < 2^k) by (apply Z.pow_pos_nonneg; lia). assert (Z.abs x = a * 2^k) by (rewrite Ex, Z.abs_mul, (Z.abs_eq (2^k)) by lia; reflexivity).
    assert (1 * 2^k <= a * 2^k) by (apply Z.mul_le_mono_nonneg_r; lia). lia. }
  assert (0 < 2^(p - 1)) by (apply Z.pow_pos_nonneg; lia).
  assert (V : valid_binary p emax (finish p emax (m <? 0) q (k - j)) = true) by (apply finish_valid; [lia|lia|lia|right; lia]).
  exists (finish p emax (m <? 0) q (k - j)). assert (Hqp : exists n, q = Zpos n) by (destruct q as [|n|n]; [lia|eauto|lia]). destruct Hqp as [n En].
  split; [|split; [apply HT; exact V|]]; rewrite En; cbn [finish]; (destruct (Z.leb_spec (k - j) (emax - p)); [|lia]); [exact I|]. cbn [amount]. rewrite <- En. unfold q.
  replace (2^(k - j + 1074)) with (2^k * 2^(1074 - j)) by (rewrite <- Z.pow_add_r by lia; f_equal; lia).
  replace (2^1074) with (2^j * 2^(1074 - j)) by (rewrite <- Z.pow_add_r by lia; f_equal; lia).
  rewrite Ex. unfold a. generalize (2^(1074 - j)). intros w. generalize (2^k), (2^j). intros u v.
  destruct (Z.ltb_spec m 0) as [L|L]; [rewrite Z.abs_neq by lia|rewrite Z.abs_eq by lia]; ring.
Qed.
Lemma short_pow F k : F = F32 \/ F = F64 -> 0 <= k -> short F (2^k) /\ short F (- 2^k).
Proof.
  intros HF Hk. assert (B : 1 < 2^(places F)) by (destruct HF as [-> | ->]; reflexivity).
  split; [exists 1, k|exists (-1), k]; (split; [exact Hk|]); (split; [lia|]); cbn; lia.
Qed.

Section P.
Context (ff : spec_float -> list Z) (pf : list Z -> spec_float) (oob : ity -> spec_float -> Z).
Notation conv := (convert ff pf oob).

(** An integer that fits into the binary digits of the float type survives.  Every other one
    comes back as another integer, the one the float stands for; unless that is just beyond
    the values of the integer type - then the result of the second conversion is left open
    by the language *)
Theorem integer_float_exact T t F x : nty_ity T = Some t -> in_ity t x -> F = F32 \/ F = F64 ->
  exists f, conv (BNum T) (BNum F) (VInt x) = Some (VFloat f) /\
    (short F x -> conv (BNum F) (BNum T) (VFloat f) = Some (VInt x)) /\
    (~ short F x ->
      (exists y, y <> x /\ in_ity t y /\ amount f = y * 2^1074 /\ conv (BNum F) (BNum T) (VFloat f) = Some (VInt y)) \/
      (amount f = beyond t * 2^1074 /\ conv (BNum F) (BNum T) (VFloat f) = Some (VInt (oob t f)))).
Proof.
  intros HT Hx HF. destruct (integer_to_nearest_float ff pf oob T t F x HT Hx HF) as (f & Ef & N). exists f. split; [exact Ef|]. clear Ef.
  destruct (nty_good T t HT) as [G1 G2]. unfold good_ity in G1.
  assert (U : 0 < 2^1074) by (apply Z.pow_pos_nonneg; lia).
  assert (Hpow : 0 < 2^(bits t - 1) /\ 2^(bits t) = 2 * 2^(bits t - 1) /\ 2^(bits t) <= 2^64).
  { split; [apply Z.pow_pos_nonneg; lia|]. split; [|apply Z.pow_le_mono_r; lia]. replace (bits t) with (Z.succ (bits t - 1)) at 1 by lia. rewrite Z.pow_succ_r by lia. reflexivity. }
  assert (Hb : Z.abs x <= 2^64) by (unfold in_ity in Hx; destruct (signed t); lia).
  destruct N as (N1 & N2 & N3).
  assert (back : forall y, amount f = y * 2^1074 -> in_ity t y -> conv (BNum F) (BNum T) (VFloat f) = Some (VInt y)).
  { intros y Ey Hy. apply (float_to_integer_truncates ff pf oob T F t f y HF N2 HT Hy N1). rewrite Ey, Z.abs_mul, (Z.abs_eq (2^1074)) by lia. generalize dependent (2^1074). intros u. clear. intros. nia. }
  split.
  - intros Sx. destruct (representable F x HF Sx Hb) as (g & Fg & Tg & Eg). destruct (N3 g Fg Tg) as [A _]. rewrite Eg, Z.sub_diag in A. apply back; [lia|exact Hx].
  - intros NS. assert (P : 24 <= places F <= 53) by (destruct HF as [-> | ->]; cbn; lia). assert (Q : 0 < 2^(places F)) by (apply Z.pow_pos_nonneg; lia).
    assert (Q64 : 2^(places F) <= 2^53) by (apply Z.pow_le_mono_r; lia).
    assert (Bx : 2^(places F) <= Z.abs x). { apply Z.nlt_ge. intros C. apply NS. exists x, 0. rewrite Z.pow_0_r. lia. }
    (* no number of the form 2^k or - 2^k, or 0, lies between x and the float *)
    assert (Sep : forall c, short F c -> Z.abs c <= 2^64 -> (x <= c -> amount f <= c * 2^1074) /\ (c <= x -> c * 2^1074 <= amount f)).
    { intros c Sc Bc. destruct (representable F c HF Sc Bc) as (g & Fg & Tg & Eg). destruct (N3 g Fg Tg) as [A _]. rewrite Eg in A.
      generalize dependent (2^1074). intros u. clear. intros. split; intros; nia. }
    destruct (short_pow F (places F) HF ltac:(lia)) as [S1 S2]. destruct (Sep _ S1 ltac:(lia)) as [_ A1]. destruct (Sep _ S2 ltac:(lia)) as [A2 _].
    assert (Af : 2^(places F) * 2^1074 <= Z.abs (amount f)).
    { generalize dependent (2^1074). generalize dependent (2^(places F)). intros q. clear. intros. destruct (Z.abs_spec x) as [[C D]|[C D]]; nia. }
    assert (Hy : exists y, amount f = y * 2^1074).
    { destruct f as [s|s| |s m e]; try contradiction; [exists 0; reflexivity|].
      assert (V : Zpos m < 2^(places F)).
      { destruct HF as [-> | ->]; cbn [of_type] in N2; [destruct (valid_small 24 128 s m e N2) as [H _]|destruct (valid_small 53 1024 s m e N2) as [H _]]; exact H. }
      assert (He : 0 <= e).
      { apply Z.nlt_ge. intros C. cbn [amount] in Af. assert (W : Z.abs ((if s then -1 else 1) * (Zpos m * 2^(e + 1074))) = Zpos m * 2^(e + 1074)).
        { assert (0 <= 2^(e + 1074)) by (apply Z.pow_nonneg; lia). destruct s; [rewrite Z.abs_neq|rewrite Z.abs_eq]; generalize dependent (2^(e + 1074)); clear; intros; nia. }
        rewrite W in Af. assert (2^(e + 1074) <= 2^1074) by (apply Z.pow_le_mono_r; lia). assert (0 <= 2^(e + 1074)) by (apply Z.pow_nonneg; lia).
        clear - Af V H H0 U Q. generalize dependent (2^1074). generalize dependent (2^(e + 1074)). generalize dependent (2^(places F)). intros. nia. }
      exists ((if s then -1 else 1) * (Zpos m * 2^e)). cbn [amount]. rewrite Z.pow_add_r by lia. ring. }
    destruct Hy as [y Ey].
    assert (Nyx : y <> x).
    { intros ->. apply NS. destruct f as [s|s| |s m e]; try contradiction; [exfalso; cbn [amount] in Af; rewrite Z.abs_0 in Af; clear - Af Q U; generalize dependent (2^1074); generalize dependent (2^(places F)); intros; nia|].
      assert (V : Zpos m < 2^(places F)).
      { destruct HF as [-> | ->]; cbn [of_type] in N2; [destruct (valid_small 24 128 s m e N2) as [H _]|destruct (valid_small 53 1024 s m e N2) as [H _]]; exact H. }
      destruct (Z.le_gt_cases 0 e) as [He|He].
      - exists ((if s then -1 else 1) * Zpos m), e. split; [exact He|]. split; [|destruct s; lia]. cbn [amount] in Ey. rewrite Z.pow_add_r in Ey by lia.
        apply (Z.mul_reg_r _ _ (2^1074)); [lia|]. rewrite <- Ey. ring.
      - exfalso. rewrite Ey in Af. cbn [amount] in Ey. assert (2^(e + 1074) <= 2^1074) by (apply Z.pow_le_mono_r; lia). assert (0 <= 2^(e + 1074)) by (apply Z.pow_nonneg; lia).
        clear - Ey Af V H H0 U Q. generalize dependent (2^1074). generalize dependent (2^(e + 1074)). generalize dependent (2^(places F)). intros. destruct s; nia. }
    destruct (short_pow F (bits t) HF ltac:(lia)) as [B1 _]. destruct (short_pow F (bits t - 1) HF ltac:(lia)) as [B2 B3].
    assert (B0 : short F 0) by (exists 0, 0; rewrite Z.pow_0_r; lia).
    assert (Hr : in_ity t y \/ y = beyond t).
    { unfold in_ity, beyond in *. destruct (signed t).
      - destruct (Sep _ B2 ltac:(lia)) as [C1 _]. destruct (Sep _ B3 ltac:(lia)) as [_ C2]. specialize (C1 ltac:(lia)). specialize (C2 ltac:(lia)). rewrite Ey in C1, C2.
        apply Z.mul_le_mono_pos_r in C1; [|exact U]. apply Z.mul_le_mono_pos_r in C2; [|exact U]. lia.
      - destruct (Sep _ B1 ltac:(lia)) as [C1 _]. destruct (Sep _ B0 ltac:(lia)) as [_ C2]. specialize (C1 ltac:(lia)). specialize (C2 ltac:(lia)). rewrite Ey in C1, C2.
        apply Z.mul_le_mono_pos_r in C1; [|exact U]. apply Z.mul_le_mono_pos_r in C2; [|exact U]. lia. }
    destruct Hr as [Hr|Hr]; [left; exists y; auto|right]. split; [rewrite Ey, Hr; reflexivity|].
    rewrite convert_num. unfold conv_num. rewrite HT. do 2 f_equal. unfold float_to_int.
    assert (Et : forall z, float_trunc f = Some z -> fits t z = false).
    { intros z Ez. apply not_true_iff_false. intros C. apply fits_spec in C.
      assert (z = y); [|subst z; subst y; unfold in_ity, beyond in C; destruct (signed t); lia].
      destruct f as [s|s| |s m e]; try contradiction; cbn [float_trunc amount] in *.
      - injection Ez as <-. clear - Ey U. generalize dependent (2^1074). intros. nia.
      - assert (V : Zpos m < 2^(places F)).
        { destruct HF as [-> | ->]; cbn [of_type] in N2; [destruct (valid_small 24 128 s m e N2) as [H _]|destruct (valid_small 53 1024 s m e N2) as [H _]]; exact H. }
        destruct (Z.leb_spec 0 e) as [He|He].
        + injection Ez as <-. apply (Z.mul_reg_r _ _ (2^1074)); [lia|]. rewrite <- Ey. rewrite Z.pow_add_r by lia. destruct s; ring.
        + exfalso. rewrite Ey in Af. assert (2^(e + 1074) <= 2^1074) by (apply Z.pow_le_mono_r; lia). assert (0 <= 2^(e + 1074)) by (apply Z.pow_nonneg; lia).
          clear - Ey Af V H H0 U Q. generalize dependent (2^1074). generalize dependent (2^(e + 1074)). generalize dependent (2^(places F)). intros. destruct s; nia. }
    destruct (float_trunc f) as [z|]; [rewrite (Et z eq_refl)|]; reflexivity.
Qed.
End P.
Print Assumptions integer_float_exact.
(** 2^60 + 2^10 survives float64, 2^53 + 1 becomes 2^53, and 2^63 - 1 is rounded beyond int64 *)
Example integer_float_exact_ex : short F64 (2^60 + 2^10) /\ ~ short F64 (2^53 + 1) /\ amount (int_to_float 53 1024 (2^63 - 1)) = beyond (Ity true 64) * 2^1074.
Proof.
  split; [exists (2^50 + 1), 10; repeat split; reflexivity || discriminate|]. split; [|vm_compute; reflexivity].
  intros (m & k & Hk & E & B). cbn [places] in B. destruct (Z.eq_dec k 0) as [->|]; [rewrite Z.pow_0_r in E; lia|].
  assert (X : Z.odd (2^53 + 1) = Z.odd (m * 2^k)) by (f_equal; exact E). rewrite Z.odd_mul, Z.odd_pow in X by lia. rewrite andb_comm in X. discriminate X.
Qed.
