(** time.div computes the remainder (TimeModel), whatever the divisor. *)
From Verif Require Import Base TimeModel.
Local Open Scope Z.

Lemma lor_high a b n : 0 <= n -> 0 <= a < 2^n -> Z.lor a (b * 2^n) = a + b * 2^n.
Proof.
  intros Hn Ha. assert (D : Z.land a (b * 2^n) = 0).
  { apply Z.bits_inj'. intros i Hi. rewrite Z.land_spec, Z.bits_0. rewrite <- Z.shiftl_mul_pow2 by lia. rewrite Z.shiftl_spec by lia.
    destruct (Z_lt_dec i n) as [L|L]; [rewrite (Z.testbit_neg_r b (i - n)) by lia; apply andb_false_r|].
    rewrite <- (Z.mod_small a (2^n)) by lia. rewrite Z.mod_pow2_bits_high by lia. reflexivity. }
  rewrite Z.add_nocarry_lxor by exact D. symmetry. apply Z.lxor_lor, D.
Qed.
Lemma nanos128_ok sec nsec : 0 <= sec < 2^64 -> 0 <= nsec < second -> let '(u1, u0) := nanos128 sec nsec in
  0 <= u1 < 2^63 /\ 0 <= u0 < 2^64 /\ u1 * 2^64 + u0 = sec * second + nsec.
Proof.
  intros Hs Hn. unfold nanos128. rewrite (Z.land_ones sec 32 ltac:(lia) : Z.land sec (2^32 - 1) = sec mod 2^32). rewrite !Z.shiftr_div_pow2, Z.shiftl_mul_pow2 by lia.
  pose proof (Z.div_mod sec (2^32) ltac:(lia)) as D. pose proof (Z.mod_pos_bound sec (2^32) ltac:(lia)) as M. set (h := sec / 2^32) in *. set (l := sec mod 2^32) in *.
  assert (H : 0 <= h < 2^32) by lia. unfold second in *. rewrite (u64_id (h * 1000000000)), (u64_id (l * 1000000000)) by (unfold is_u64; lia).
  set (th := h * 1000000000). pose proof (Z.div_mod th (2^32) ltac:(lia)) as D2. pose proof (Z.mod_pos_bound th (2^32) ltac:(lia)) as M2. set (u1 := th / 2^32) in *.
  assert (E : u64 (th * 2^32) = th mod 2^32 * 2^32) by (unfold u64; change (2^64) with (2^32 * 2^32); rewrite Z.mul_mod_distr_r by lia; reflexivity). rewrite E.
  set (r := th mod 2^32) in *. unfold u64.
  assert (U1 : 0 <= u1 < 2^30) by lia.
  destruct (Z_lt_dec (r * 2^32 + l * 1000000000) (2^64)) as [C|C].
  - rewrite (Z.mod_small (r * 2^32 + l * 1000000000)) by lia. destruct (Z.ltb_spec (r * 2^32 + l * 1000000000) (r * 2^32)); [lia|].
    destruct (Z_lt_dec (r * 2^32 + l * 1000000000 + nsec) (2^64)) as [C2|C2].
    + rewrite Z.mod_small by lia. destruct (Z.ltb_spec (r * 2^32 + l * 1000000000 + nsec) (r * 2^32 + l * 1000000000)); lia.
    + rewrite <- (Z_mod_plus_full (r * 2^32 + l * 1000000000 + nsec) (-1)). rewrite Z.mod_small by lia.
      destruct (Z.ltb_spec (r * 2^32 + l * 1000000000 + nsec + -1 * 2^64) (r * 2^32 + l * 1000000000)); [|lia]. rewrite Z.mod_small by lia. lia.
  - rewrite <- (Z_mod_plus_full (r * 2^32 + l * 1000000000) (-1)). rewrite (Z.mod_small (r * 2^32 + l * 1000000000 + -1 * 2^64)) by lia.
    destruct (Z.ltb_spec (r * 2^32 + l * 1000000000 + -1 * 2^64) (r * 2^32)); [|lia]. rewrite (Z.mod_small (u1 + 1)) by lia.
    rewrite (Z.mod_small (r * 2^32 + l * 1000000000 + -1 * 2^64 + nsec)) by lia.
    destruct (Z.ltb_spec (r * 2^32 + l * 1000000000 + -1 * 2^64 + nsec) (r * 2^32 + l * 1000000000 + -1 * 2^64)); lia.
Qed.
Lemma div_align_ok fuel d : 0 < d < 2^64 -> 2^63 <= d * 2^(Z.of_nat fuel) -> exists k, (k <= fuel)%nat /\ div_align fuel d = d * 2^(Z.of_nat k) /\ 2^63 <= d * 2^(Z.of_nat k) < 2^64.
Proof.
  revert d. induction fuel as [|fuel IH]; intros d Hd Hb; cbn [div_align].
  - exists 0%nat. change (2 ^ Z.of_nat 0) with 1 in *. lia.
  - rewrite Z.shiftr_div_pow2, Z.shiftl_mul_pow2 by lia. destruct (Z.eqb_spec (d / 2^63) 1) as [E|E].
    + exists 0%nat. change (2 ^ Z.of_nat 0) with 1. pose proof (Z.div_mod d (2^63) ltac:(lia)). pose proof (Z.mod_pos_bound d (2^63) ltac:(lia)). lia.
    + assert (d < 2^63).
      { destruct (Z_lt_dec d (2^63)); [assumption|]. exfalso. apply E. symmetry. apply Z.div_unique with (d - 2^63); lia. }
      rewrite u64_id by (unfold is_u64; lia). rewrite Nat2Z.inj_succ, Z.pow_succ_r in Hb by lia.
      destruct (IH (d * 2^1)) as (k & Hk & K1 & K2); [lia|change (2^1) with 2; nia|]. exists (S k). rewrite Nat2Z.inj_succ, Z.pow_succ_r by lia. change (2^1) with 2 in *. split; [lia|]. split; [rewrite K1; ring|lia].
Qed.
Lemma words_lt a1 a0 b1 b0 : 0 <= a0 < 2^64 -> 0 <= b0 < 2^64 -> ((b1 <? a1) || ((a1 =? b1) && (b0 <=? a0)) = true <-> b1 * 2^64 + b0 <= a1 * 2^64 + a0).
Proof. intros Ha Hb. rewrite orb_true_iff, andb_true_iff, Z.ltb_lt, Z.eqb_eq, Z.leb_le. lia. Qed.
Definition div_sub (u1 u0 d1 d0 : Z) : Z * Z :=
  if (d1 <? u1) || ((u1 =? d1) && (d0 <=? u0)) then
    let u0x := u0 in let u0 := u64 (u0 - d0) in let u1 := if u0x <? u0 then u64 (u1 - 1) else u1 in (u64 (u1 - d1), u0)
  else (u1, u0).
Lemma div_sub_ok u1 u0 d1 d0 d p : 0 < d -> 0 <= u1 < 2^64 -> 0 <= u0 < 2^64 -> 0 <= d1 < 2^64 -> 0 <= d0 < 2^64 ->
  d1 * 2^64 + d0 = d * p -> u1 * 2^64 + u0 < 2 * (d1 * 2^64 + d0) ->
  exists u1' u0', div_sub u1 u0 d1 d0 = (u1', u0') /\ 0 <= u1' < 2^64 /\ 0 <= u0' < 2^64 /\ (u1' * 2^64 + u0') mod d = (u1 * 2^64 + u0) mod d /\ u1' * 2^64 + u0' < d1 * 2^64 + d0.
Proof.
  intros Hd Hu1 Hu0 Hd1 Hd0 ED HU. unfold div_sub. destruct ((d1 <? u1) || ((u1 =? d1) && (d0 <=? u0))) eqn:C.
  - apply (words_lt u1 u0 d1 d0 Hu0 Hd0) in C. cbv zeta. unfold u64.
    assert (MD : forall x, x = u1 * 2^64 + u0 + - (d1 * 2^64 + d0) -> x mod d = (u1 * 2^64 + u0) mod d).
    { intros x ->. rewrite ED. replace (- (d * p)) with (- p * d) by ring. apply Z_mod_plus_full. }
    destruct (Z_le_dec d0 u0) as [B|B].
    + rewrite (Z.mod_small (u0 - d0)) by lia. destruct (Z.ltb_spec u0 (u0 - d0)); [lia|]. rewrite (Z.mod_small (u1 - d1)) by lia. exists (u1 - d1), (u0 - d0).
      split; [reflexivity|]. split; [lia|]. split; [lia|]. split; [apply MD; ring|lia].
    + rewrite <- (Z_mod_plus_full (u0 - d0) 1). rewrite (Z.mod_small (u0 - d0 + 1 * 2^64)) by lia. destruct (Z.ltb_spec u0 (u0 - d0 + 1 * 2^64)); [|lia].
      rewrite (Z.mod_small (u1 - 1)) by lia. rewrite (Z.mod_small (u1 - 1 - d1)) by lia. exists (u1 - 1 - d1), (u0 - d0 + 1 * 2^64).
      split; [reflexivity|]. split; [lia|]. split; [lia|]. split; [apply MD; ring|lia].
  - exists u1, u0. split; [reflexivity|]. split; [lia|]. split; [lia|]. split; [reflexivity|].
    destruct (Z_lt_dec (u1 * 2^64 + u0) (d1 * 2^64 + d0)); [assumption|]. exfalso. apply not_true_iff_false in C. apply C, words_lt; lia.
Qed.
Lemma div_loop_S fuel u1 u0 d1 d0 d : div_loop (S fuel) u1 u0 d1 d0 d = let '(u1, u0) := div_sub u1 u0 d1 d0 in
  if (d1 =? 0) && (d0 =? d) then u0 else div_loop fuel u1 u0 (Z.shiftr d1 1) (Z.lor (Z.shiftr d0 1) (u64 (Z.shiftl (Z.land d1 1) 63))) d.
Proof. reflexivity. Qed.
Lemma div_loop_ok k : forall fuel u1 u0 d1 d0 d, (k < fuel)%nat -> 0 < d < 2^64 -> 0 <= u1 < 2^64 -> 0 <= u0 < 2^64 -> 0 <= d1 < 2^64 -> 0 <= d0 < 2^64 ->
  d1 * 2^64 + d0 = d * 2^(Z.of_nat k) -> u1 * 2^64 + u0 < 2 * (d1 * 2^64 + d0) -> div_loop fuel u1 u0 d1 d0 d = (u1 * 2^64 + u0) mod d.
Proof.
  induction k as [|k IH]; intros fuel u1 u0 d1 d0 d Hf Hd Hu1 Hu0 Hd1 Hd0 ED HU; (destruct fuel as [|fuel]; [lia|]); rewrite div_loop_S;
    destruct (div_sub_ok u1 u0 d1 d0 d _ ltac:(lia) Hu1 Hu0 Hd1 Hd0 ED HU) as (u1' & u0' & -> & R1 & R0 & MD & LT); rewrite <- MD.
  - (* the last round *) change (2 ^ Z.of_nat 0) with 1 in ED. assert (d1 = 0) as -> by lia. assert (d0 = d) as -> by lia. rewrite !Z.eqb_refl. cbn [andb]. assert (u1' = 0) as -> by lia. rewrite Z.mod_small; lia.
  - rewrite Nat2Z.inj_succ, Z.pow_succ_r in ED by lia. pose proof (Z.pow_pos_nonneg 2 (Z.of_nat k) ltac:(lia) ltac:(lia)) as PP.
    assert (NE : (d1 =? 0) && (d0 =? d) = false).
    { destruct (Z.eqb_spec d1 0); [|reflexivity]. destruct (Z.eqb_spec d0 d); [|reflexivity]. exfalso. nia. }
    rewrite NE. rewrite (Z.land_ones d1 1 ltac:(lia) : Z.land d1 1 = d1 mod 2^1). rewrite !Z.shiftr_div_pow2, Z.shiftl_mul_pow2 by lia. change (2^1) with 2.
    pose proof (Z.div_mod d1 2 ltac:(lia)) as E1. pose proof (Z.mod_pos_bound d1 2 ltac:(lia)) as B1. pose proof (Z.div_mod d0 2 ltac:(lia)) as E0. pose proof (Z.mod_pos_bound d0 2 ltac:(lia)) as B0.
    rewrite u64_id by (unfold is_u64; lia).
    assert (EV : d0 mod 2 = 0).
    { assert (X : (d1 * 2^64 + d0) mod 2 = 0) by (rewrite ED; replace (d * (2 * 2 ^ Z.of_nat k)) with (d * 2 ^ Z.of_nat k * 2) by ring; apply Z_mod_mult).
      replace (d1 * 2^64 + d0) with (d0 + d1 * 2^63 * 2) in X by ring. rewrite Z_mod_plus_full in X. exact X. }
    assert (LO : Z.lor (d0 / 2) (d1 mod 2 * 2^63) = d0 / 2 + d1 mod 2 * 2^63).
    { apply lor_high; lia. }
    rewrite LO. apply IH; lia.
Qed.

Lemma long_rem_ok sec nsec d : 0 <= sec < 2^64 -> 0 <= nsec < second -> 0 < d < 2^63 -> long_rem sec nsec d = (sec * second + nsec) mod d.
Proof.
  intros Hs Hn Hd. unfold long_rem. pose proof (nanos128_ok sec nsec Hs Hn) as H. destruct (nanos128 sec nsec) as [u1 u0]. destruct H as (H1 & H0 & <-).
  destruct (div_align_ok 63 d ltac:(lia)) as (k & Hk & -> & B); [change (Z.of_nat 63) with 63; lia|].
  apply (div_loop_ok (64 + k)); try lia. rewrite Nat2Z.inj_add. rewrite Z.pow_add_r by lia. change (Z.of_nat 64) with 64. ring.
Qed.
(** the remainder of Truncate and Round, for every time but the first second of all *)
Lemma go_div_exact t d : - 2^63 < g_ext t < 2^63 -> 0 <= g_nsec t < second -> 0 < d < 2^63 -> go_div t d = (g_ext t * second + g_nsec t) mod d.
Proof.
  intros He Hn Hd. unfold go_div. cbv zeta. set (T := g_ext t) in *. set (n := g_nsec t) in *.
  assert (C : exists sec nsec, (if T <? 0 then (if - n <? 0 then (i64 (i64 (- T) - 1), - n + second) else (i64 (- T), - n)) else (T, n)) = (sec, nsec) /\
    0 <= sec < 2^63 /\ 0 <= nsec < second /\ sec * second + nsec = if T <? 0 then - (T * second + n) else T * second + n).
  { destruct (Z.ltb_spec T 0).
    - rewrite (i64_id (- T)) by (unfold is_i64; lia). destruct (Z.ltb_spec (- n) 0).
      + rewrite (i64_id (- T - 1)) by (unfold is_i64; lia). exists (- T - 1), (- n + second). split; [reflexivity|]. split; [lia|]. split; [lia|ring].
      + exists (- T), (- n). split; [reflexivity|]. split; [lia|]. split; [lia|ring].
    - exists T, n. split; [reflexivity|]. split; [lia|]. split; [lia|reflexivity]. }
  destruct C as (sec & nsec & -> & Hsec & Hnsec & EQ).
  assert (R : (if (d <? second) && (Z.rem second (d + d) =? 0) then Z.rem nsec d
     else if Z.rem d second =? 0 then i64 (i64 (Z.rem sec (Z.quot d second) * second) + nsec) else i64 (long_rem (u64 sec) nsec d)) = (sec * second + nsec) mod d).
  { assert (S0 : 0 < second) by reflexivity. destruct (Z.ltb_spec d second) as [L|L]; [destruct (Z.eqb_spec (Z.rem second (d + d)) 0) as [D0|D0]|]; cbn [andb].
    - rewrite Z.rem_mod_nonneg in D0 by lia. rewrite Z.rem_mod_nonneg by lia. apply Z.mod_divide in D0 as [q Hq]; [|lia].
      rewrite Z.add_comm. replace (sec * second) with (sec * q * 2 * d) by (rewrite Hq; ring). rewrite Z_mod_plus_full. reflexivity.
    - destruct (Z.eqb_spec (Z.rem d second) 0) as [D1|D1]; [rewrite Z.rem_mod_nonneg in D1 by lia; rewrite Z.mod_small in D1; lia|].
      rewrite u64_id by (unfold is_u64; lia). rewrite long_rem_ok by lia. apply i64_id. pose proof (Z.mod_pos_bound (sec * second + nsec) d ltac:(lia)). unfold is_i64. lia.
    - destruct (Z.eqb_spec (Z.rem d second) 0) as [D1|D1].
      + rewrite Z.rem_mod_nonneg in D1 by lia. apply Z.mod_divide in D1 as [q Hq]; [|lia]. rewrite Z.quot_div_nonneg by lia. rewrite Hq, Z.div_mul by lia. assert (0 < q) by nia.
        rewrite Z.rem_mod_nonneg by lia. pose proof (Z.mod_pos_bound sec q ltac:(lia)) as B. pose proof (Z.div_mod sec q ltac:(lia)) as DM.
        rewrite (i64_id (_ * _)) by (unfold is_i64; nia). rewrite i64_id by (unfold is_i64; nia).
        apply Z.mod_unique with (sec / q); [left; nia|]. rewrite DM at 1. ring.
      + rewrite u64_id by (unfold is_u64; lia). rewrite long_rem_ok by lia. apply i64_id. pose proof (Z.mod_pos_bound (sec * second + nsec) d ltac:(lia)). unfold is_i64. lia. }
  rewrite R, EQ. destruct (Z.ltb_spec T 0) as [N|N]; cbn [andb]; [|reflexivity]. set (x := T * second + n) in *.
  destruct (decide (x mod d = 0)) as [Z0|Z0].
  - rewrite (Z_mod_zero_opp_full _ _ Z0), Z0. reflexivity.
  - rewrite (Z_mod_nz_opp_full _ _ Z0). pose proof (Z.mod_pos_bound x d ltac:(lia)). destruct (Z.eqb_spec (d - x mod d) 0); [lia|]. cbn [negb]. rewrite i64_id by (unfold is_i64; lia). lia.
Qed.
