(** Property C141: truncatex.Truncate for every int64 and every granularity, in the times as
    well in which the seconds since year 1 have just wrapped. *)
From Verif Require Import Base TimeSpec TimeModel TimeProofs TimeDivProofs.
Local Open Scope Z.

Lemma add_sec_exact T y : is_i64 T -> - 2^62 <= y <= 2^62 ->
  add_sec T y = if T + y <? - 2^63 then - (2^63 - 1) else if 2^63 <=? T + y then 2^63 - 1 else T + y.
Proof.
  intros HT Hy. unfold is_i64 in HT. unfold add_sec.
  destruct (Z.ltb_spec (T + y) (- 2^63)).
  - assert (E : i64 (T + y) = T + y + 2^64). { unfold i64. rewrite <- (Z_mod_plus_full _ 1). rewrite Z.mod_small; lia. }
    rewrite E. destruct (Z.ltb_spec T (T + y + 2^64)); [|lia]. destruct (Z.ltb_spec 0 y); [lia|]. reflexivity.
  - destruct (Z.leb_spec (2^63) (T + y)).
    + assert (E : i64 (T + y) = T + y - 2^64). { unfold i64. rewrite <- (Z_mod_plus_full _ (-1)). rewrite Z.mod_small; lia. }
      rewrite E. destruct (Z.ltb_spec T (T + y - 2^64)); [lia|]. destruct (Z.ltb_spec 0 y); [|lia]. reflexivity.
    + rewrite i64_id by (unfold is_i64; lia). destruct (Z.ltb_spec T (T + y)), (Z.ltb_spec 0 y); try lia; reflexivity.
Qed.
Lemma go_add_floor T x : go_add (GT T 0) x = GT (add_sec T (x / second)) (x mod second).
Proof.
  unfold go_add. cbn [g_ext g_nsec]. pose proof (Z.quot_rem' x second) as Q.
  pose proof (Z.rem_bound_abs x second ltac:(unfold second; lia)) as R.
  set (q := Z.quot x second) in *. set (r := Z.rem x second) in *. clearbody q r. rewrite Z.add_0_l.
  assert (Rb : - second < r < second) by (unfold second in *; lia).
  destruct (Z.leb_spec second r); [lia|]. destruct (Z.ltb_spec r 0).
  - assert (x / second = q - 1 /\ x mod second = r + second) as [-> ->]; [|reflexivity].
    split; [symmetry; apply Z.div_unique with (r + second)|symmetry; apply Z.mod_unique with (q - 1)]; unfold second in *; lia.
  - assert (x / second = q /\ x mod second = r) as [-> ->]; [|reflexivity].
    split; [symmetry; apply Z.div_unique with r|symmetry; apply Z.mod_unique with q]; unfold second in *; lia.
Qed.
(** the remainder, in the first second of all as well unless d is a number of seconds *)
Lemma go_div_all T d : is_i64 T -> 0 < d < 2^63 -> T <> - 2^63 \/ d mod second <> 0 -> go_div (GT T 0) d = (T * second) mod d.
Proof.
  intros HT Hd Hne. unfold is_i64 in HT. destruct (Z.eq_dec T (- 2^63)) as [->|NE].
  2:{ rewrite go_div_exact by (cbn [g_ext g_nsec]; unfold second; lia). cbn [g_ext g_nsec]. f_equal. lia. }
  destruct Hne as [Hne|Hne]; [congruence|]. unfold go_div. cbn [g_ext g_nsec].
  change (- 2^63 <? 0) with true. change (- 0) with 0. change (0 <? 0) with false. cbv beta iota zeta.
  change (i64 (- - 2^63)) with (- 2^63). change (u64 (- 2^63)) with (2^63). rewrite (Z.rem_mod_nonneg d second) by (unfold second; lia).
  destruct (Z.eqb_spec (d mod second) 0); [congruence|].
  assert (EO : (- (2^63) * second) mod d = if decide ((2^63 * second) mod d = 0) then 0 else d - (2^63 * second) mod d).
  { rewrite Z.mul_opp_l. case_decide as D; [apply Z_mod_zero_opp_full, D|apply Z_mod_nz_opp_full, D]. }
  rewrite EO. destruct ((d <? second) && (Z.rem second (d + d) =? 0)) eqn:C.
  - apply andb_true_iff in C as [C1 C2]. apply Z.ltb_lt in C1. apply Z.eqb_eq in C2.
    rewrite Z.rem_mod_nonneg in C2 by (unfold second; lia). apply Z.mod_divide in C2 as [q Hq]; [|lia].
    assert (D : (2^63 * second) mod d = 0). { rewrite Hq. replace (2^63 * (q * (d + d))) with (2^64 * q * d) by ring. apply Z_mod_mult. }
    rewrite decide_True by exact D. rewrite Z.rem_0_l by lia. reflexivity.
  - rewrite long_rem_ok by (unfold second; lia). rewrite Z.add_0_r. pose proof (Z.mod_pos_bound (2^63 * second) d ltac:(lia)) as B.
    rewrite i64_id by (unfold is_i64; lia). set (r := (2^63 * second) mod d) in *. clearbody r.
    case_decide as D; destruct (Z.eqb_spec r 0); try lia; cbn [andb negb]; [assumption|]. apply i64_id. unfold is_i64. lia.
Qed.
(** in it, if d is q seconds: the sign is lost *)
Lemma go_div_first q : 0 < q -> q * second < 2^63 ->
  go_div (GT (- 2^63) 0) (q * second) = if decide (2^63 mod q = 0) then 0 else i64 (q * second + 2^63 mod q * second).
Proof.
  intros Hq Hd. unfold go_div. cbn [g_ext g_nsec].
  change (- 2^63 <? 0) with true. change (- 0) with 0. change (0 <? 0) with false. cbv beta iota zeta.
  change (i64 (- - 2^63)) with (- 2^63). rewrite Z.rem_mul, Z.quot_mul by (unfold second; lia).
  destruct (Z.ltb_spec (q * second) second); [unfold second in *; lia|]. cbn [andb]. rewrite Z.eqb_refl.
  rewrite Z.rem_opp_l by lia. rewrite Z.rem_mod_nonneg by lia. pose proof (Z.mod_pos_bound (2^63) q ltac:(lia)) as B.
  set (r := 2^63 mod q) in *. clearbody r. rewrite (i64_id (_ * _)) by (unfold is_i64, second in *; nia).
  rewrite Z.add_0_r, i64_id by (unfold is_i64, second in *; nia).
  case_decide as D; [subst r; reflexivity|]. destruct (Z.eqb_spec (- r * second) 0); [unfold second in *; lia|]. cbn [andb negb]. f_equal. lia.
Qed.

(** C141: for every int64 [sec] and every [n]; [d] is time.Second * n and [T] the seconds since
    year 1, as Go computes them.  The answer is the last whole second not after the last
    multiple of [d] not after [T], or, if that is before all times, the second of all seconds;
    only in the first of all, and if [d] is a number of seconds that does not divide 2^63, the
    remainder has the wrong sign and may wrap. *)
Theorem truncate_every sec n : is_i64 sec ->
  let d := i64 (1000000000 * n) in let T := i64 (sec + 62135596800) in
  (d <= 0 -> truncate sec n = sec) /\
  (0 < d -> T <> - 2^63 \/ d mod 1000000000 <> 0 \/ 2^63 mod (d / 1000000000) = 0 ->
     exists k, k * d <= T * 1000000000 < (k + 1) * d /\
       let K := k * d / 1000000000 in truncate sec n = i64 ((if K <? - 2^63 then - 2^63 + 1 else K) - 62135596800)) /\
  (0 < d -> T = - 2^63 -> d mod 1000000000 = 0 ->
     let q := d / 1000000000 in let r := 2^63 mod q in r <> 0 ->
     truncate sec n = if (q + r) * 1000000000 <? 2^63 then i64 (- 2^63 + 1 - 62135596800) else i64 (- 2^63 + 18446744073 - q - r - 62135596800)).
Proof.
  intros Hs. cbv zeta. split; [intros Hd; apply truncate_nonpositive; [exact Hs|exact Hd]|].
  assert (Hd2 : i64 (1000000000 * n) < 2^63) by (unfold i64; pose proof (Z.mod_pos_bound (1000000000 * n + 2^63) (2^64) ltac:(lia)); lia).
  assert (HT : is_i64 (i64 (sec + 62135596800))).
  { unfold is_i64, i64. pose proof (Z.mod_pos_bound (sec + 62135596800 + 2^63) (2^64) ltac:(lia)). lia. }
  unfold truncate, unix, to_unix. change unix_to_internal with 62135596800. change second with 1000000000.
  set (d := i64 (1000000000 * n)) in *. clearbody d. set (T := i64 (sec + 62135596800)) in *. clearbody T. clear Hs sec n.
  unfold go_truncate. split.
  - intros Hd Hne. destruct (Z.leb_spec d 0); [lia|]. rewrite go_add_floor. cbn [g_ext].
    assert (E : go_div (GT T 0) d = (T * second) mod d).
    { destruct (Z.eq_dec T (- 2^63)) as [->|NE]; [|apply go_div_all; auto; lia].
      destruct (Z.eq_dec (d mod 1000000000) 0) as [D0|D0]; [|apply go_div_all; auto; lia].
      destruct Hne as [Hne|[Hne|Hne]]; [congruence|congruence|].
      pose proof (Z.div_mod d 1000000000 ltac:(lia)) as DM. rewrite D0, Z.add_0_r in DM. set (q := d / 1000000000) in *. clearbody q. clear D0.
      assert (d = q * second) as -> by (unfold second; lia). rewrite go_div_first by (unfold second in *; lia).
      rewrite decide_True by exact Hne. apply Z.mod_divide in Hne as [c Hc]; [|lia]. rewrite Hc.
      replace (- (c * q) * second) with (- c * (q * second)) by ring. symmetry. apply Z_mod_mult. }
    rewrite E. pose proof (Z.mod_pos_bound (T * second) d ltac:(lia)) as B. pose proof (Z.div_mod (T * second) d ltac:(lia)) as DM.
    set (r := (T * second) mod d) in *. set (k := T * second / d) in *. clearbody r k.
    exists k. change second with 1000000000 in *. split; [lia|]. rewrite (i64_id (- r)) by (unfold is_i64; lia).
    assert (EK : k * d / 1000000000 = T + (- r) / 1000000000).
    { replace (k * d) with (- r + T * 1000000000) by lia. rewrite Z.div_add by lia. lia. }
    rewrite EK. assert (Hy : - 2^62 <= (- r) / 1000000000 <= 0).
    { pose proof (Z.div_mod (- r) 1000000000 ltac:(lia)). pose proof (Z.mod_pos_bound (- r) 1000000000 ltac:(lia)). lia. }
    rewrite add_sec_exact by (exact HT || lia). unfold is_i64 in HT.
    destruct (Z.ltb_spec (T + (- r) / 1000000000) (- 2^63)); [f_equal; lia|].
    destruct (Z.leb_spec (2^63) (T + (- r) / 1000000000)); [lia|]. reflexivity.
  - intros Hd -> D0 Hr. destruct (Z.leb_spec d 0); [lia|]. rewrite go_add_floor. cbn [g_ext].
    pose proof (Z.div_mod d 1000000000 ltac:(lia)) as DM. rewrite D0, Z.add_0_r in DM. set (q := d / 1000000000) in *. clearbody q. clear D0.
    assert (d = q * second) as -> by (unfold second; lia). rewrite go_div_first by (unfold second in *; lia).
    rewrite decide_False by exact Hr. pose proof (Z.mod_pos_bound (2^63) q ltac:(lia)) as B. set (r := 2^63 mod q) in *. clearbody r.
    change second with 1000000000 in *. replace (q * 1000000000 + r * 1000000000) with ((q + r) * 1000000000) by ring.
    destruct (Z.ltb_spec ((q + r) * 1000000000) (2^63)).
    + rewrite (i64_id ((q + r) * 1000000000)) by (unfold is_i64; lia). rewrite (i64_id (- _)) by (unfold is_i64; lia).
      rewrite <- Z.mul_opp_l, Z.div_mul by lia. rewrite add_sec_exact by (exact HT || lia).
      destruct (Z.ltb_spec (- 2^63 + - (q + r)) (- 2^63)); [|lia]. f_equal.
    + assert (E : i64 ((q + r) * 1000000000) = (q + r) * 1000000000 - 2^64).
      { unfold i64. rewrite <- (Z_mod_plus_full _ (-1)). rewrite Z.mod_small; lia. }
      rewrite E. rewrite (i64_id (- _)) by (unfold is_i64; lia).
      assert (EX : - ((q + r) * 1000000000 - 2^64) / 1000000000 = 18446744073 - q - r).
      { symmetry. apply Z.div_unique with 709551616; lia. }
      rewrite EX. rewrite add_sec_exact by (exact HT || lia).
      destruct (Z.ltb_spec (- 2^63 + (18446744073 - q - r)) (- 2^63)); [lia|].
      destruct (Z.leb_spec (2^63) (- 2^63 + (18446744073 - q - r))); [lia|]. f_equal. lia.
Qed.
Print Assumptions truncate_every.
(** in the first second of all: Add saturates, an hour does, and 7000000000 seconds wrap *)
Example truncate_every_ex :
  let first := 2^63 - 62135596800 in
  truncate first 1 = first /\ truncate first 3600 = first + 1 /\ truncate first 7000000000 = first + 6591968265 /\
  i64 (first + 62135596800) = - 2^63 /\ 2^63 mod 7000000000 <> 0 /\ truncate (first + 5) 3600 = first + 1 /\ truncate (first + 4000) 3600 = first + 1808.
Proof. vm_compute. repeat split; discriminate || reflexivity. Qed.
