(** Property C141: Time.Truncate through the division of the time package, and
    truncatex.Truncate for every granularity, wrapped ones included. *)
From Verif Require Import Base TimeSpec TimeModel TimeProofs TimeDivProofs.
Local Open Scope Z.

(** the division, word by word, is the remainder of the nanoseconds since year 1 *)
Theorem time_div_exact t d :
  - 2^63 < g_ext t < 2^63 -> 0 <= g_nsec t < 1000000000 -> 0 < d < 2^63 ->
  go_div t d = (g_ext t * 1000000000 + g_nsec t) mod d.
Proof. apply go_div_exact. Qed.
Print Assumptions time_div_exact.
(** not so in the very first second: -(-2^63) is -2^63 again *)
Theorem time_div_refuted :
  ~ (forall t d, - 2^63 <= g_ext t < 2^63 -> 0 <= g_nsec t < 1000000000 -> 0 < d < 2^63 -> go_div t d = (g_ext t * 1000000000 + g_nsec t) mod d).
Proof.
  intros H. specialize (H (GT (- 2^63) 0) 3000000000 ltac:(cbn; lia) ltac:(cbn; lia) ltac:(lia)). vm_compute in H. discriminate.
Qed.
Print Assumptions time_div_refuted.

(** Time.Truncate: the last multiple of d, in nanoseconds since year 1, that is not after t *)
Theorem time_truncate_floor t d :
  - 2^63 + 9223372037 <= g_ext t < 2^63 -> 0 <= g_nsec t < 1000000000 -> 0 < d < 2^63 ->
  let x := go_truncate t d in let at_ u := g_ext u * 1000000000 + g_nsec u in
  0 <= g_nsec x < 1000000000 /\ (exists k, at_ x = k * d) /\ at_ x <= at_ t < at_ x + d.
Proof.
  intros He Hn Hd. cbv zeta. unfold go_truncate. destruct (Z.leb_spec d 0); [lia|]. rewrite go_div_exact by (unfold second; lia).
  pose proof (Z.mod_pos_bound (g_ext t * second + g_nsec t) d ltac:(lia)) as B. pose proof (Z.div_mod (g_ext t * second + g_nsec t) d ltac:(lia)) as DM.
  set (r := (g_ext t * second + g_nsec t) mod d) in *. set (q := (g_ext t * second + g_nsec t) / d) in *. clearbody r q.
  rewrite (i64_id (- r)) by (unfold is_i64; lia).
  destruct (go_add_ns t (- r)) as ([G1 G2] & _ & [E|E]); [split; [unfold is_i64; lia|exact Hn]|unfold is_i64; lia| |].
  - unfold ns in E. change second with 1000000000 in *. split; [exact G2|]. split; [exists q; lia|lia].
  - exfalso. apply (E (GT ((ns t + - r) / second) ((ns t + - r) mod second))).
    + pose proof (Z.mod_pos_bound (ns t + - r) second ltac:(unfold second; lia)) as B2. pose proof (Z.div_mod (ns t + - r) second ltac:(unfold second; lia)) as D2. split; [|exact B2].
      cbn [g_ext g_nsec]. unfold ns in *. change second with 1000000000 in *. unfold is_i64. lia.
    + unfold ns at 1. cbn [g_ext g_nsec]. pose proof (Z.div_mod (ns t + - r) second ltac:(unfold second; lia)). lia.
Qed.
Print Assumptions time_truncate_floor.

(** truncatex.Truncate(sec, n), for all n: d is time.Second * n as Go computes it, T the
    seconds since year 1 as Go computes them.  Only the times in which the seconds since
    year 1 have just wrapped are left out: there Add saturates (truncate_every, in TimeEveryProps) *)
Theorem truncate_all sec n :
  is_i64 sec -> ~ (2^63 - 62135596800 <= sec < 2^63 - 62135596800 + 9223372037) ->
  let d := i64 (1000000000 * n) in let T := i64 (sec + 62135596800) in
  (d <= 0 -> truncate sec n = sec) /\
  (0 < d -> exists k, k * d <= T * 1000000000 < (k + 1) * d /\ truncate sec n = i64 (k * d / 1000000000 - 62135596800)).
Proof.
  intros Hs Hw. cbv zeta. split.
  - intros Hd. apply truncate_nonpositive; [exact Hs|exact Hd].
  - intros Hd. assert (Hd2 : i64 (1000000000 * n) < 2^63) by (unfold i64; pose proof (Z.mod_pos_bound (1000000000 * n + 2^63) (2^64) ltac:(lia)); lia).
    unfold truncate, unix. change second with 1000000000. set (d := i64 (1000000000 * n)) in *. clearbody d. change unix_to_internal with 62135596800.
    assert (HT : - 2^63 + 9223372037 <= i64 (sec + 62135596800) < 2^63).
    { unfold is_i64 in Hs. unfold i64. destruct (Z_lt_dec sec (2^63 - 62135596800)).
      - rewrite Z.mod_small by lia. lia.
      - rewrite <- (Z_mod_plus_full _ (-1)). rewrite Z.mod_small by lia. lia. }
    set (T := i64 (sec + 62135596800)) in *. clearbody T.
    destruct (time_truncate_floor (GT T 0) d) as (H1 & [k H2] & H3); [cbn; lia|cbn; lia|lia|]. cbv zeta in *. cbn [g_ext g_nsec] in *.
    exists k. set (x := go_truncate _ d) in *. clearbody x. split; [lia|]. unfold to_unix. change unix_to_internal with 62135596800. do 2 f_equal.
    rewrite <- H2. symmetry. rewrite Z.add_comm, Z.div_add by lia. rewrite Z.div_small by exact H1. lia.
Qed.
Print Assumptions truncate_all.
(** 18446744074 seconds wrap to 290448384 nanoseconds, which takes the long division *)
Example truncate_all_case :
  i64 (1000000000 * 18446744074) = 290448384 /\ truncate 1668661234 18446744074 = 1668661233 /\
  go_truncate (GT (-5) 700000000) 1500000000 = GT (-5) 500000000 /\ go_div (GT (-5) 700000000) 7 = 5.
Proof. vm_compute. repeat split. Qed.
