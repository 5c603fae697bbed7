(** Properties of timex/timex.go (C103). *)
From Verif Require Import Base TimeModel TimeProofs TimexModel.
Local Open Scope Z.

Lemma quot_floor n : - 2^63 <= n < 2^63 ->
  let q := Z.quot n second in let r := n - q * second in
  if r <? 0 then q - 1 = n / second /\ r + second = n mod second else q = n / second /\ r = n mod second.
Proof.
  intros Hn. cbn zeta. unfold second. pose proof (Z.quot_rem' n 1000000000) as E.
  pose proof (Z.div_mod n 1000000000 ltac:(lia)) as D. pose proof (Z.mod_pos_bound n 1000000000 ltac:(lia)) as B.
  destruct (Z.ltb_spec (n - Z.quot n 1000000000 * 1000000000) 0) as [H|H].
  - assert (n < 0). { destruct (Z.lt_ge_cases n 0); [assumption|]. pose proof (Z.rem_bound_pos n 1000000000 ltac:(lia) ltac:(lia)). lia. }
    pose proof (Z.rem_bound_pos_neg n 1000000000 ltac:(lia) ltac:(lia)). lia.
  - destruct (Z.lt_ge_cases n 0).
    + pose proof (Z.rem_bound_pos_neg n 1000000000 ltac:(lia) ltac:(lia)). lia.
    + pose proof (Z.rem_bound_pos n 1000000000 ltac:(lia) ltac:(lia)). lia.
Qed.

Lemma i64_add_l a b : i64 (i64 a + b) = i64 (a + b).
Proof. unfold i64. f_equal. replace ((a + 2^63) mod 2^64 - 2^63 + b + 2^63) with ((a + 2^63) mod 2^64 + b) by lia.
  rewrite Zplus_mod_idemp_l. f_equal. lia. Qed.

Lemma quot_range n : is_i64 n -> is_i64 (Z.quot n second * second) /\ is_i64 (n - Z.quot n second * second).
Proof.
  intros Hn. unfold is_i64, second in *. pose proof (Z.quot_rem' n 1000000000) as E.
  destruct (Z.lt_ge_cases n 0).
  - pose proof (Z.rem_bound_pos_neg n 1000000000 ltac:(lia) ltac:(lia)). lia.
  - pose proof (Z.rem_bound_pos n 1000000000 ltac:(lia) ltac:(lia)). lia.
Qed.
Lemma custom_form sec nsec : is_i64 nsec -> is_i64 sec ->
  custom sec nsec = GT (i64 (sec + nsec / second + unix_to_internal)) (nsec mod second).
Proof.
  intros Hn Hs. unfold custom, go_unix. destruct (Z.ltb_spec nsec 0) as [H0|H0]; cbn [orb];
    [|destruct (Z.leb_spec second nsec) as [H1|H1]].
  3: { rewrite Z.div_small, Z.mod_small by (unfold second in *; lia). rewrite Z.add_0_r. reflexivity. }
  all: pose proof (quot_floor nsec ltac:(unfold is_i64 in Hn; lia)) as Q; cbn zeta in Q.
  all: assert (R : i64 (nsec - i64 (Z.quot nsec second * second)) = nsec - Z.quot nsec second * second)
    by (destruct (quot_range nsec Hn); rewrite (i64_id (Z.quot nsec second * second)) by assumption; apply i64_id; assumption).
  all: rewrite R; destruct (nsec - Z.quot nsec second * second <? 0); destruct Q as [Q1 Q2].
  all: pose proof (Z.mod_pos_bound nsec second ltac:(unfold second; lia)).
  all: f_equal; [rewrite <- ?Z.add_opp_r, !i64_add_l, <- ?Z.add_assoc, ?i64_add_l; f_equal; clear - Q1; lia|].
  all: try (rewrite Q2; reflexivity).
  all: rewrite i64_id; [exact Q2|unfold is_i64, second in *; lia].
Qed.

(** C103 (natural statement, false): Custom(sec, nsec) is the instant that many seconds
    and nanoseconds after the epoch, for all arguments. *)
Theorem custom_refuted :
  ns (custom (2^63 - 1) 0) < ns (custom 0 0).
Proof. vm_compute. reflexivity. Qed.
Print Assumptions custom_refuted.
(** It is, whenever the seconds fit into an int64 counted from year 1. *)
Theorem custom_instant_partial sec nsec :
  is_i64 sec -> is_i64 nsec -> sec + nsec / 1000000000 <= 2^63 - 1 - 62135596800 -> - 2^63 - 62135596800 <= sec + nsec / 1000000000 ->
  good_time (custom sec nsec) /\
  ns (custom sec nsec) = (sec + 62135596800) * 1000000000 + nsec.
Proof.
  intros Hs Hn Hu Hl. rewrite custom_form by assumption. unfold good_time, ns. cbn [g_ext g_nsec].
  change unix_to_internal with 62135596800. unfold second.
  pose proof (Z.div_mod nsec 1000000000 ltac:(lia)). pose proof (Z.mod_pos_bound nsec 1000000000 ltac:(lia)).
  rewrite i64_id by (unfold is_i64 in *; lia). split; [split; [unfold is_i64 in *; lia|lia]|lia].
Qed.
Print Assumptions custom_instant_partial.
(** Unix and Nanosecond of it are the arguments, carried over; with nsec in [0, 10^9) they
    are the arguments themselves, and every time is Custom of its Unix and Nanosecond. *)
Theorem custom_fields sec nsec : is_i64 sec -> is_i64 nsec -> is_i64 (sec + nsec / 1000000000) ->
  to_unix (custom sec nsec) = sec + nsec / 1000000000 /\ nanosecond (custom sec nsec) = nsec mod 1000000000.
Proof.
  intros Hs Hn Hc. rewrite custom_form by assumption. split; [|reflexivity].
  apply (to_unix_unix (sec + nsec / second) Hc).
Qed.
Print Assumptions custom_fields.
Theorem custom_of_fields t : good_time t -> custom (to_unix t) (nanosecond t) = t.
Proof.
  intros [He Hn]. assert (is_i64 (g_nsec t)) by (unfold is_i64, second in *; lia).
  assert (is_i64 (to_unix t)) by (unfold to_unix, i64, is_i64; pose proof (Z.mod_pos_bound (g_ext t - unix_to_internal + 2^63) (2^64) ltac:(lia)); lia).
  unfold nanosecond. rewrite custom_form by assumption. rewrite Z.div_small, Z.mod_small by exact Hn. rewrite Z.add_0_r.
  unfold to_unix. rewrite i64_add_l. replace (g_ext t - unix_to_internal + unix_to_internal) with (g_ext t) by lia.
  rewrite i64_id by exact He. destruct t; reflexivity.
Qed.
Print Assumptions custom_of_fields.
(** the times order as the pairs do, and Sub gives the distance *)
Theorem custom_sub_partial s1 n1 s2 n2 :
  let fits s n := is_i64 s /\ is_i64 n /\ - 2^63 - 62135596800 <= s + n / 1000000000 <= 2^63 - 1 - 62135596800 in
  fits s1 n1 -> fits s2 n2 ->
  go_sub (custom s1 n1) (custom s2 n2) = clamp ((s1 - s2) * 1000000000 + (n1 - n2)) /\
  (go_before (custom s1 n1) (custom s2 n2) = true <-> s1 * 1000000000 + n1 < s2 * 1000000000 + n2) /\
  (go_eq (custom s1 n1) (custom s2 n2) = true <-> s1 * 1000000000 + n1 = s2 * 1000000000 + n2).
Proof.
  cbn zeta. intros (A1 & B1 & C1) (A2 & B2 & C2).
  destruct (custom_instant_partial s1 n1 A1 B1) as [G1 E1]; [lia..|].
  destruct (custom_instant_partial s2 n2 A2 B2) as [G2 E2]; [lia..|].
  rewrite go_sub_clamp, go_before_ns, go_eq_ns by assumption. rewrite E1, E2. split; [f_equal; lia|]. split; lia.
Qed.
Print Assumptions custom_sub_partial.
Example custom_ex : custom 1709208000 (-1) = GT (1709207999 + 62135596800) 999999999 /\
  custom 1 2500000000 = GT (3 + 62135596800) 500000000 /\ ns (custom (-62135596800) 7) = 7.
Proof. vm_compute. repeat split; reflexivity. Qed.
