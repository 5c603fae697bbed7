From Verif Require Import Base ConvModel.
From Coq Require Import Floats.SpecFloat ZArith.
Local Open Scope Z.

Lemma digits_bound m : 2^(Zpos (digits2_pos m) - 1) <= Zpos m < 2^(Zpos (digits2_pos m)).
Proof.
  induction m as [m IH|m IH|]; cbn [digits2_pos].
  - rewrite Pos2Z.inj_succ, Z.pow_succ_r by lia. replace (Z.succ (Z.pos (digits2_pos m)) - 1) with (Z.succ (Z.pos (digits2_pos m) - 1)) by lia. rewrite Z.pow_succ_r by lia. lia.
  - rewrite Pos2Z.inj_succ, Z.pow_succ_r by lia. replace (Z.succ (Z.pos (digits2_pos m)) - 1) with (Z.succ (Z.pos (digits2_pos m) - 1)) by lia. rewrite Z.pow_succ_r by lia. lia.
  - cbn. lia.
Qed.
Lemma digits_le m k : 0 <= k -> Zpos m < 2^k -> Zpos (digits2_pos m) <= k.
Proof.
  intros Hk H. pose proof (digits_bound m) as [B _]. destruct (Z.le_gt_cases (Zpos (digits2_pos m)) k) as [|G]; [assumption|].
  assert (2^k <= 2^(Zpos (digits2_pos m) - 1)) by (apply Z.pow_le_mono_r; lia). lia.
Qed.
Lemma digits_shift m d : Zpos (digits2_pos (shift_pos d m)) = Zpos (digits2_pos m) + Zpos d.
Proof.
  rewrite shift_pos_nat. replace (Zpos d) with (Z.of_nat (Pos.to_nat d)) by lia. induction (Pos.to_nat d) as [|n IH]; [cbn; lia|].
  change (shift_nat (S n) m) with (xO (shift_nat n m)). cbn [digits2_pos]. rewrite Pos2Z.inj_succ, IH. lia.
Qed.
Lemma shift_val d m : Zpos (shift_pos d m) = Zpos m * 2^(Zpos d).
Proof. rewrite shift_pos_correct. rewrite Z.mul_comm. reflexivity. Qed.
(** a canonical mantissa is not changed by rounding *)
Lemma round_aux_canonical prec emax s m e : fexp prec emax (Zpos (digits2_pos m) + e) = e -> e <= emax - prec ->
  binary_round_aux prec emax s (Zpos m) e loc_Exact = S754_finite s m e.
Proof.
  intros H He. unfold binary_round_aux, shr_fexp. cbn [Zdigits2 shr_record_of_loc]. rewrite H, Z.sub_diag. cbn [shr shr_m loc_of_shr_record round_nearest_even Zdigits2].
  rewrite H, Z.sub_diag. cbn [shr shr_m]. rewrite (proj2 (Z.leb_le e (emax - prec)) He). reflexivity.
Qed.
Lemma round_canonical prec emax s m e : fexp prec emax (Zpos (digits2_pos m) + e) = e -> e <= emax - prec -> binary_round prec emax s m e = S754_finite s m e.
Proof. intros H He. unfold binary_round, shl_align. rewrite H, Z.sub_diag. apply round_aux_canonical; assumption. Qed.
(** a mantissa that has room to the left is shifted *)
Lemma round_shl prec emax s m e e' : fexp prec emax (Zpos (digits2_pos m) + e) = e' -> e' < e -> e' <= emax - prec ->
  exists m', binary_round prec emax s m e = S754_finite s m' e' /\ Zpos m' = Zpos m * 2^(e - e') /\ Zpos (digits2_pos m') = Zpos (digits2_pos m) + (e - e').
Proof.
  intros H L He. unfold binary_round, shl_align. rewrite H. destruct (e' - e) as [|p|p] eqn:E; [lia|lia|].
  assert (Ep : e - e' = Zpos p) by lia. exists (shift_pos p m). rewrite Ep. split; [|split; [apply shift_val|apply digits_shift]].
  apply round_aux_canonical; [|exact He]. rewrite digits_shift. rewrite <- H at 2. f_equal. lia.
Qed.
(** zeroes on the right are shifted out *)
Lemma iter_pos_nat {A} (f : A -> A) p : forall x, SpecFloat.iter_pos f p x = Nat.iter (Pos.to_nat p) f x.
Proof.
  assert (D : forall n k x, Nat.iter (n + k) f x = Nat.iter n f (Nat.iter k f x)) by (induction n as [|n IH]; intros k x; [reflexivity|change (f (Nat.iter (n + k) f x) = f (Nat.iter n f (Nat.iter k f x))); rewrite IH; reflexivity]).
  induction p as [p IH|p IH|]; intros x; cbn [SpecFloat.iter_pos].
  - rewrite !IH. rewrite Pos2Nat.inj_xI. replace (S (2 * Pos.to_nat p)) with (Pos.to_nat p + (Pos.to_nat p + 1))%nat by lia. rewrite !D. reflexivity.
  - rewrite !IH. rewrite Pos2Nat.inj_xO. replace (2 * Pos.to_nat p)%nat with (Pos.to_nat p + Pos.to_nat p)%nat by lia. rewrite D. reflexivity.
  - reflexivity.
Qed.
Lemma shr_out d m : SpecFloat.iter_pos shr_1 d (Build_shr_record (Zpos (shift_pos d m)) false false) = Build_shr_record (Zpos m) false false.
Proof.
  rewrite iter_pos_nat, shift_pos_nat. induction (Pos.to_nat d) as [|n IH]; [reflexivity|].
  rewrite Nat.iter_succ_r. change (shift_nat (S n) m) with (xO (shift_nat n m)). cbn [shr_1 orb]. exact IH.
Qed.
Lemma round_shr prec emax s m d e : fexp prec emax (Zpos (digits2_pos m) + e) = e -> e <= emax - prec ->
  binary_round prec emax s (shift_pos d m) (e - Zpos d) = S754_finite s m e.
Proof.
  intros H He. unfold binary_round, shl_align. rewrite digits_shift. replace (Zpos (digits2_pos m) + Zpos d + (e - Zpos d)) with (Zpos (digits2_pos m) + e) by lia. rewrite H.
  replace (e - (e - Zpos d)) with (Zpos d) by lia. unfold binary_round_aux, shr_fexp at 1. cbn [Zdigits2 shr_record_of_loc]. rewrite digits_shift.
  replace (Zpos (digits2_pos m) + Zpos d + (e - Zpos d)) with (Zpos (digits2_pos m) + e) by lia. rewrite H.
  replace (e - (e - Zpos d)) with (Zpos d) by lia. cbn [shr]. rewrite shr_out. cbn [shr_m loc_of_shr_record round_nearest_even].
  replace (e - Zpos d + Zpos d) with e by lia. unfold shr_fexp. cbn [Zdigits2 shr_record_of_loc]. rewrite H, Z.sub_diag. cbn [shr shr_m]. rewrite (proj2 (Z.leb_le e (emax - prec)) He). reflexivity.
Qed.
(** *** integers through a float *)
Lemma int_float_small prec emax m s : 0 < prec -> prec + 2 < emax -> Zpos m < 2^prec ->
  exists m' e', binary_round prec emax s m 0 = S754_finite s m' e' /\ e' <= 0 /\ Zpos m' = Zpos m * 2^(- e').
Proof.
  intros Hp Hm Hx. pose proof (digits_le m prec ltac:(lia) Hx) as D.
  remember (fexp prec emax (Zpos (digits2_pos m) + 0)) as e' eqn:E.
  assert (L : e' <= 0) by (rewrite E; unfold fexp, emin; lia).
  destruct (Z.eq_dec e' 0) as [->|N].
  - exists m, 0. rewrite (round_canonical prec emax s m 0) by (congruence || lia). split; [reflexivity|]. split; [lia|]. cbn. lia.
  - destruct (round_shl prec emax s m 0 e' (eq_sym E) ltac:(lia) ltac:(lia)) as (m' & M1 & M2 & _). exists m', e'. split; [exact M1|]. split; [lia|]. rewrite M2. f_equal.
Qed.
Lemma trunc_exact s m m' e' : e' <= 0 -> Zpos m' = Zpos m * 2^(- e') -> float_trunc (S754_finite s m' e') = Some (if s then Zneg m else Zpos m).
Proof.
  intros He Hm. cbn [float_trunc]. destruct (Z.leb_spec 0 e').
  - assert (e' = 0) as -> by lia. cbn in Hm |- *. rewrite Z.mul_1_r in *. injection Hm as ->. destruct s; reflexivity.
  - rewrite Hm, Z.div_mul by (apply Z.pow_nonzero; lia). destruct s; reflexivity.
Qed.
Lemma int_float_int prec emax x : 0 < prec -> prec + 2 < emax -> - 2^prec < x < 2^prec -> float_trunc (int_to_float prec emax x) = Some x.
Proof.
  intros Hp Hm Hx. unfold int_to_float, binary_normalize. destruct x as [|m|m]; [reflexivity| |].
  - destruct (int_float_small prec emax m false Hp Hm ltac:(lia)) as (m' & e' & E1 & E2 & E3). rewrite E1. rewrite (trunc_exact false m m' e' E2 E3). reflexivity.
  - destruct (int_float_small prec emax m true Hp Hm ltac:(lia)) as (m' & e' & E1 & E2 & E3). rewrite E1. rewrite (trunc_exact true m m' e' E2 E3). reflexivity.
Qed.
(** *** the same format *)
Lemma same_format prec emax f : valid_binary prec emax f = true -> float_to_float prec emax f = f.
Proof.
  destruct f as [s|s| |s m e]; try reflexivity. cbn [valid_binary float_to_float]. unfold bounded, canonical_mantissa. rewrite andb_true_iff. intros [H1 H2].
  apply Zeq_bool_eq in H1. apply Zle_bool_imp_le in H2. apply round_canonical; assumption.
Qed.
(** *** float32 through float64 *)
Lemma f32_f64_f32 f : valid_binary prec32 emax32 f = true -> float_to_float prec32 emax32 (float_to_float prec64 emax64 f) = f.
Proof.
  destruct f as [s|s| |s m e]; try reflexivity. cbn [valid_binary float_to_float]. unfold bounded, canonical_mantissa. rewrite andb_true_iff. intros [H1 H2].
  apply Zeq_bool_eq in H1. apply Zle_bool_imp_le in H2.
  assert (D : 0 < Zpos (digits2_pos m)) by lia.
  assert (B : Zpos (digits2_pos m) <= 24 /\ -149 <= e <= 104) by (unfold fexp, emin, prec32, emax32 in *; lia).
  remember (fexp prec64 emax64 (Zpos (digits2_pos m) + e)) as e' eqn:E.
  assert (L : e' < e) by (rewrite E; unfold fexp, emin, prec64, emax64; lia).
  assert (L' : e' <= emax64 - prec64) by (unfold emax64, prec64; lia).
  unfold binary_round at 1, shl_align. rewrite <- E. destruct (e' - e) as [|p|p] eqn:Ep; [lia|lia|].
  rewrite round_aux_canonical; [|rewrite digits_shift; rewrite E at 2; f_equal; lia|exact L'].
  replace e' with (e - Zpos p) by lia. apply round_shr; assumption.
Qed.
Lemma f32_f64_valid f : valid_binary prec32 emax32 f = true -> valid_binary prec64 emax64 (float_to_float prec64 emax64 f) = true.
Proof.
  destruct f as [s|s| |s m e]; try reflexivity. cbn [valid_binary float_to_float]. unfold bounded, canonical_mantissa. rewrite andb_true_iff. intros [H1 H2].
  apply Zeq_bool_eq in H1. apply Zle_bool_imp_le in H2.
  assert (B : Zpos (digits2_pos m) <= 24 /\ -149 <= e <= 104) by (unfold fexp, emin, prec32, emax32 in *; lia).
  remember (fexp prec64 emax64 (Zpos (digits2_pos m) + e)) as e' eqn:E.
  destruct (round_shl prec64 emax64 s m e e' (eq_sym E)) as (m' & M1 & M2 & M3); [rewrite E; unfold fexp, emin, prec64, emax64; lia|rewrite E; unfold fexp, emin, prec64, emax64; lia|].
  rewrite M1. cbn [valid_binary]. unfold bounded, canonical_mantissa. rewrite M3. replace (Zpos (digits2_pos m) + (e - e') + e') with (Zpos (digits2_pos m) + e) by lia. rewrite <- E.
  apply andb_true_iff. split; [apply Zeq_is_eq_bool; reflexivity|]. apply Zle_is_le_bool. rewrite E. unfold fexp, emin, prec64, emax64. lia.
Qed.
(** *** only the value matters *)
Lemma shr_nat prec emax mx e : 0 <= fexp prec emax (Zdigits2 mx + e) - e ->
  shr_fexp prec emax mx e loc_Exact = (Nat.iter (Z.to_nat (fexp prec emax (Zdigits2 mx + e) - e)) shr_1 (Build_shr_record mx false false), fexp prec emax (Zdigits2 mx + e)).
Proof.
  intros H. unfold shr_fexp. cbn [shr_record_of_loc]. destruct (fexp prec emax (Zdigits2 mx + e) - e) as [|p|p] eqn:E; [cbn; f_equal; lia| |lia].
  cbn [shr]. rewrite iter_pos_nat. f_equal. lia.
Qed.
Lemma iter_app {A} (f : A -> A) n k x : Nat.iter (n + k) f x = Nat.iter n f (Nat.iter k f x).
Proof. induction n as [|n IH]; [reflexivity|]. change (f (Nat.iter (n + k) f x) = f (Nat.iter n f (Nat.iter k f x))). rewrite IH. reflexivity. Qed.
Lemma shr_out_nat n k m : Nat.iter n shr_1 (Build_shr_record (Zpos (shift_nat (n + k) m)) false false) = Build_shr_record (Zpos (shift_nat k m)) false false.
Proof.
  induction n as [|n IH]; [reflexivity|]. rewrite Nat.iter_succ_r. cbn [plus]. change (shift_nat (S (n + k)) m) with (xO (shift_nat (n + k) m)). cbn [shr_1 orb]. exact IH.
Qed.
Lemma digits_shift_nat n m : Zpos (digits2_pos (shift_nat n m)) = Zpos (digits2_pos m) + Z.of_nat n.
Proof. induction n as [|n IH]; [cbn; lia|]. change (shift_nat (S n) m) with (xO (shift_nat n m)). cbn [digits2_pos]. rewrite Pos2Z.inj_succ, IH. lia. Qed.
Lemma shift_nat_add n k m : shift_nat n (shift_nat k m) = shift_nat (n + k) m.
Proof. induction n as [|n IH]; [reflexivity|]. change (xO (shift_nat n (shift_nat k m)) = xO (shift_nat (n + k) m)). rewrite IH. reflexivity. Qed.
Lemma shift_nat_val k m : Zpos (shift_nat k m) = Zpos m * 2^(Z.of_nat k).
Proof. induction k as [|k IH]; [cbn; lia|]. change (shift_nat (S k) m) with (xO (shift_nat k m)). rewrite Pos2Z.inj_xO, IH, Nat2Z.inj_succ, Z.pow_succ_r by lia. lia. Qed.
Lemma shl_nat m e e0 : shl_align m e e0 = if e0 <=? e then (shift_nat (Z.to_nat (e - e0)) m, e0) else (m, e).
Proof.
  unfold shl_align. destruct (e0 - e) as [|p|p] eqn:E.
  - assert (e0 = e) as -> by lia. rewrite Z.leb_refl, Z.sub_diag. reflexivity.
  - rewrite (proj2 (Z.leb_gt e0 e)) by lia. reflexivity.
  - rewrite (proj2 (Z.leb_le e0 e)) by lia. rewrite shift_pos_nat. do 2 f_equal. lia.
Qed.
Lemma round_aux_of prec emax s mx e mx' e' : shr_fexp prec emax mx e loc_Exact = shr_fexp prec emax mx' e' loc_Exact -> binary_round_aux prec emax s mx e loc_Exact = binary_round_aux prec emax s mx' e' loc_Exact.
Proof. intros H. unfold binary_round_aux. rewrite H. reflexivity. Qed.
Lemma round_value prec emax s m n e : binary_round prec emax s (shift_nat n m) (e - Z.of_nat n) = binary_round prec emax s m e.
Proof.
  unfold binary_round. rewrite digits_shift_nat. replace (Zpos (digits2_pos m) + Z.of_nat n + (e - Z.of_nat n)) with (Zpos (digits2_pos m) + e) by lia.
  set (e0 := fexp prec emax (Zpos (digits2_pos m) + e)). rewrite !shl_nat.
  destruct (Z.leb_spec e0 (e - Z.of_nat n)) as [L1|L1], (Z.leb_spec e0 e) as [L2|L2]; try lia.
  - rewrite shift_nat_add. replace (Z.to_nat (e - Z.of_nat n - e0) + n)%nat with (Z.to_nat (e - e0)) by lia. reflexivity.
  - apply round_aux_of. rewrite !shr_nat; cbn [Zdigits2]; rewrite ?digits_shift_nat;
      replace (Zpos (digits2_pos m) + Z.of_nat (Z.to_nat (e - e0)) + e0) with (Zpos (digits2_pos m) + e) by lia;
      replace (Zpos (digits2_pos m) + Z.of_nat n + (e - Z.of_nat n)) with (Zpos (digits2_pos m) + e) by lia; fold e0; [|lia|lia].
    rewrite Z.sub_diag. cbn [Z.to_nat Nat.iter]. f_equal.
    replace n with (Z.to_nat (e0 - (e - Z.of_nat n)) + Z.to_nat (e - e0))%nat at 2 by lia. apply shr_out_nat.
  - apply round_aux_of. rewrite !shr_nat; cbn [Zdigits2]; rewrite ?digits_shift_nat;
      replace (Zpos (digits2_pos m) + Z.of_nat n + (e - Z.of_nat n)) with (Zpos (digits2_pos m) + e) by lia; fold e0; [|lia|lia].
    f_equal. replace (Z.to_nat (e0 - (e - Z.of_nat n))) with (Z.to_nat (e0 - e) + n)%nat by lia. rewrite iter_app. f_equal.
    pose proof (shr_out_nat n 0 m) as H. rewrite Nat.add_0_r in H. exact H.
Qed.
(* through float64 first is as good as directly, for the integers float64 holds *)
Lemma int_twice x : - 2^53 < x < 2^53 -> float_to_float prec32 emax32 (int_to_float prec64 emax64 x) = int_to_float prec32 emax32 x.
Proof.
  assert (G : forall s m, Zpos m < 2^53 -> float_to_float prec32 emax32 (binary_round prec64 emax64 s m 0) = binary_round prec32 emax32 s m 0).
  { intros s m Hm. destruct (int_float_small prec64 emax64 m s) as (m' & e' & E1 & E2 & E3); [reflexivity|reflexivity|exact Hm|]. rewrite E1. cbn [float_to_float].
    assert (m' = shift_nat (Z.to_nat (- e')) m) as ->.
    { apply Pos2Z.inj. rewrite E3, shift_nat_val, Z2Nat.id by lia. reflexivity. }
    rewrite <- (round_value prec32 emax32 s m (Z.to_nat (- e')) 0). f_equal. lia. }
  intros Hx. unfold int_to_float, binary_normalize. destruct x as [|m|m]; [reflexivity| |]; apply G; lia.
Qed.
