(** Numerals with any exponent, exactly (C150). *)
From Coq Require Import Floats.SpecFloat ZArith.
From Verif Require Import Base ConvModel ConvProofs ConvProofs2 ConvFloat ConvNearest ConvProps ConvNearestProps StrconvModel StrconvRound StrconvParse StrconvShape StrconvFormat StrconvProps.
Local Open Scope Z.

(** the exponent [x] is taken for [y]: its first five digits when it has more (zeros in
    front do not count) *)
Definition exponent_taken (x y : Z) : Prop :=
  Z.abs x < 100000 /\ y = x \/
  exists k, 0 < k /\ 10000 <= Z.abs x / 10^k < 100000 /\ y = Z.sgn x * (Z.abs x / 10^k).

Lemma dec_from_ge ds : Forall is_digit ds -> forall e, 0 <= e -> 0 <= e * 10^Z.of_nat (length ds) <= dec_from e ds /\ dec_from e ds < (e + 1) * 10^Z.of_nat (length ds).
Proof.
  induction 1 as [|c ds Hc H IH]; intros e He; [cbn; lia|]. change (dec_from e (c :: ds)) with (dec_from (10 * e + (c - 48)) ds). unfold is_digit in Hc.
  specialize (IH (10 * e + (c - 48)) ltac:(lia)). cbn [length]. rewrite Nat2Z.inj_succ, Z.pow_succ_r by lia. assert (0 < 10^Z.of_nat (length ds)) by (apply Z.pow_pos_nonneg; lia). set (P := 10^Z.of_nat (length ds)) in *. clearbody P. nia.
Qed.
Lemma exp_from_div ds : Forall is_digit ds -> forall e, 0 <= e < 100000 -> 100000 <= dec_from e ds ->
  exists k, 0 < k /\ exp_from e ds = dec_from e ds / 10^k /\ 10000 <= dec_from e ds / 10^k < 100000.
Proof.
  induction 1 as [|c ds Hc H IH]; intros e He Hv; [cbn in Hv; lia|]. cbn [exp_from]. pose proof (dec_from_ge (c :: ds) ltac:(constructor; assumption) e ltac:(lia)) as G.
  destruct (Z.ltb_spec e 10000) as [L|L].
  - change (dec_from e (c :: ds)) with (dec_from (10 * e + (c - 48)) ds) in *. unfold is_digit in Hc. try rewrite (Z.mul_comm e 10). apply IH; [lia|exact Hv].
  - rewrite exp_from_big by assumption. exists (Z.of_nat (length (c :: ds))). cbn [length]. split; [lia|]. cbn [length] in G. set (v := dec_from e (c :: ds)) in *. set (P := 10^Z.of_nat (S (length ds))) in *.
    assert (HP : 0 < P) by (apply Z.pow_pos_nonneg; lia). assert (E : v / P = e) by (symmetry; apply (Z.div_unique v P e (v - e * P)); lia). rewrite E. lia.
Qed.
Lemma read_taken x ex e : read_x x ex e -> exponent_taken x (expo_val e).
Proof.
  intros [_ [[-> ->]|(c & es & ed & -> & Hs & Hd & Hn & ->)]]; [left; cbn; lia|]. cbn [expo_val]. unfold exp_val. pose proof (dec_val_nonneg ed Hd) as N.
  assert (SG : sign_of es = 1 \/ sign_of es = -1) by (destruct Hs as [->|[->| ->]]; cbn; auto). assert (AB : Z.abs (sign_of es * dec_val ed) = dec_val ed) by (destruct SG as [-> | ->]; lia).
  destruct (Z.lt_ge_cases (dec_val ed) 100000) as [L|L].
  - left. rewrite AB. split; [exact L|]. rewrite exp_from_small; [reflexivity|exact Hd|lia|exact L].
  - right. destruct (exp_from_div ed Hd 0 ltac:(lia) L) as (k & K1 & K2 & K3). change (dec_from 0 ed) with (dec_val ed) in *. exists k. rewrite AB. split; [exact K1|]. split; [exact K3|].
    rewrite K2. f_equal. rewrite Z.sgn_mul, (Z.sgn_pos (dec_val ed)) by lia. destruct SG as [-> | ->]; reflexivity.
Qed.
Lemma taken_unique x y y' : exponent_taken x y -> exponent_taken x y' -> y = y'.
Proof.
  assert (S : forall k, 0 < k -> Z.abs x < 100000 -> 10000 <= Z.abs x / 10^k -> False).
  { intros k Hk Hx H. assert (10^1 <= 10^k) by (apply Z.pow_le_mono_r; lia). change (10^1) with 10 in *. pose proof (Z.mul_div_le (Z.abs x) (10^k) ltac:(lia)). nia. }
  assert (T : forall k k', 0 < k -> k < k' -> Z.abs x / 10^k < 100000 -> 10000 <= Z.abs x / 10^k' -> False).
  { intros k k' H1 H2 H3 H4. replace k' with (k + (k' - k)) in H4 by lia. rewrite Z.pow_add_r, <- Z.div_div in H4; [|apply Z.pow_nonzero; lia|apply Z.pow_pos_nonneg; lia|lia|lia].
    assert (10^1 <= 10^(k' - k)) by (apply Z.pow_le_mono_r; lia). change (10^1) with 10 in *. set (q := Z.abs x / 10^k) in *. pose proof (Z.mul_div_le q (10^(k' - k)) ltac:(lia)). nia. }
  intros [[A1 ->]|(k & K1 & K2 & ->)] [[B1 ->]|(k' & K1' & K2' & ->)]; [reflexivity|exfalso; eapply S; eauto; lia|exfalso; eapply S; eauto; lia|].
  destruct (Z.lt_trichotomy k k') as [L|[->|L]]; [exfalso; eapply (T k k'); lia|reflexivity|exfalso; eapply (T k' k); lia].
Qed.

Section P.
Context (oob : ity -> spec_float -> Z).
Notation conv := (convert format_float parse_float oob).
(** C150: what every decimal numeral becomes: the float64 nearest to the number it stands for
    when its exponent is taken for [y]. *)
Theorem text_to_float64_exact s n M E x : decimal s n M E x -> exists y f,
  exponent_taken x y /\ conv BStr (BNum F64) (VStr s) = Some (VFloat f) /\ rounds_to f n (num_of 10 M (E - x + y)) (den_of 10 (E - x + y)).
Proof.
  intros H. apply decimal_numeral in H as (l & -> & Hl & Hh & Hn & HM & HE & HL & Hr). exists (expo_val (l_exp l)). rewrite (conv_parse oob). eexists. split; [exact (read_taken _ _ _ Hr)|]. split; [reflexivity|].
  rewrite parse_numeral by exact Hl. unfold l_val. rewrite Hh, Hn. cbn [is_hex]. rewrite HM, HE, Z.mul_1_l.
  assert (Hd : Forall is_digit (l_int l ++ frac (l_frac l))) by (destruct Hl as (_ & H2 & H3 & _); rewrite Hh in *; apply all_d_dec in H2, H3; apply Forall_app; auto). rewrite num_dec in HM by exact Hd. change (dec_from 0 (l_int l ++ frac (l_frac l))) with (dec_val (l_int l ++ frac (l_frac l))) in HM.
  pose proof (dec_val_lt _ Hd) as B. pose proof (dec_val_nonneg _ Hd) as B0. rewrite HM in B, B0. rewrite app_length in B.
  set (sh := Z.of_nat (length (frac (l_frac l)))) in *. replace (x - sh - x + expo_val (l_exp l)) with (expo_val (l_exp l) - sh) by lia.
  apply (rounds_exponent n 10 M _ _ sh (Z.of_nat (length (l_int l) + length (frac (l_frac l))))); [auto|lia|lia|lia|]. left. reflexivity.
Qed.
Theorem text_to_float64_hex_exact s n M E x : hexadecimal s n M E x -> exists y f,
  exponent_taken x y /\ conv BStr (BNum F64) (VStr s) = Some (VFloat f) /\ rounds_to f n (num_of 2 M (E - x + y)) (den_of 2 (E - x + y)).
Proof.
  intros H. apply hexadecimal_numeral in H as (l & -> & Hl & Hh & Hn & HM & HE & HL & Hr). exists (expo_val (l_exp l)). rewrite (conv_parse oob). eexists. split; [exact (read_taken _ _ _ Hr)|]. split; [reflexivity|].
  rewrite parse_numeral by exact Hl. unfold l_val.
  assert (Hc : (if l_hex l then 2 else 10) = 2 /\ (if l_hex l then 4 else 1) = 4) by (destruct (l_hex l); [auto|discriminate]). destruct Hc as [-> ->]. rewrite Hn, Hh, HM, HE.
  assert (Hd : Forall hex_digit (l_int l ++ frac (l_frac l))).
  { destruct Hl as (_ & H2 & H3 & _). rewrite Hh in *. apply Forall_app. split; (eapply Forall_impl; [eassumption|intros z; apply hex_digit_iff]). }
  pose proof (hex_val_lt _ Hd 0 ltac:(lia)) as B. rewrite HM in B. rewrite app_length in B.
  set (sh := 4 * Z.of_nat (length (frac (l_frac l)))) in *. replace (x - sh - x + expo_val (l_exp l)) with (expo_val (l_exp l) - sh) by lia.
  apply (rounds_exponent n 2 M _ _ sh (4 * Z.of_nat (length (l_int l) + length (frac (l_frac l))))); [auto|lia|lia|lia|]. left. reflexivity.
Qed.
End P.
Print Assumptions text_to_float64_exact.
Print Assumptions text_to_float64_hex_exact.
(** there is exactly one exponent it is taken for *)
Theorem exponent_taken_unique x : exists y, exponent_taken x y /\ forall y', exponent_taken x y' -> y' = y.
Proof.
  assert (G : exists y, exponent_taken x y).
  { destruct (Z.lt_ge_cases (Z.abs x) 100000) as [L|L]; [exists x; left; auto|].
    assert (Z1 : forall n : nat, forall v, 0 <= v -> v < 100000 * 10^Z.of_nat n -> 100000 <= v -> exists k, 0 < k /\ 10000 <= v / 10^k < 100000).
    { induction n as [|n IH]; intros v H0 H1 H2; [cbn in H1; lia|]. rewrite Nat2Z.inj_succ, Z.pow_succ_r in H1 by lia.
      pose proof (Z.div_mod v 10 ltac:(lia)) as D. pose proof (Z.mod_pos_bound v 10 ltac:(lia)) as B. destruct (Z.lt_ge_cases (v / 10) 100000) as [Q|Q].
      - exists 1. change (10^1) with 10. lia.
      - destruct (IH (v / 10)) as (k & K1 & K2); [lia|lia|lia|]. exists (k + 1). split; [lia|]. rewrite Z.add_comm, Z.pow_add_r, <- Z.div_div by (try lia; try (apply Z.pow_pos_nonneg; lia); apply Z.pow_nonzero; lia). exact K2. }
    destruct (Z1 (Z.to_nat (Z.abs x)) (Z.abs x)) as (k & K1 & K2); [lia| |exact L|].
    - rewrite Z2Nat.id by lia. pose proof (Z.pow_gt_lin_r 10 (Z.abs x) ltac:(lia) ltac:(lia)). lia.
    - eexists. right. exists k. eauto. }
  destruct G as [y Hy]. exists y. split; [exact Hy|]. intros y' Hy'. exact (taken_unique x y' y Hy' Hy).
Qed.
Print Assumptions exponent_taken_unique.
Example exponent_taken_case : exponent_taken (-1234567) (-12345) /\ exponent_taken 99999 99999.
Proof. split; [right; exists 2; split; [lia|]; split; [vm_compute; split; [discriminate|reflexivity]|reflexivity]|left; split; [reflexivity|reflexivity]]. Qed.
