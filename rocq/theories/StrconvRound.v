(** Rounding a fraction to float64: it is the nearest value, and a fraction near enough to
    a float64 becomes that one.  Lemmas for StrconvProps.v. *)
From Verif Require Import Base ConvModel ConvFloat ConvNearest StrconvModel.
From Coq Require Import Floats.SpecFloat ZArith.
Local Open Scope Z.

Notation amt := (units (-1074)).
Notation valid64 := (valid_binary 53 1024).
Definition sg (s : bool) : Z := if s then -1 else 1.

Lemma two_points a b D q r m : 0 < D -> 0 <= r < D -> m = 2 * q + (if r =? 0 then 0 else 1) ->
  Z.abs (4 * a - m) <= Z.abs (4 * b - m) ->
  let x := 2 * (q * D + r) in
  Z.abs (4 * a * D - x) <= Z.abs (4 * b * D - x) /\ (Z.abs (4 * a * D - x) = Z.abs (4 * b * D - x) -> a = b \/ Z.abs (4 * a - m) = Z.abs (4 * b - m)).
Proof.
  intros HD Hr Hm H x. subst x. destruct (Z.eqb_spec r 0) as [->|Nr].
  - rewrite Z.add_0_r in *. subst m. replace (4 * a * D - 2 * (q * D)) with ((4 * a - 2 * q) * D) by ring. replace (4 * b * D - 2 * (q * D)) with ((4 * b - 2 * q) * D) by ring.
    rewrite !Z.abs_mul, (Z.abs_eq D) by lia. split; [nia|]. intros E. right. nia.
  - destruct (Z.lt_trichotomy a b) as [L|[->|L]].
    + assert (C : 2 * q + 2 <= 2 * (a + b)) by lia. assert (E : (2 * q + 2) * D <= 2 * (a + b) * D) by nia. assert (F : a * D < b * D) by nia. split; [|intros G; exfalso]; nia.
    + split; [lia|]. auto.
    + assert (C : 2 * (a + b) <= 2 * q) by lia. assert (E : 2 * (a + b) * D <= 2 * q * D) by nia. assert (F : b * D < a * D) by nia. split; [|intros G; exfalso]; nia.
Qed.

Lemma units_scale f E : E <= -1074 -> valid64 f = true -> fin f -> units E f = amt f * 2^(-1074 - E).
Proof.
  intros HE V F. destruct f as [s|s| |s m e]; try contradiction; [cbn [units]; lia|]. destruct (valid_small 53 1024 s m e V) as [_ H]. unfold emin in H.
  cbn [units]. replace (e - E) with (e - -1074 + (-1074 - E)) by lia. rewrite Z.pow_add_r by lia. ring.
Qed.

Theorem ratio_nearest s N D : 0 < N -> 0 < D ->
  let f := round_ratio s N D in let x := sg s * (N * 2^1074) in
  valid64 f = true /\ (f = S754_infinity s <-> (2^54 - 1) * 2^970 * D <= N) /\
  (f <> S754_infinity s -> fin f /\ match f with S754_finite s' _ _ | S754_zero s' => s' = s | _ => False end /\
    forall g, fin g -> valid64 g = true ->
      Z.abs (amt f * D - x) <= Z.abs (amt g * D - x) /\ (Z.abs (amt f * D - x) = Z.abs (amt g * D - x) -> amt g = amt f \/ even_mantissa f = true)).
Proof.
  intros HN HD f x. unfold f, round_ratio. destruct (Z.eqb_spec N 0) as [?|_]; [lia|]. pose proof (Z.log2_nonneg D) as HL. pose proof (Z.log2_spec D HD) as [_ HL2].
  set (k := 1100 + Z.log2 D). set (P := 2^k). assert (HP : 0 < P) by (apply Z.pow_pos_nonneg; unfold k; lia).
  assert (HPD : D <= P) by (unfold P; apply Z.lt_le_incl; eapply Z.lt_le_trans; [exact HL2|]; apply Z.pow_le_mono_r; unfold k; lia).
  set (q := N * P / D). set (r := N * P mod D). assert (Hr : 0 <= r < D) by (apply Z.mod_pos_bound; exact HD).
  assert (HE : N * P = q * D + r) by (rewrite Z.mul_comm with (n := q); apply Z.div_mod; lia).
  assert (Hq : 1 <= q) by (apply Z.div_le_lower_bound; nia).
  set (m := 2 * q + (if r =? 0 then 0 else 1)). assert (Hm : 0 < m) by (unfold m; destruct (r =? 0); lia).
  assert (Em : Zpos (Z.to_pos m) = m) by (apply Z2Pos.id; exact Hm).
  pose proof (round_nearest 53 1024 ltac:(lia) ltac:(lia) s (Z.to_pos m) (- (k + 1)) (- (k + 1)) ltac:(lia)) as H. unfold emin in H. specialize (H ltac:(unfold k; lia)). cbn zeta in H.
  change (binary_round prec64 emax64) with (binary_round 53 1024). set (g0 := binary_round 53 1024 s (Z.to_pos m) (- (k + 1))) in *. clearbody g0.
  rewrite Em in H. rewrite Z.sub_diag, Z.mul_1_r in H. destruct H as (V & HI & HF). split; [exact V|]. split.
  - rewrite HI. replace (1024 - 53 - 1 - - (k + 1)) with (970 + 1 + k) by lia. change (53 + 1) with 54. rewrite !Z.pow_add_r by (unfold k; lia). fold P. set (K := (2^54 - 1) * 2^970).
    replace ((2^54 - 1) * (2^970 * 2^1 * P)) with (2 * (K * P)) by (unfold K; ring). clearbody K.
    assert (A : 2 * (K * P) <= m <-> K * P <= q) by (unfold m; destruct (r =? 0); lia). rewrite A. split; intros B.
    + assert (K * P * D <= N * P) by nia. nia.
    + apply Z.div_le_lower_bound; [lia|]. nia.
  - intros Hn. destruct (HF Hn) as (F1 & F2 & F3). split; [exact F1|]. split; [exact F2|]. intros g Fg Vg. destruct (F3 g Fg Vg) as [G1 G2]. clear F3 HF HI.
    rewrite (units_scale g0 (- (k + 1))), (units_scale g (- (k + 1))) in G1, G2 by (assumption || (unfold k; lia)). assert (Ek : 2^(-1074 - - (k + 1)) = 4 * 2^(k - 1075)).
    { replace (-1074 - - (k + 1)) with (2 + (k - 1075)) by lia. rewrite Z.pow_add_r by (unfold k; lia). reflexivity. }
    rewrite Ek in *. set (R := 2^(k - 1075)) in *. assert (HR : 0 < R) by (apply Z.pow_pos_nonneg; unfold k; lia).
    assert (EX : units (- (k + 1)) (S754_finite s (Z.to_pos m) (- (k + 1))) = sg s * m) by (cbn [units]; rewrite Z.sub_diag, Em; unfold sg; destruct s; lia). rewrite EX in *.
    assert (EP : 2 * P = 4 * R * 2^1074).
    { unfold P, R. replace k with (k - 1075 + 1 + 1074) at 1 by lia. rewrite !Z.pow_add_r by (unfold k; lia). ring. }
    set (U := 2^1074) in *. clearbody U R P. clear Ek EX.
    pose proof (two_points (sg s * amt g0 * R) (sg s * amt g * R) D q r m HD Hr eq_refl) as T.
    assert (S : forall t, Z.abs (4 * (sg s * t * R) - m) = Z.abs (t * (4 * R) - sg s * m)).
    { intros t. unfold sg. destruct s; [|f_equal; ring]. rewrite <- Z.abs_opp. f_equal. ring. }
    assert (S' : forall t, Z.abs (4 * (sg s * t * R) * D - 2 * (q * D + r)) = 4 * R * Z.abs (t * D - x)).
    { intros t. replace (2 * (q * D + r)) with (4 * R * N * U) by (rewrite <- HE; transitivity (N * (4 * R * U)); [ring|rewrite <- EP; ring]). unfold x. rewrite <- (Z.abs_eq (4 * R)) at 2 by lia. rewrite <- Z.abs_mul. unfold sg. destruct s; [|f_equal; ring]. rewrite <- Z.abs_opp. f_equal. ring. }
    cbn zeta in T. rewrite !S, !S' in T. destruct (T G1) as [T1 T2]. split; [nia|]. intros E. destruct T2 as [T2|T2]; [nia| |].
    + left. assert (amt g0 * R = amt g * R) by (unfold sg in T2; destruct s; lia). nia.
    + destruct (G2 T2) as [G|G]; [left; nia|right; exact G].
Qed.

(** *** the float64 values *)
Lemma valid64_iff s m e : valid64 (S754_finite s m e) = true <-> Zpos m < 2^53 /\ -1074 <= e <= 971 /\ (e = -1074 \/ 2^52 <= Zpos m).
Proof.
  cbn [valid_binary]. unfold bounded, canonical_mantissa. rewrite andb_true_iff. rewrite <- Zeq_is_eq_bool, <- Zle_is_le_bool. unfold fexp, emin. pose proof (digits_bound m) as [B1 B2]. set (d := Zpos (digits2_pos m)) in *. split.
  - intros [H1 H2]. assert (Hd : d <= 53) by lia. split; [|split; [lia|]].
    + eapply Z.lt_le_trans; [exact B2|]. apply Z.pow_le_mono_r; lia.
    + destruct (Z.eq_dec e (-1074)); [auto|right]. assert (d = 53) as -> by lia. exact B1.
  - intros (H1 & H2 & H3). assert (Hd : d <= 53) by (apply digits_le; lia). split; [|lia]. destruct H3 as [->|H3]; [lia|].
    assert (2^52 < 2^d) by lia. apply Z.pow_lt_mono_r_iff in H; lia.
Qed.
(** the same amount, the same float *)
Lemma amt_inj s m e m' e' : valid64 (S754_finite s m e) = true -> valid64 (S754_finite s m' e') = true -> Zpos m * 2^(e + 1074) = Zpos m' * 2^(e' + 1074) -> m = m' /\ e = e'.
Proof.
  rewrite !valid64_iff. intros V V' E.
  assert (G : forall m e m' e', Zpos m < 2^53 /\ -1074 <= e <= 971 /\ (e = -1074 \/ 2^52 <= Zpos m) -> Zpos m' < 2^53 /\ -1074 <= e' <= 971 /\ (e' = -1074 \/ 2^52 <= Zpos m') -> Zpos m * 2^(e + 1074) = Zpos m' * 2^(e' + 1074) -> ~ e < e').
  { clear. intros m e m' e' V V' E L. assert (H : 2^52 <= Zpos m') by lia. replace (e' + 1074) with (e + 1074 + 1 + (e' - e - 1)) in E by lia. rewrite (Z.pow_add_r 2 (e + 1074 + 1)), (Z.pow_add_r 2 (e + 1074) 1) in E by lia.
    assert (P1 : 0 < 2^(e + 1074)) by (apply Z.pow_pos_nonneg; lia). assert (P2 : 0 < 2^(e' - e - 1)) by (apply Z.pow_pos_nonneg; lia). rewrite Z.pow_1_r in E.
    assert (E' : Zpos m = Zpos m' * 2 * 2^(e' - e - 1)) by (apply Z.mul_reg_r with (2^(e + 1074)); [lia|]; rewrite E; ring). nia. }
  assert (e = e') as -> by (pose proof (G _ _ _ _ V V' E); pose proof (G _ _ _ _ V' V (eq_sym E)); lia). split; [|reflexivity].
  assert (P : 0 < 2^(e' + 1074)) by (apply Z.pow_pos_nonneg; lia). assert (Zpos m = Zpos m') by nia. congruence.
Qed.
Definition low_gap (m e : Z) : Z := if (m =? 2^52) && negb (e =? -1074) then 1 else 2.
(** A fraction between the points half way to the two neighbours of a float becomes the float *)
Theorem ratio_unique s m e N D : valid64 (S754_finite s m e) = true -> 0 < N -> 0 < D ->
  let w := 2^(e + 1074) in
  (4 * Zpos m - low_gap (Zpos m) e) * w * D <= N * 2^1076 <= (4 * Zpos m + 2) * w * D ->
  (Z.even (Zpos m) = false -> (4 * Zpos m - low_gap (Zpos m) e) * w * D < N * 2^1076 < (4 * Zpos m + 2) * w * D) ->
  round_ratio s N D = S754_finite s m e.
Proof.
  intros V HN HD w Hin Hodd. pose proof (ratio_nearest s N D HN HD) as H. cbn zeta in H. set (f := round_ratio s N D) in *. clearbody f.
  pose proof V as V0. apply valid64_iff in V0 as (M1 & M2 & M3). assert (Hw : 0 < w) by (apply Z.pow_pos_nonneg; lia). destruct H as (Vf & HI & HF).
  assert (E76 : 2^1076 = 4 * 2^1074) by reflexivity. rewrite E76 in *.
  assert (Hn : f <> S754_infinity s).
  { intros H. apply HI in H. clear HF HI. assert (B : (4 * Zpos m + 2) * w <= (2^54 - 1) * 2^970 * (4 * 2^1074) /\ (Z.even (Zpos m) = true -> (4 * Zpos m + 2) * w < (2^54 - 1) * 2^970 * (4 * 2^1074))).
    { assert (W1 : w <= 2^(971 + 1074)) by (apply Z.pow_le_mono_r; lia). assert (W2 : 0 < 2^(971 + 1074)) by (apply Z.pow_pos_nonneg; lia).
      replace ((2^54 - 1) * 2^970 * (4 * 2^1074)) with ((2^55 - 2) * 2^(971 + 1074)) by (rewrite (Z.pow_add_r 2 971 1074) by lia; change (2^971) with (2 * 2^970); ring).
      set (WW := 2^(971 + 1074)) in *. clearbody WW w. split; [nia|]. intros Ev. assert (Zpos m <> 2^53 - 1) by (intros Q; rewrite Q in Ev; discriminate). nia. }
    destruct B as [B1 B2]. set (K := (2^54 - 1) * 2^970) in *. set (U := 2^1074) in *. clearbody K U w.
    assert (X1 : K * D * (4 * U) <= N * (4 * U)) by (apply Z.mul_le_mono_nonneg_r; [|exact H]; nia).
    assert (X2 : (4 * Zpos m + 2) * w * D <= K * (4 * U) * D) by (apply Z.mul_le_mono_nonneg_r; lia). destruct (Z.even (Zpos m)) eqn:Ev.
    - specialize (B2 eq_refl). assert ((4 * Zpos m + 2) * w * D < K * (4 * U) * D) by (apply Z.mul_lt_mono_pos_r; lia). lia.
    - specialize (Hodd eq_refl). lia. }
  destruct (HF Hn) as (F1 & F2 & F3). destruct (F3 (S754_finite s m e) I V) as [G1 G2]. clear F3 HF HI.
  (* the value of f *)
  assert (HB : exists m' e', 0 <= m' < 2^53 /\ -1074 <= e' /\ amt f = sg s * (m' * 2^(e' + 1074)) /\ even_mantissa f = Z.even m' /\ (m' <> 0 -> f = S754_finite s (Z.to_pos m') e')).
  { destruct f as [s'|s'| |s' mf ef]; try contradiction; subst s'.
    - exists 0, (-1074). cbn [units even_mantissa]. repeat split; lia || auto.
    - apply valid64_iff in Vf. exists (Zpos mf), ef. cbn [units even_mantissa]. replace (ef - -1074) with (ef + 1074) by lia. repeat split; lia || auto. }
  destruct HB as (m' & e' & B1 & B2 & B3 & B4 & B5). set (B := m' * 2^(e' + 1074)) in *.
  assert (EA : amt (S754_finite s m e) = sg s * (Zpos m * w)) by (cbn [units]; replace (e - -1074) with (e + 1074) by lia; reflexivity).
  assert (Hsg : forall t, Z.abs (sg s * t * D - sg s * (N * 2^1074)) = Z.abs (t * D - N * 2^1074)).
  { intros t. replace (sg s * t * D - sg s * (N * 2^1074)) with (sg s * (t * D - N * 2^1074)) by ring. rewrite Z.abs_mul. unfold sg. destruct s; lia. }
  rewrite B3, EA, !Hsg, B4 in *. set (x := N * 2^1074) in *. assert (Ex : N * (4 * 2^1074) = 4 * x) by (unfold x; ring). rewrite Ex in *. clearbody x.
  assert (HBw : (exists j, B = j * w /\ (Z.even m' = true -> Z.even j = true)) \/ (e <> -1074 /\ 2 * B <= (2^53 - 1) * w /\ (Z.even m' = true -> 2 * B < (2^53 - 1) * w))).
  { destruct (Z.le_gt_cases e e') as [L|L].
    - left. exists (m' * 2^(e' - e)). split; [unfold B, w; rewrite <- Z.mul_assoc, <- Z.pow_add_r by lia; do 2 f_equal; lia|]. intros Ev. rewrite Z.even_mul, Ev. reflexivity.
    - right. split; [lia|]. assert (Ew : w = 2 * 2^(e' + 1074) * 2^(e - e' - 1)) by (unfold w; rewrite <- Z.pow_succ_r, <- Z.pow_add_r by lia; f_equal; lia).
      assert (P1 : 0 < 2^(e' + 1074)) by (apply Z.pow_pos_nonneg; lia). assert (P2 : 0 < 2^(e - e' - 1)) by (apply Z.pow_pos_nonneg; lia). rewrite Ew. unfold B. set (u1 := 2^(e' + 1074)) in *. set (u2 := 2^(e - e' - 1)) in *. clearbody u1 u2.
      assert (m' <= (2^53 - 1) * u2) by nia. split; [nia|]. intros Ev. assert (m' <> (2^53 - 1) * u2); [|nia].
      intros E. assert (u2 = 1) by nia. subst u2. rewrite Z.mul_1_r in E. rewrite E in Ev. discriminate. }
  set (A := Zpos m * w) in *. assert (H4 : (4 * Zpos m + 2) * w * D = 4 * (A * D) + 2 * (w * D)) by (unfold A; ring). rewrite H4 in *.
  assert (H5 : (4 * Zpos m - low_gap (Zpos m) e) * w * D = 4 * (A * D) - low_gap (Zpos m) e * (w * D)) by (unfold A; ring). rewrite H5 in *.
  assert (HwD : 0 < w * D) by nia.
  assert (EB : B = A).
  { destruct (Z.lt_trichotomy B A) as [L|[E|L]]; [|exact E|]; exfalso.
    - assert (K : (B * D <= A * D - w * D /\ low_gap (Zpos m) e <= 2 /\ (Z.even m' = true -> Z.even (Zpos m) = true -> B * D < A * D - w * D)) \/
                  (2 * (B * D) <= 2 * (A * D) - w * D /\ low_gap (Zpos m) e = 1 /\ (Z.even m' = true -> 2 * (B * D) < 2 * (A * D) - w * D))).
      { assert (Hlg : low_gap (Zpos m) e <= 2) by (unfold low_gap; destruct (_ && _); lia). destruct HBw as [(j & Ej & Hj)|(Ne & K1 & K2)].
        - left. assert (j < Zpos m) by (unfold A in L; nia). split; [unfold A; nia|]. split; [exact Hlg|]. intros Ev1 Ev2. specialize (Hj Ev1). assert (j <> Zpos m - 1) by (intros ->; rewrite Z.even_sub, Ev2 in Hj; discriminate). unfold A. nia.
        - destruct (Z.eq_dec (Zpos m) (2^52)) as [Em|Nm].
          + right. assert (Elg : low_gap (Zpos m) e = 1) by (unfold low_gap; rewrite Em, Z.eqb_refl; destruct (Z.eqb_spec e (-1074)); [congruence|reflexivity]).
            assert (EA2 : 2 * A = (2^53 - 1) * w + w) by (unfold A; rewrite Em; ring). clearbody A B w. split; [nia|]. split; [exact Elg|]. intros Ev. specialize (K2 Ev). nia.
          + left. assert (2^52 + 1 <= Zpos m) by lia. assert (2 * B < 2 * A - 2 * w) by (unfold A; clearbody B w; nia). clearbody A B w. split; [nia|]. split; [exact Hlg|]. intros _ _. nia. }
      clear HBw. clearbody A B w. assert (B * D < A * D) by nia. destruct (Z.even (Zpos m)) eqn:Ev.
      + destruct K as [(K1 & K2 & K3)|(K1 & K2 & K3)].
        * assert (Z.abs (B * D - x) = Z.abs (A * D - x)) by (clear G2; nia). destruct (G2 H0) as [G|G].
          -- unfold sg in G. destruct s; lia.
          -- specialize (K3 G eq_refl). clear G2. nia.
        * rewrite K2 in *. assert (Z.abs (B * D - x) = Z.abs (A * D - x)) by (clear G2; nia). destruct (G2 H0) as [G|G].
          -- unfold sg in G. destruct s; lia.
          -- specialize (K3 G). clear G2. nia.
      + specialize (Hodd eq_refl). clear G2. destruct K as [(K1 & K2 & K3)|(K1 & K2 & K3)]; [|rewrite K2 in *]; nia.
    - assert (K : A * D + w * D <= B * D /\ (Z.even m' = true -> Z.even (Zpos m) = true -> A * D + w * D < B * D)).
      { destruct HBw as [(j & Ej & Hj)|(Ne & K1 & K2)].
        - assert (Zpos m < j) by (unfold A in L; nia). split; [unfold A; nia|]. intros Ev1 Ev2. specialize (Hj Ev1). assert (j <> Zpos m + 1) by (intros ->; rewrite Z.even_add, Ev2 in Hj; discriminate). unfold A. nia.
        - exfalso. assert (2^52 <= Zpos m) by lia. unfold A in L. clearbody B w. nia. }
      clear HBw. clearbody A B w. assert (A * D < B * D) by nia. destruct K as [K1 K2]. destruct (Z.even (Zpos m)) eqn:Ev.
      + assert (Z.abs (B * D - x) = Z.abs (A * D - x)) by (clear G2; lia). destruct (G2 H0) as [G|G].
        * unfold sg in G. destruct s; lia.
        * specialize (K2 G eq_refl). clear G2. lia.
      + specialize (Hodd eq_refl). clear G2. lia. }
  assert (Hm' : m' <> 0) by (intros ->; unfold B, A in EB; clearbody w; lia). specialize (B5 Hm'). rewrite B5 in Vf |- *.
  destruct (amt_inj s m e (Z.to_pos m') e' V Vf) as [<- <-]; [rewrite Z2Pos.id by lia; fold w A B; congruence|reflexivity].
Qed.
