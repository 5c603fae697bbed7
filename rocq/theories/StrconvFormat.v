(** What format_float writes.  Lemmas for StrconvProps.v. *)
From Verif Require Import Base ConvModel ConvProofs ConvProofs2 ConvFloat ConvNearest StrconvModel StrconvRound StrconvParse StrconvShape.
From Coq Require Import Floats.SpecFloat ZArith.
Local Open Scope Z.

Lemma p10 k : 0 < 10^k \/ k < 0.
Proof. destruct (Z.le_gt_cases 0 k); [left; apply Z.pow_pos_nonneg; lia|auto]. Qed.
Lemma pos10 k : 0 <= k -> 0 < 10^k.
Proof. intros. apply Z.pow_pos_nonneg; lia. Qed.
Lemma unit10_pos e : 0 < unit10 e.
Proof. unfold unit10. destruct (Z.leb_spec 0 e); apply Z.pow_pos_nonneg; lia. Qed.
Definition dec_exp (e : Z) : Z := - Z.min e 0.
Lemma unit10_scale e : -1074 <= e -> unit10 e * 2^1074 = 2^(e + 1074) * 10^(dec_exp e).
Proof.
  intros He. unfold unit10, dec_exp. destruct (Z.leb_spec 0 e).
  - rewrite Z.min_r by lia. change (10^(-0)) with 1. rewrite Z.pow_add_r by lia. ring.
  - rewrite Z.min_l by lia. change 10 with (2 * 5). rewrite Z.pow_mul_l. replace (2^1074) with (2^(e + 1074) * 2^(- e)) by (rewrite <- Z.pow_add_r by lia; f_equal; lia). ring.
Qed.

(** *** the numbers that are read as a float *)
Definition within (m e N D : Z) : Prop :=
  let w := 2^(e + 1074) in
  (4 * m - low_gap m e) * w * D <= N * 2^1076 <= (4 * m + 2) * w * D /\
  (Z.even m = false -> (4 * m - low_gap m e) * w * D < N * 2^1076 < (4 * m + 2) * w * D).
Lemma within_eq m e N D N' D' : 0 < D -> 0 < D' -> N * D' = N' * D -> within m e N D -> within m e N' D'.
Proof.
  unfold within. intros HD HD' E. set (A := (4 * m - low_gap m e) * 2^(e + 1074)). set (B := (4 * m + 2) * 2^(e + 1074)). set (U := 2^1076). assert (EU : N * U * D' = N' * U * D) by (transitivity (N * D' * U); [ring|rewrite E; ring]).
  clearbody A B U. intros [H1 H2]. split.
  - nia.
  - intros Ev. specialize (H2 Ev). nia.
Qed.
(** in units of 10^-dec_exp *)
Lemma within_inside m e c : -1074 <= e -> within m e c (10^(dec_exp e)) <-> inside m e c = true.
Proof.
  intros He. unfold within, inside, lower4, upper4. fold (low_gap m e). pose proof (unit10_scale e He) as S. change (2^1076) with (4 * 2^1074). set (U := 2^1074) in *. set (w := 2^(e + 1074)) in *. set (D := 10^(dec_exp e)) in *. set (g := low_gap m e).
  assert (HU : 0 < U) by (apply Z.pow_pos_nonneg; lia). set (u := unit10 e) in *. clearbody U w D g u.
  replace ((4 * m - g) * w * D) with ((4 * (m * u) - g * u) * U) by (transitivity ((4 * m - g) * (u * U)); [ring|rewrite S; ring]).
  replace ((4 * m + 2) * w * D) with ((4 * (m * u) + 2 * u) * U) by (transitivity ((4 * m + 2) * (u * U)); [ring|rewrite S; ring]).
  replace (c * (4 * U)) with (4 * c * U) by ring. set (lo := 4 * (m * u) - g * u). set (hi := 4 * (m * u) + 2 * u). clearbody lo hi.
  rewrite <- !Z.mul_le_mono_pos_r by exact HU. rewrite <- !Z.mul_lt_mono_pos_r by exact HU. destruct (Z.even m); rewrite andb_true_iff, ?Z.leb_le, ?Z.ltb_lt; intuition (lia || congruence).
Qed.
Lemma round_within s m e N D : valid64 (S754_finite s m e) = true -> 0 < N -> 0 < D -> within (Zpos m) e N D -> round_ratio s N D = S754_finite s m e.
Proof. intros V HN HD [H1 H2]. apply ratio_unique; assumption. Qed.
(** the neighbours *)
Lemma above m e : Zpos m < 2^53 -> -1074 <= e <= 971 -> (e = -1074 \/ 2^52 <= Zpos m) -> (Zpos m = 2^53 - 1 /\ e = 971) \/ forall s, exists g, fin g /\ valid64 g = true /\ amt g = sg s * ((Zpos m + 1) * 2^(e + 1074)).
Proof.
  intros H1 H2 H3. destruct (Z.eq_dec (Zpos m) (2^53 - 1)) as [E|N].
  - destruct (Z.eq_dec e 971) as [->|Ne]; [auto|]. right. intros s. exists (S754_finite s (2^52)%positive (e + 1)). split; [exact I|]. split; [apply valid64_iff; split; [reflexivity|]; split; [lia|right; reflexivity]|].
    cbn [units]. rewrite E. change (Zpos (2^52)%positive) with (2^52). replace (e + 1 - -1074) with (1 + (e + 1074)) by lia. rewrite Z.pow_add_r by lia. unfold sg. ring.
  - right. intros s. exists (S754_finite s (m + 1) e). split; [exact I|]. split; [apply valid64_iff; rewrite Pos2Z.inj_add; lia|]. cbn [units]. rewrite Pos2Z.inj_add. replace (e - -1074) with (e + 1074) by lia. unfold sg. ring.
Qed.
Lemma below m e : Zpos m < 2^53 -> -1074 <= e <= 971 -> (e = -1074 \/ 2^52 <= Zpos m) -> forall s, exists g, fin g /\ valid64 g = true /\ 2 * amt g = sg s * ((2 * Zpos m - low_gap (Zpos m) e) * 2^(e + 1074)).
Proof.
  intros H1 H2 H3 s. unfold low_gap. destruct (Z.eqb_spec (Zpos m) (2^52)) as [E|N], (Z.eqb_spec e (-1074)) as [->|Ne]; cbn [andb negb].
  - exists (S754_finite s (m - 1) (-1074)). assert (E' : Zpos (m - 1) = Zpos m - 1) by (apply Pos2Z.inj_sub; lia). split; [exact I|]. split; [apply valid64_iff; rewrite E'; lia|]. cbn [units]. rewrite E'. replace (-1074 - -1074) with (-1074 + 1074) by lia. unfold sg. ring.
  - exists (S754_finite s (2^53 - 1)%positive (e - 1)). split; [exact I|]. split; [apply valid64_iff; split; [reflexivity|]; split; [lia|right; discriminate]|].
    cbn [units]. rewrite E. change (Zpos (2^53 - 1)%positive) with (2^53 - 1). replace (e + 1074) with (1 + (e - 1 - -1074)) by lia. rewrite Z.pow_add_r by lia. unfold sg. ring.
  - destruct (Z.eq_dec (Zpos m) 1) as [E1|N1].
    + exists (S754_zero s). split; [exact I|]. split; [reflexivity|]. cbn [units]. rewrite E1. lia.
    + exists (S754_finite s (m - 1) (-1074)). assert (E' : Zpos (m - 1) = Zpos m - 1) by (apply Pos2Z.inj_sub; lia). split; [exact I|]. split; [apply valid64_iff; rewrite E'; lia|]. cbn [units]. rewrite E'. replace (-1074 - -1074) with (-1074 + 1074) by lia. unfold sg. ring.
  - exists (S754_finite s (m - 1) e). assert (E' : Zpos (m - 1) = Zpos m - 1) by (apply Pos2Z.inj_sub; lia). split; [exact I|]. split; [apply valid64_iff; rewrite E'; lia|]. cbn [units]. rewrite E'. replace (e - -1074) with (e + 1074) by lia. unfold sg. ring.
Qed.
Lemma within_nearest s m e N D : 0 < N -> 0 < D -> valid64 (S754_finite s m e) = true -> N < (2^54 - 1) * 2^970 * D ->
  (forall g, fin g -> valid64 g = true -> Z.abs (amt (S754_finite s m e) * D - sg s * (N * 2^1074)) <= Z.abs (amt g * D - sg s * (N * 2^1074)) /\
    (Z.abs (amt (S754_finite s m e) * D - sg s * (N * 2^1074)) = Z.abs (amt g * D - sg s * (N * 2^1074)) -> amt g = amt (S754_finite s m e) \/ even_mantissa (S754_finite s m e) = true)) ->
  within (Zpos m) e N D.
Proof.
  intros HN HD V HI G. pose proof V as V0. apply valid64_iff in V0 as (M1 & M2 & M3).
  unfold within. set (w := 2^(e + 1074)). assert (Hw : 0 < w) by (apply Z.pow_pos_nonneg; lia). change (2^1076) with (4 * 2^1074).
  assert (EA : amt (S754_finite s m e) = sg s * (Zpos m * w)) by (cbn [units]; replace (e - -1074) with (e + 1074) by lia; reflexivity). rewrite EA in G.
  assert (HU : 0 < 2^1074) by (apply Z.pow_pos_nonneg; lia). assert (HwD : 0 < w * D) by nia.
  assert (Hup : N * (4 * 2^1074) <= (4 * Zpos m + 2) * w * D /\ (Z.even (Zpos m) = false -> N * (4 * 2^1074) < (4 * Zpos m + 2) * w * D)).
  { destruct (above m e M1 M2 M3) as [[Em ->]|Hg].
    - pose proof HI as L. assert (Ew : w * 2 = 4 * (2^970 * 2^1074)) by reflexivity. rewrite Em.
      assert (N * (4 * 2^1074) < (4 * (2^53 - 1) + 2) * w * D); [|split; [lia|auto]]. replace ((4 * (2^53 - 1) + 2) * w * D) with ((2^54 - 1) * (w * 2) * D) by ring. rewrite Ew. clearbody w. clear - L HU. set (U := 2^1074) in *. set (X := 2^970) in *. clearbody U X. nia.
    - destruct (Hg s) as (g & Fg & Vg & Ag). destruct (G g Fg Vg) as [G1 G2]. rewrite Ag in *. cbn [even_mantissa] in G2. clear G HI. set (x := N * 2^1074) in *. assert (Ex : N * (4 * 2^1074) = 4 * x) by (unfold x; ring). rewrite Ex. fold w in G1, G2.
      assert (Hsg : forall t, Z.abs (sg s * t * D - sg s * x) = Z.abs (t * D - x)).
      { intros t. replace (sg s * t * D - sg s * x) with (sg s * (t * D - x)) by ring. rewrite Z.abs_mul. unfold sg. destruct s; lia. }
      rewrite !Hsg in *. replace ((4 * Zpos m + 2) * w * D) with (4 * (Zpos m * w * D) + 2 * (w * D)) by ring. replace ((Zpos m + 1) * w * D) with (Zpos m * w * D + w * D) in * by ring.
      split; [clear G2; lia|]. intros Ev. assert (Ne : 4 * x <> 4 * (Zpos m * w * D) + 2 * (w * D)); [|clear G2; lia]. intros Eq. destruct G2 as [G2|G2]; [lia| |congruence]. unfold sg in G2. destruct s; nia. }
  assert (Hdown : (4 * Zpos m - low_gap (Zpos m) e) * w * D <= N * (4 * 2^1074) /\ (Z.even (Zpos m) = false -> (4 * Zpos m - low_gap (Zpos m) e) * w * D < N * (4 * 2^1074))).
  { destruct (below m e M1 M2 M3 s) as (g & Fg & Vg & Ag). destruct (G g Fg Vg) as [G1 G2]. cbn [even_mantissa] in G2. clear G HI Hup. set (x := N * 2^1074) in *. assert (Ex : N * (4 * 2^1074) = 4 * x) by (unfold x; ring). rewrite Ex. fold w in Ag.
    assert (Hlg : 1 <= low_gap (Zpos m) e) by (unfold low_gap; destruct (_ && _); lia). set (lg := low_gap (Zpos m) e) in *. clearbody lg.
    assert (Eg : exists b, amt g = sg s * b /\ 2 * b = (2 * Zpos m - lg) * w) by (exists (sg s * amt g); unfold sg in *; destruct s; lia). destruct Eg as (b & Eg & Eb). rewrite Eg in *.
    assert (Hsg : forall t, Z.abs (sg s * t * D - sg s * x) = Z.abs (t * D - x)).
    { intros t. replace (sg s * t * D - sg s * x) with (sg s * (t * D - x)) by ring. rewrite Z.abs_mul. unfold sg. destruct s; lia. }
    rewrite !Hsg in *. assert (EbD : 2 * (b * D) = 2 * (Zpos m * w * D) - lg * (w * D)) by (transitivity ((2 * b) * D); [ring|rewrite Eb; ring]).
    assert (HlD : 0 < lg * (w * D)) by nia. replace ((4 * Zpos m - lg) * w * D) with (4 * (Zpos m * w * D) - lg * (w * D)) by ring. split; [clear G2; lia|].
    intros Ev. assert (Ne : 4 * x <> 4 * (Zpos m * w * D) - lg * (w * D)); [|clear G2; lia]. intros Eq. destruct G2 as [G2|G2]; [lia| |congruence]. assert (b = Zpos m * w) by (unfold sg in G2; destruct s; lia). clear G2. subst b. lia. }
  split; [split; [apply Hdown|apply Hup]|]. intros Ev. split; [apply Hdown; exact Ev|apply Hup; exact Ev].
Qed.

(** *** the shortest digits *)
Lemma dec_digits_spec n : 0 < n -> Forall is_digit (dec_digits n) /\ dec_val (dec_digits n) = n /\ exists c r, dec_digits n = c :: r /\ c <> 48.
Proof.
  intros Hn. unfold dec_digits. pose proof (Z.log2_spec n Hn) as [_ L]. pose proof (Z.log2_nonneg n) as L0. destruct (digits_spec (S (Z.to_nat (Z.log2 n))) n []) as (ds & E1 & E2 & E3 & E4 & E5).
  - split; [lia|]. replace (Z.of_nat (S (Z.to_nat (Z.log2 n)))) with (Z.succ (Z.log2 n)) by lia. eapply Z.lt_le_trans; [exact L|]. apply Z.pow_le_mono_l. lia.
  - rewrite E1, app_nil_r. split; [exact E3|]. split; [exact E4|]. destruct ds as [|c r]; [exfalso; apply E2; [lia|reflexivity]|]. exists c, r. split; [reflexivity|]. destruct r as [|c' r].
    + intros ->. cbn in E4. lia.
    + apply (E5 c (c' :: r)); [reflexivity|discriminate].
Qed.
Lemma dec_from_split n ds : dec_from n ds = n * 10^Z.of_nat (length ds) + dec_val ds.
Proof.
  unfold dec_val. change (foldl (fun n c => 10 * n + (c - 48)) 0 ds) with (dec_from 0 ds). induction ds as [|c ds IH] using rev_ind; [cbn; lia|]. rewrite !dec_from_app, app_length, Nat2Z.inj_add, Z.pow_add_r by lia. rewrite IH. cbn. lia.
Qed.
Lemma dec_val_app a b : dec_val (a ++ b) = dec_val a * 10^Z.of_nat (length b) + dec_val b.
Proof. change (dec_val (a ++ b)) with (dec_from 0 (a ++ b)). rewrite dec_from_app. rewrite (dec_from_split (dec_from 0 a)). reflexivity. Qed.
Lemma dec_val_lt ds : Forall is_digit ds -> dec_val ds < 10^Z.of_nat (length ds).
Proof.
  intros H. induction ds as [|c ds IH] using rev_ind; [cbn; lia|]. apply Forall_app in H as [H1 H2]. apply Forall_cons in H2 as [H2 _]. unfold is_digit in H2. rewrite dec_val_app, app_length, Nat2Z.inj_add, Z.pow_add_r by lia.
  specialize (IH H1). change (dec_val [c]) with (10 * 0 + (c - 48)). change (Z.of_nat (length [c])) with 1. change (10^1) with 10. lia.
Qed.
Lemma dec_val_lead c ds : is_digit c -> c <> 48 -> Forall is_digit ds -> 10^Z.of_nat (length ds) <= dec_val (c :: ds).
Proof.
  intros Hc N H. change (c :: ds) with ([c] ++ ds). rewrite dec_val_app. pose proof (dec_val_nonneg ds H). change (dec_val [c]) with (10 * 0 + (c - 48)). unfold is_digit in Hc. pose proof (pos10 (Z.of_nat (length ds)) ltac:(lia)). nia.
Qed.
Lemma dec_digits_len n : 0 < n -> (0 < length (dec_digits n))%nat /\ 10^(Z.of_nat (length (dec_digits n)) - 1) <= n < 10^Z.of_nat (length (dec_digits n)).
Proof.
  intros Hn. destruct (dec_digits_spec n Hn) as (H1 & H2 & c & r & E & Nc). pose proof (dec_val_lt _ H1) as U. rewrite H2 in U. rewrite E in *. apply Forall_cons in H1 as [H1 H3]. pose proof (dec_val_lead c r H1 Nc H3) as L. rewrite H2 in L.
  cbn [length] in *. split; [lia|]. split; [|exact U]. replace (Z.of_nat (S (length r)) - 1) with (Z.of_nat (length r)) by lia. exact L.
Qed.

Definition down (m e : Z) (t : nat) : Z := m * unit10 e / 10^Z.of_nat t.
Lemma shortest_spec m e t : 0 < m -> let '(c, t') := shortest m e t in
  (t' <= t)%nat /\ inside m e (c * 10^Z.of_nat t') = true /\
  (forall t'', (t' < t'' <= t)%nat -> inside m e (down m e t'' * 10^Z.of_nat t'') = false /\ inside m e ((down m e t'' + 1) * 10^Z.of_nat t'') = false) /\
  (c = down m e t' /\ (inside m e ((down m e t' + 1) * 10^Z.of_nat t') = true -> 2 * (m * unit10 e mod 10^Z.of_nat t') <= 10^Z.of_nat t') \/
   c = down m e t' + 1 /\ (inside m e (down m e t' * 10^Z.of_nat t') = true -> 10^Z.of_nat t' <= 2 * (m * unit10 e mod 10^Z.of_nat t'))).
Proof.
  intros Hm. induction t as [|t IH].
  - unfold shortest. fold (down m e 0). change (10^Z.of_nat 0) with 1. assert (E : down m e 0 = m * unit10 e) by (unfold down; rewrite Z.div_1_r; reflexivity).
    assert (I0 : inside m e (down m e 0 * 1) = true).
    { rewrite E, Z.mul_1_r. pose proof (unit10_pos e) as Hu. unfold inside, lower4, upper4. fold (low_gap m e). assert (1 <= low_gap m e) by (unfold low_gap; destruct (_ && _); lia). destruct (Z.even m); apply andb_true_iff; rewrite ?Z.leb_le, ?Z.ltb_lt; nia. }
    rewrite I0. cbn [andb]. assert (R : round_up (m * unit10 e) 1 = false) by (unfold round_up; rewrite Z.mod_1_r; reflexivity). rewrite R.
    destruct (inside m e ((down m e 0 + 1) * 1)); change (10^Z.of_nat 0) with 1; (split; [lia|]; split; [exact I0|]; split; [lia|]; left; split; [reflexivity|]; rewrite Z.mod_1_r; lia).
  - cbn [shortest]. fold (down m e (S t)). set (p := 10^Z.of_nat (S t)). assert (Hp : 0 < p) by (apply pos10; lia). pose proof (Z.mod_pos_bound (m * unit10 e) p Hp) as Hmod.
    destruct (inside m e (down m e (S t) * p)) eqn:Ed, (inside m e ((down m e (S t) + 1) * p)) eqn:Eu; cbn [andb].
    + unfold round_up. destruct (Z.eqb_spec (2 * (m * unit10 e mod p)) p) as [Et|Nt].
      * destruct (Z.odd _); fold p; (split; [lia|]; split; [assumption|]; split; [lia|]); [right|left]; (split; [reflexivity|]; intros _; lia).
      * destruct (Z.ltb_spec p (2 * (m * unit10 e mod p))); fold p; (split; [lia|]; split; [assumption|]; split; [lia|]); [right|left]; (split; [reflexivity|]; intros _; lia).
    + fold p. split; [lia|]. split; [exact Ed|]. split; [lia|]. left. split; [reflexivity|]. intros F. congruence.
    + fold p. split; [lia|]. split; [exact Eu|]. split; [lia|]. right. split; [reflexivity|]. intros F. congruence.
    + destruct (shortest m e t) as [c t']. destruct IH as (I1 & I2 & I3 & I4). split; [lia|]. split; [exact I2|]. split; [|exact I4]. intros t'' Ht. destruct (Nat.eq_dec t'' (S t)) as [->|]; [fold p; auto|]. apply I3. lia.
Qed.
(** The numbers of at most [L - t] digits that are read as the float lie below the one, or
    above the other candidate *)
Lemma candidates m e (L t : nat) c E : 0 < m -> -1074 <= e -> (t < L)%nat -> 10^(Z.of_nat L - 1) <= m * unit10 e -> 0 < c < 10^Z.of_nat (L - t) ->
  let N := c * 10^(Z.max E 0) in let D := 10^(Z.max (- E) 0) in let Y := 10^(dec_exp e) in
  within m e N D ->
  (N * Y <= down m e t * 10^Z.of_nat t * D /\ inside m e (down m e t * 10^Z.of_nat t) = true) \/
  ((down m e t + 1) * 10^Z.of_nat t * D <= N * Y /\ inside m e ((down m e t + 1) * 10^Z.of_nat t) = true).
Proof.
  intros Hm He HtL HL Hc N D Y HW. set (p := 10^Z.of_nat t). assert (Hp : 0 < p) by (apply pos10; lia). assert (HD : 0 < D) by (apply pos10; lia). assert (Hy : 0 <= dec_exp e) by (unfold dec_exp; lia). assert (HY : 0 < Y) by (apply pos10; exact Hy).
  set (n := m * unit10 e) in *. pose proof (Z.div_mod n p ltac:(lia)) as DM. pose proof (Z.mod_pos_bound n p Hp) as MB. assert (Ed : down m e t = n / p) by reflexivity.
  assert (Hn : inside m e n = true).
  { pose proof (unit10_pos e) as Hu. unfold inside, lower4, upper4. fold (low_gap m e). assert (1 <= low_gap m e) by (unfold low_gap; destruct (_ && _); lia). fold n. destruct (Z.even m); apply andb_true_iff; rewrite ?Z.leb_le, ?Z.ltb_lt; lia. }
  (* between two numbers that are inside *)
  assert (Conv : forall x, (N * Y <= x * D /\ x <= n) \/ (n <= x /\ x * D <= N * Y) -> inside m e x = true).
  { intros x Hx. apply within_inside; [exact He|]. apply within_inside in Hn; [|exact He]. fold Y in Hn |- *. unfold within in *. set (A := (4 * m - low_gap m e) * 2^(e + 1074)) in *. set (B := (4 * m + 2) * 2^(e + 1074)) in *. change (2^1076) with (4 * 2^1074) in *. set (U := 4 * 2^1074) in *. assert (HU : 0 < U) by (unfold U; pose proof (Z.pow_pos_nonneg 2 1074); lia).
    destruct HW as [W1 W2], Hn as [N1 N2]. clearbody A B U N D Y n. clear - Hx HD HY HU W1 W2 N1 N2. destruct Hx as [[X1 X2]|[X1 X2]].
    - assert (x * U <= n * U) by nia. assert (A * D * Y <= x * D * U) by nia. split; [split; nia|]. intros Ev. specialize (W2 Ev). specialize (N2 Ev). assert (A * D * Y < x * D * U) by nia. split; nia.
    - assert (n * U <= x * U) by nia. assert (x * D * U <= B * D * Y) by nia. split; [split; nia|]. intros Ev. specialize (W2 Ev). specialize (N2 Ev). assert (x * D * U < B * D * Y) by nia. split; nia. }
  rewrite Ed. destruct (Z.le_gt_cases (Z.of_nat t) (E + dec_exp e)) as [Hi|Hi].
  - (* a multiple *)
    set (q := c * 10^(E + dec_exp e - Z.of_nat t)). assert (EN : N * Y = q * p * D).
    { unfold N, Y, q, p, D. rewrite <- !Z.mul_assoc, <- !Z.pow_add_r by lia. do 2 f_equal. lia. }
    rewrite EN. destruct (Z.le_gt_cases q (n / p)) as [Lq|Lq].
    + assert (X : q * p <= n / p * p) by (apply Z.mul_le_mono_nonneg_r; lia). assert (X2 : q * p * D <= n / p * p * D) by (apply Z.mul_le_mono_nonneg_r; lia). left. split; [exact X2|]. apply Conv. left. rewrite EN. lia.
    + assert (X : (n / p + 1) * p <= q * p) by (apply Z.mul_le_mono_nonneg_r; lia). assert (X2 : (n / p + 1) * p * D <= q * p * D) by (apply Z.mul_le_mono_nonneg_r; lia). right. split; [exact X2|]. apply Conv. right. rewrite EN. lia.
  - left. assert (HT : N * Y < 10^(Z.of_nat L - 1) * D).
    { unfold N, Y, D. rewrite <- Z.mul_assoc, <- !Z.pow_add_r by lia. replace (Z.of_nat L - 1 + Z.max (- E) 0) with (Z.of_nat (L - t) + (Z.of_nat L - 1 + Z.max (- E) 0 - Z.of_nat (L - t))) by lia.
      rewrite (Z.pow_add_r 10 (Z.of_nat (L - t))) by lia. assert (10^(Z.max E 0 + dec_exp e) <= 10^(Z.of_nat L - 1 + Z.max (- E) 0 - Z.of_nat (L - t))) by (apply Z.pow_le_mono_r; lia).
      pose proof (pos10 (Z.max E 0 + dec_exp e) ltac:(lia)). nia. }
    assert (HLp : 10^(Z.of_nat L - 1) <= n / p * p).
    { assert (EL : 10^(Z.of_nat L - 1) = 10^(Z.of_nat L - 1 - Z.of_nat t) * p) by (unfold p; rewrite <- Z.pow_add_r by lia; f_equal; lia). rewrite EL in HL |- *. apply Z.mul_le_mono_nonneg_r; [lia|]. apply Z.div_le_lower_bound; [lia|]. lia. }
    assert (N * Y <= n / p * p * D) by (apply Z.le_trans with (10^(Z.of_nat L - 1) * D); [lia|apply Z.mul_le_mono_nonneg_r; lia]). split; [assumption|]. apply Conv. left. split; [assumption|]. lia.
Qed.

(** *** the text *)
Lemma drop_zeros_spec r : exists z, r = repeat 48 z ++ drop_zeros r /\ match drop_zeros r with c :: _ => c <> 48 | [] => True end.
Proof.
  induction r as [|c r (z & E & H)]; [exists O; split; [reflexivity|exact I]|]. cbn [drop_zeros]. destruct (Z.eqb_spec c 48) as [->|N].
  - exists (S z). cbn [repeat app]. split; [f_equal; exact E|exact H].
  - exists O. split; [reflexivity|exact N].
Qed.
Lemma rev_repeat {A} (x : A) n : rev (repeat x n) = repeat x n.
Proof. induction n as [|n IH]; [reflexivity|]. cbn [repeat rev]. rewrite IH. clear. induction n as [|n IH]; [reflexivity|]. cbn [repeat app]. f_equal. exact IH. Qed.
Lemma trim_spec ds : exists z, ds = trim ds ++ repeat 48 z /\ (forall a c, trim ds = a ++ [c] -> c <> 48).
Proof.
  unfold trim. destruct (drop_zeros_spec (rev ds)) as (z & E & H). exists z. split.
  - rewrite <- (rev_involutive ds) at 1. rewrite E at 1. rewrite rev_app_distr, rev_repeat. reflexivity.
  - intros a c Ea. apply (f_equal (@rev Z)) in Ea. rewrite rev_involutive, rev_app_distr in Ea. cbn in Ea. rewrite Ea in H. exact H.
Qed.
Lemma dec_val_zeros z : dec_val (repeat 48 z) = 0.
Proof. induction z as [|z IH]; [reflexivity|]. change (repeat 48 (S z)) with ([48] ++ repeat 48 z). rewrite dec_val_app, IH. cbn. lia. Qed.
Lemma map_nth_drop k (ds : list Z) : map (fun i => nth (k + i) ds 48) (seq 0 (length ds - k)) = drop k ds.
Proof.
  revert ds. induction k as [|k IH]; intros ds.
  - cbn [Nat.add]. rewrite Nat.sub_0_r, drop_0. induction ds as [|c ds IHd]; [reflexivity|]. cbn [length seq map nth]. f_equal. rewrite <- seq_shift, map_map. exact IHd.
  - destruct ds as [|c ds]; [reflexivity|]. cbn [length Nat.sub skipn]. rewrite <- IH. apply map_ext. intros i. reflexivity.
Qed.
Lemma seq_consts n : forall a (f : nat -> Z), (forall i, (a <= i < a + n)%nat -> f i = 48) -> map f (seq a n) = repeat 48 n.
Proof. induction n as [|n IH]; intros a f H; [reflexivity|]. cbn [seq map repeat]. f_equal; [apply H; lia|]. apply IH. intros i Hi. apply H. lia. Qed.
Lemma seq_from (f : nat -> Z) a n : map f (seq a n) = map (fun i => f (a + i)%nat) (seq 0 n).
Proof. revert a f. induction n as [|n IH]; intros a f; [reflexivity|]. cbn [seq map]. f_equal; [f_equal; lia|]. rewrite IH, (IH 1%nat). apply map_ext. intros i. f_equal. lia. Qed.
(** digits, of which [dp] are before the point *)
Definition fmt_numeral (neg : bool) (ds : list Z) (dp : Z) : numeral :=
  let n := Z.of_nat (length ds) in
  Numeral (if neg then [45] else []) None
    (if dp <=? 0 then [48] else take (Z.to_nat dp) ds ++ repeat 48 (Z.to_nat (dp - n)))
    (if n <=? dp then None else Some (repeat 48 (Z.to_nat (- dp)) ++ drop (Z.to_nat dp) ds)) None.
Lemma fmt_f_text neg ds dp : fmt_f neg ds dp = l_text (fmt_numeral neg ds dp).
Proof.
  unfold fmt_f, l_text, fmt_numeral. cbn [l_sgn l_hex l_int l_frac l_exp pre expo app]. rewrite app_nil_r. unfold body. set (n := Z.of_nat (length ds)). f_equal. f_equal.
  - destruct (Z.ltb_spec 0 dp), (Z.leb_spec dp 0); try lia; [|reflexivity]. f_equal.
    + destruct (Z.le_gt_cases n dp); [|f_equal; lia]. rewrite Z.min_l by lia. unfold n in *. rewrite Nat2Z.id, firstn_all. symmetry. apply take_ge. lia.
    + f_equal. lia.
  - destruct (Z.leb_spec n dp).
    + destruct (Z.ltb_spec 0 (Z.max (n - dp) 0)); [lia|reflexivity].
    + destruct (Z.ltb_spec 0 (Z.max (n - dp) 0)); [|lia]. f_equal. rewrite Z.max_l by lia. destruct (Z.le_gt_cases dp 0) as [L|L].
      * replace (Z.to_nat (n - dp)) with (Z.to_nat (- dp) + length ds)%nat by (unfold n in *; lia). rewrite seq_app, map_app. f_equal.
        -- apply seq_consts. intros i Hi. destruct (Z.leb_spec 0 (dp + Z.of_nat i)); [lia|reflexivity].
        -- rewrite Nat.add_0_l, seq_from. replace (Z.to_nat dp) with 0%nat by lia. rewrite <- (map_nth_drop 0 ds), Nat.sub_0_r. apply map_ext. intros i. destruct (Z.leb_spec 0 (dp + Z.of_nat (Z.to_nat (- dp) + i))); [|lia]. f_equal. lia.
      * replace (Z.to_nat (- dp)) with 0%nat by lia. cbn [repeat app]. rewrite <- map_nth_drop. replace (length ds - Z.to_nat dp)%nat with (Z.to_nat (n - dp)) by (unfold n; lia). apply map_ext. intros i. destruct (Z.leb_spec 0 (dp + Z.of_nat i)); [|lia]. f_equal. lia.
Qed.
Lemma fmt_numeral_ok neg ds dp : Forall is_digit ds -> l_ok (fmt_numeral neg ds dp).
Proof.
  intros Hd. assert (Hz : forall z, Forall is_digit (repeat 48 z)) by (induction z; constructor; [unfold is_digit; lia|assumption]). unfold l_ok, fmt_numeral. cbn [l_sgn l_hex l_int l_frac l_exp is_hex expo_ok]. rewrite !all_d_dec.
  split; [destruct neg; [right; right; reflexivity|left; reflexivity]|]. split; [destruct (dp <=? 0); [constructor; [unfold is_digit; lia|constructor]|apply Forall_app; split; [apply Forall_take; exact Hd|apply Hz]]|].
  split; [destruct (_ <=? dp); cbn [frac]; [constructor|apply Forall_app; split; [apply Hz|apply Forall_drop; exact Hd]]|]. split; [|split; [exact I|reflexivity]].
  destruct (Z.leb_spec dp 0); [discriminate|]. intros E. apply (f_equal length) in E. rewrite !app_length, repeat_length, take_length in E. cbn [length] in E. lia.
Qed.
Lemma fmt_numeral_val neg ds dp : Forall is_digit ds ->
  let l := fmt_numeral neg ds dp in let k := dp - Z.of_nat (length ds) in
  dec_val (l_int l ++ frac (l_frac l)) = dec_val ds * 10^(Z.max k 0) /\ Z.of_nat (length (frac (l_frac l))) = Z.max (- k) 0.
Proof.
  intros Hd. cbn zeta. unfold fmt_numeral. cbn [l_int l_frac]. set (n := Z.of_nat (length ds)). destruct (Z.leb_spec dp 0), (Z.leb_spec n dp); cbn [frac].
  - assert (Hl : length ds = O) by (unfold n in *; lia). destruct ds; [|discriminate]. cbn [length] in *. split; [reflexivity|]. cbn. unfold n. cbn. lia.
  - replace (Z.to_nat dp) with 0%nat by lia. rewrite drop_0. split; [|rewrite app_length, repeat_length; unfold n in *; lia].
    rewrite dec_val_app, dec_val_app, dec_val_zeros. rewrite Z.max_r by lia. change (dec_val [48]) with 0. change (10^0) with 1. lia.
  - rewrite app_nil_r. split; [|cbn; lia]. rewrite take_ge by (unfold n in *; lia). rewrite dec_val_app, dec_val_zeros, repeat_length. rewrite Z.max_l by lia. rewrite Z2Nat.id by lia. lia.
  - replace (Z.to_nat (- dp)) with 0%nat by lia. replace (Z.to_nat (dp - n)) with 0%nat by lia. cbn [repeat app]. rewrite app_nil_r, take_drop. split; [rewrite Z.max_r by lia; change (10^0) with 1; lia|]. rewrite drop_length. unfold n in *. lia.
Qed.
