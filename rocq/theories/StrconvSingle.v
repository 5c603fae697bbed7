(** C99, exactly: when the text of a number becomes the right float32 although it is
    rounded to float64 first. *)
From Coq Require Import Floats.SpecFloat ZArith.
From Verif Require Import Base ConvModel ConvProofs ConvProofs2 ConvFloat ConvNearest ConvNearestProps ConvExactProps.
Local Open Scope Z.

(** the floats with mantissa m and exponent k *)
Lemma make_float F m k : F = F32 \/ F = F64 -> let p := places F in let emax := (nty_prec F).2 in let mn := emin p emax in
  Z.abs m < 2^p -> mn <= k -> Z.abs m * 2^(k - mn) < 2^(emax - mn) -> exists g, finite g /\ of_type F g /\ amount g = m * 2^(k + 1074).
Proof.
  intros HF p emax mn Hm Hk Ht. destruct (decide (m = 0)) as [->|N].
  { exists (S754_zero false). split; [exact I|]. split; [destruct HF as [-> | ->]; reflexivity|]. cbn [amount]. lia. }
  assert (HP : (forall g, of_type F g <-> valid_binary p emax g = true) /\ 24 <= p <= 53 /\ -1074 <= mn < 0 /\ p + 2 < emax /\ mn <= emax - p /\ mn = emin p emax).
  { unfold p, emax, mn. destruct HF as [-> | ->]; (split; [intros g; reflexivity|]); vm_compute; repeat split; discriminate. }
  destruct HP as (HT & P3 & P4 & P5 & P6 & Emn). clearbody p emax mn.
  set (a := Z.abs m) in *. assert (Ha : 0 < a) by lia. pose proof (Z.log2_spec a Ha) as [L1 L2]. pose proof (Z.log2_nonneg a) as L0. set (d := Z.log2 a) in *.
  assert (Hd : d < p) by (apply (Z.pow_lt_mono_r_iff 2); lia).
  assert (Hdk : d + (k - mn) < emax - mn).
  { apply (Z.pow_lt_mono_r_iff 2); [lia|lia|]. rewrite Z.pow_add_r by lia. eapply Z.le_lt_trans; [|exact Ht]. apply Z.mul_le_mono_nonneg_r; [apply Z.pow_nonneg; lia|lia]. }
  assert (Ee : exists e, e = Z.max mn (k - (p - 1 - d))) by eauto. destruct Ee as [e Ee].
  set (q := a * 2^(k - e)). assert (J0 : 0 < 2^(k - e)) by (apply Z.pow_pos_nonneg; lia).
  assert (Hq : 0 < q < 2^p /\ (e = mn \/ 2^(p - 1) <= q)).
  { unfold q. split; [split; [apply Z.mul_pos_pos; lia|]|].
    - apply (Z.lt_le_trans _ (2^(Z.succ d) * 2^(k - e))); [apply Z.mul_lt_mono_pos_r; lia|]. rewrite <- Z.pow_add_r by lia. apply Z.pow_le_mono_r; lia.
    - destruct (Z.le_gt_cases (k - (p - 1 - d)) mn); [left; lia|right]. replace (p - 1) with (d + (k - e)) by lia. rewrite Z.pow_add_r by lia. apply Z.mul_le_mono_nonneg_r; lia. }
  assert (V : valid_binary p emax (finish p emax (m <? 0) q e) = true) by (apply finish_valid; rewrite <- ?Emn; [lia|lia|lia|tauto]).
  exists (finish p emax (m <? 0) q e). assert (Hqp : exists n, q = Zpos n) by (destruct q as [|n|n]; [lia|eauto|lia]). destruct Hqp as [n En].
  split; [|split; [apply HT; exact V|]]; rewrite En; cbn [finish]; (destruct (Z.leb_spec e (emax - p)); [|lia]); [exact I|]. cbn [amount]. rewrite <- En. unfold q, a.
  replace (2^(k + 1074)) with (2^(k - e) * 2^(e + 1074)) by (rewrite <- Z.pow_add_r by lia; f_equal; lia).
  generalize (2^(e + 1074)). intros w. generalize (2^(k - e)). intros u.
  destruct (Z.ltb_spec m 0) as [L|L]; [rewrite Z.abs_neq by lia|rewrite Z.abs_eq by lia]; ring.
Qed.
(** the amounts of the finite values *)
Definition val (F : nty) (a : Z) : Prop := exists g, finite g /\ of_type F g /\ amount g = a.
Lemma val_make F m k : F = F32 \/ F = F64 -> let mn := emin (places F) (nty_prec F).2 in
  Z.abs m < 2^(places F) -> mn <= k -> Z.abs m * 2^(k - mn) < 2^((nty_prec F).2 - mn) -> val F (m * 2^(k + 1074)).
Proof. intros. apply make_float; assumption. Qed.
Lemma val32 a : val F32 a <-> exists m j, a = m * 2^j * 2^925 /\ 0 <= j /\ Z.abs m < 2^24 /\ Z.abs m * 2^j < 2^277.
Proof.
  split.
  - intros (g & Fg & Tg & <-). destruct g as [s|s| |s m e]; try contradiction; [exists 0, 0; cbn [amount]; repeat split; lia|].
    assert (V := Tg). cbn [of_type] in V. destruct (valid_small 24 128 s m e V) as [V1 V2]. unfold emin in V2. cbn [valid_binary] in V. unfold bounded in V. apply andb_true_iff in V as [_ V]. apply Zle_bool_imp_le in V.
    exists ((if s then -1 else 1) * Zpos m), (e + 149). split; [cbn [amount]; replace (e + 1074) with ((e + 149) + 925) by lia; rewrite Z.pow_add_r by lia; ring|]. split; [lia|].
    assert (A : Z.abs ((if s then -1 else 1) * Zpos m) = Zpos m) by (destruct s; lia). rewrite A. split; [exact V1|].
    apply (Z.lt_le_trans _ (2^24 * 2^(e + 149))); [apply Z.mul_lt_mono_pos_r; [apply Z.pow_pos_nonneg; lia|exact V1]|]. rewrite <- Z.pow_add_r by lia. apply Z.pow_le_mono_r; lia.
  - intros (m & j & -> & Hj & Hm & Ht). replace (m * 2^j * 2^925) with (m * 2^((j - 149) + 1074)).
    + apply val_make; [auto|exact Hm|change (emin (places F32) (nty_prec F32).2) with (-149); lia|]. change (emin (places F32) (nty_prec F32).2) with (-149). replace (j - 149 - -149) with j by lia. exact Ht.
    + replace (j - 149 + 1074) with (j + 925) by lia. rewrite Z.pow_add_r by lia. ring.
Qed.
Lemma val_opp F a : val F a -> val F (- a).
Proof.
  intros (g & Fg & Tg & <-). destruct g as [s|s| |s m e]; try contradiction.
  - exists (S754_zero s). auto.
  - exists (S754_finite (negb s) m e). split; [exact I|]. split; [exact Tg|]. cbn [amount]. destruct s; cbn [negb]; ring.
Qed.
(** numbers of 24 digits, large ones *)
Lemma multiple m j k : 0 <= j -> 0 <= k -> Z.abs m < 2^24 -> 2^(23 + k) <= Z.abs (m * 2^j) -> exists c, m * 2^j = c * 2^k.
Proof.
  intros Hj Hk Hm H. assert (0 < 2^j) by (apply Z.pow_pos_nonneg; lia). rewrite Z.abs_mul, (Z.abs_eq (2^j)) in H by lia.
  assert (k <= j).
  { assert (2^(23 + k) < 2^(24 + j)) as C; [|apply Z.pow_lt_mono_r_iff in C; lia]. rewrite (Z.pow_add_r 2 24 j) by lia. eapply Z.le_lt_trans; [exact H|]. apply Z.mul_lt_mono_pos_r; lia. }
  exists (m * 2^(j - k)). replace (2^j) with (2^(j - k) * 2^k) by (rewrite <- Z.pow_add_r by lia; f_equal; lia). ring.
Qed.
(** the next value above, as far as there is one *)
Lemma next_up g h : 0 <= g < h -> val F32 g -> val F32 h ->
  exists s mid, g < s <= h /\ val F32 s /\ g + s = 2 * mid /\ val F64 mid /\ forall v, val F32 v -> g < v -> s <= v.
Proof.
  intros Hgh Vg Vh. apply val32 in Vg as (m & j & Eg & Hj & Hm & _). apply val32 in Vh as (mh & jh & Eh & Hjh & Hmh & Hth).
  set (U := 2^925) in *. assert (HU : 0 < U) by (apply Z.pow_pos_nonneg; lia). assert (EU : U = 2^925) by reflexivity. clearbody U.
  set (z := m * 2^j) in *. assert (Hz : 0 <= z) by (clear - Eg Hgh HU; nia).
  (* z = c * 2^k with 2^23 <= c < 2^24, or k = 0 *)
  assert (X : exists c k, z = c * 2^k /\ 0 <= k /\ 0 <= c < 2^24 /\ (k = 0 \/ 2^23 <= c)).
  { destruct (Z.lt_ge_cases z (2^24)) as [L|L]; [exists z, 0; rewrite Z.pow_0_r; lia|].
    pose proof (Z.log2_spec z ltac:(lia)) as [A B]. assert (24 <= Z.log2 z) by (apply Z.log2_le_pow2; lia). set (k := Z.log2 z - 23) in *. 
    destruct (multiple m j k Hj ltac:(lia) Hm) as [c Ec]; [fold z; replace (23 + k) with (Z.log2 z) by lia; lia|]. fold z in Ec. exists c, k. split; [exact Ec|]. split; [lia|].
    assert (P : 0 < 2^k) by (apply Z.pow_pos_nonneg; lia). replace (Z.log2 z) with (23 + k) in A by lia. replace (Z.succ (Z.log2 z)) with (24 + k) in B by lia. rewrite Z.pow_add_r in A, B by lia. rewrite Ec in A, B. 
    assert (2^23 <= c) by (apply (Z.mul_le_mono_pos_r _ _ (2^k)); lia). assert (c < 2^24) by (apply (Z.mul_lt_mono_pos_r (2^k)); lia). lia. }
  destruct X as (c & k & Ec & Hk & Hc & Hn). assert (P : 0 < 2^k) by (apply Z.pow_pos_nonneg; lia).
  (* everything above is at least one step above *)
  assert (Up : forall mv jv, 0 <= jv -> Z.abs mv < 2^24 -> z < mv * 2^jv -> (c + 1) * 2^k <= mv * 2^jv).
  { intros mv jv Hjv Hmv L. destruct Hn as [->|Hn]; [rewrite Z.pow_0_r in *; lia|].
    destruct (multiple mv jv k Hjv Hk Hmv) as [cv Ev].
    - rewrite Z.abs_eq by lia. rewrite Z.pow_add_r by lia. assert (2^23 * 2^k <= c * 2^k) by (apply Z.mul_le_mono_nonneg_r; lia). lia.
    - rewrite Ev in *. rewrite Ec in L. apply Z.mul_lt_mono_pos_r in L; [|exact P]. apply Z.mul_le_mono_nonneg_r; lia. }
  assert (Hh : (c + 1) * 2^k <= mh * 2^jh) by (apply Up; [exact Hjh|exact Hmh|clear - Eg Eh Hgh HU; nia]).
  assert (Hpos : 0 < mh * 2^jh) by (assert (0 < (c + 1) * 2^k) by (apply Z.mul_pos_pos; lia); lia).
  assert (Pj : 0 < 2^jh) by (apply Z.pow_pos_nonneg; lia). assert (Hmpos : 0 < mh) by (clear - Hpos Pj; nia). rewrite Z.abs_eq in Hth by lia.
  assert (K : k < 300) by (apply (Z.pow_lt_mono_r_iff 2); [lia|lia|]; assert (1 * 2^k <= (c + 1) * 2^k) by (apply Z.mul_le_mono_nonneg_r; lia); assert (2^277 <= 2^300) by (apply Z.pow_le_mono_r; lia); lia).
  assert (Vs : val F32 ((c + 1) * 2^k * U)).
  { apply val32. rewrite <- EU. destruct (Z.eq_dec (c + 1) (2^24)) as [E|E].
    - exists 1, (24 + k). rewrite E. replace (1 * 2^(24 + k)) with (2^24 * 2^k) by (rewrite (Z.pow_add_r 2 24 k) by lia; ring). split; [reflexivity|]. split; [lia|]. split; [reflexivity|]. rewrite Z.pow_add_r by lia. rewrite E in Hh. lia.
    - exists (c + 1), k. split; [reflexivity|]. split; [exact Hk|]. split; [lia|]. rewrite Z.abs_eq by lia. lia. }
  exists ((c + 1) * 2^k * U), ((2 * c + 1) * 2^(k - 150 + 1074)).
  assert (EV : 2^(k - 150 + 1074) * 2 = 2^k * U).
  { rewrite EU. replace (k - 150 + 1074) with (k + 924) by lia. rewrite Z.pow_add_r by lia. replace (2^925) with (2^924 * 2) by (rewrite Z.mul_comm, <- Z.pow_succ_r by lia; f_equal; lia). ring. }
  split; [|split; [exact Vs|split; [|split]]].
  - rewrite Eg, Eh, Ec. split; [clear - P HU; apply Z.mul_lt_mono_pos_r; nia|apply Z.mul_le_mono_nonneg_r; lia].
  - rewrite Eg, Ec. transitivity ((2 * c + 1) * (2^k * U)); [ring|]. rewrite <- EV. ring.
  - apply val_make; [auto|rewrite Z.abs_eq by lia; change (2^places F64) with (2^53); lia|change (emin (places F64) (nty_prec F64).2) with (-1074); lia|].
    change (emin (places F64) (nty_prec F64).2) with (-1074). change ((nty_prec F64).2 - -1074) with 2098. rewrite Z.abs_eq by lia.
    apply (Z.lt_le_trans _ (2^26 * 2^(k - 150 - -1074))); [apply Z.mul_lt_mono_pos_r; [apply Z.pow_pos_nonneg; lia|lia]|]. rewrite <- Z.pow_add_r by lia. apply Z.pow_le_mono_r; lia.
  - intros v Vv L. apply val32 in Vv as (mv & jv & Ev & Hjv & Hmv & _). rewrite Ev. rewrite <- EU in *. apply Z.mul_le_mono_nonneg_r; [lia|]. apply Up; [exact Hjv|exact Hmv|]. rewrite Eg, Ev in L. apply Z.mul_lt_mono_pos_r in L; [exact L|exact HU].
Qed.
(** the next value below a positive one *)
Lemma next_down g : 0 < g -> val F32 g ->
  exists s mid, s < g /\ val F32 s /\ g + s = 2 * mid /\ val F64 mid /\ forall v, val F32 v -> v < g -> v <= s.
Proof.
  intros Hg Vg. apply val32 in Vg as (m & j & Eg & Hj & Hm & Ht).
  set (U := 2^925) in *. assert (HU : 0 < U) by (apply Z.pow_pos_nonneg; lia). assert (EU : U = 2^925) by reflexivity. clearbody U.
  set (z := m * 2^j) in *. assert (Hz : 0 < z) by (clear - Eg Hg HU; nia).
  assert (Pj : 0 < 2^j) by (apply Z.pow_pos_nonneg; lia). assert (Tz : z < 2^277) by (assert (0 < m) by (unfold z in Hz; clear - Hz Pj; nia); rewrite Z.abs_eq in Ht by lia; exact Ht).
  (* z = c * 2^k with 2^23 < c <= 2^24, or k = 0 *)
  assert (X : exists c k, z = c * 2^k /\ 0 <= k /\ 0 < c <= 2^24 /\ (k = 0 \/ 2^23 < c)).
  { destruct (Z.le_gt_cases z (2^24)) as [L|L]; [exists z, 0; rewrite Z.pow_0_r; lia|].
    pose proof (Z.log2_spec (z - 1) ltac:(lia)) as [A B]. assert (24 <= Z.log2 (z - 1)) by (apply Z.log2_le_pow2; lia). set (k := Z.log2 (z - 1) - 23) in *.
    destruct (multiple m j k Hj ltac:(lia) Hm) as [c Ec]; [fold z; replace (23 + k) with (Z.log2 (z - 1)) by lia; lia|]. fold z in Ec. exists c, k. split; [exact Ec|]. split; [lia|].
    assert (P : 0 < 2^k) by (apply Z.pow_pos_nonneg; lia). replace (Z.log2 (z - 1)) with (23 + k) in A by lia. replace (Z.succ (Z.log2 (z - 1))) with (24 + k) in B by lia. rewrite Z.pow_add_r in A, B by lia. rewrite Ec in A, B.
    assert (2^23 < c) by (apply (Z.mul_lt_mono_pos_r (2^k)); lia). assert (c <= 2^24) by (apply (Z.mul_le_mono_pos_r _ _ (2^k)); lia). lia. }
  destruct X as (c & k & Ec & Hk & Hc & Hn). assert (P : 0 < 2^k) by (apply Z.pow_pos_nonneg; lia).
  assert (Down : forall mv jv, 0 <= jv -> Z.abs mv < 2^24 -> mv * 2^jv < z -> mv * 2^jv <= (c - 1) * 2^k).
  { intros mv jv Hjv Hmv L. destruct Hn as [->|Hn]; [rewrite Z.pow_0_r in *; lia|].
    destruct (Z.le_gt_cases (2^(23 + k)) (mv * 2^jv)) as [G|G].
    - destruct (multiple mv jv k Hjv Hk Hmv) as [cv Ev]; [rewrite Z.abs_eq; [lia|]; assert (0 < 2^(23 + k)) by (apply Z.pow_pos_nonneg; lia); lia|].
      rewrite Ev in *. rewrite Ec in L. apply Z.mul_lt_mono_pos_r in L; [|exact P]. apply Z.mul_le_mono_nonneg_r; lia.
    - rewrite Z.pow_add_r in G by lia. assert (2^23 * 2^k <= (c - 1) * 2^k) by (apply Z.mul_le_mono_nonneg_r; lia). lia. }
  assert (K : k < 300) by (apply (Z.pow_lt_mono_r_iff 2); [lia|lia|]; assert (1 * 2^k <= c * 2^k) by (apply Z.mul_le_mono_nonneg_r; lia); assert (2^277 <= 2^300) by (apply Z.pow_le_mono_r; lia); lia).
  assert (Vs : val F32 ((c - 1) * 2^k * U)).
  { apply val32. rewrite <- EU. exists (c - 1), k. split; [reflexivity|]. split; [exact Hk|]. split; [lia|]. rewrite Z.abs_eq by lia. assert ((c - 1) * 2^k <= c * 2^k) by (apply Z.mul_le_mono_nonneg_r; lia). lia. }
  exists ((c - 1) * 2^k * U), ((2 * c - 1) * 2^(k - 150 + 1074)).
  assert (EV : 2^(k - 150 + 1074) * 2 = 2^k * U).
  { rewrite EU. replace (k - 150 + 1074) with (k + 924) by lia. rewrite Z.pow_add_r by lia. replace (2^925) with (2^924 * 2) by (rewrite Z.mul_comm, <- Z.pow_succ_r by lia; f_equal; lia). ring. }
  split; [|split; [exact Vs|split; [|split]]].
  - rewrite Eg, Ec. clear - P HU. apply Z.mul_lt_mono_pos_r; nia.
  - rewrite Eg, Ec. transitivity ((2 * c - 1) * (2^k * U)); [ring|]. rewrite <- EV. ring.
  - apply val_make; [auto|rewrite Z.abs_eq by lia; change (2^places F64) with (2^53); lia|change (emin (places F64) (nty_prec F64).2) with (-1074); lia|].
    change (emin (places F64) (nty_prec F64).2) with (-1074). change ((nty_prec F64).2 - -1074) with 2098. rewrite Z.abs_eq by lia.
    apply (Z.lt_le_trans _ (2^26 * 2^(k - 150 - -1074))); [apply Z.mul_lt_mono_pos_r; [apply Z.pow_pos_nonneg; lia|lia]|]. rewrite <- Z.pow_add_r by lia. apply Z.pow_le_mono_r; lia.
  - intros v Vv L. apply val32 in Vv as (mv & jv & Ev & Hjv & Hmv & _). rewrite Ev. rewrite <- EU in *. apply Z.mul_le_mono_nonneg_r; [lia|]. apply Down; [exact Hjv|exact Hmv|]. rewrite Eg, Ev in L. apply Z.mul_lt_mono_pos_r in L; [exact L|exact HU].
Qed.
(** the neighbour of g on the side of h *)
Lemma neighbour_up g h : g < h -> val F32 g -> val F32 h -> exists s mid, g < s <= h /\ val F32 s /\ g + s = 2 * mid /\ val F64 mid.
Proof.
  intros L Vg Vh. destruct (Z.le_gt_cases 0 g) as [G|G].
  - destruct (next_up g h ltac:(lia) Vg Vh) as (s & mid & A & B & C & D & _). eauto 7.
  - destruct (next_down (- g) ltac:(lia) (val_opp _ _ Vg)) as (s & mid & A & B & C & D & E). exists (- s), (- mid).
    split; [|split; [apply val_opp; exact B|split; [lia|apply val_opp; exact D]]]. specialize (E (- h) (val_opp _ _ Vh)). lia.
Qed.
Lemma neighbour_down g h : h < g -> val F32 g -> val F32 h -> exists s mid, h <= s < g /\ val F32 s /\ g + s = 2 * mid /\ val F64 mid.
Proof.
  intros L Vg Vh. destruct (neighbour_up (- g) (- h) ltac:(lia) (val_opp _ _ Vg) (val_opp _ _ Vh)) as (s & mid & A & B & C & D). exists (- s), (- mid).
  split; [lia|]. split; [apply val_opp; exact B|]. split; [lia|apply val_opp; exact D].
Qed.

(** rounding twice, in amounts: x / D is the number, f its float64, g the float32 of f *)
Lemma twice f g x D : 0 < D ->
  (forall w, val F64 w -> Z.abs (f * D - x) <= Z.abs (w * D - x)) -> val F64 f -> val F32 g ->
  (forall v, val F32 v -> Z.abs (g - f) <= Z.abs (v - f)) ->
  (forall v, val F32 v -> v <> g -> Z.abs (g - f) = Z.abs (v - f) -> (x - f * D) * (v - g) <= 0) ->
  forall v, val F32 v -> Z.abs (g * D - x) <= Z.abs (v * D - x) /\ (Z.abs (g * D - x) = Z.abs (v * D - x) -> v <> g -> exists v', val F32 v' /\ v' <> g /\ Z.abs (g - f) = Z.abs (v' - f)).
Proof.
  intros HD H64 Vf Vg H32 Hw v Vv.
  (* no float64 lies strictly between the number and its float *)
  assert (Sep : forall w, val F64 w -> (f < w -> x <= w * D) /\ (w < f -> w * D <= x) /\ (w * D = x -> f = w)).
  { intros w Vw. pose proof (H64 w Vw) as A. split; [|split]; intros L.
    - assert (f * D < w * D) by (apply Z.mul_lt_mono_pos_r; lia). lia.
    - assert (w * D < f * D) by (apply Z.mul_lt_mono_pos_r; lia). lia.
    - apply (Z.mul_reg_r _ _ D); lia. }
  destruct (Z.lt_total g v) as [L|[->|L]]; [|split; [lia|intros _ C; contradiction]|].
  - destruct (neighbour_up g v L Vg Vv) as (s & mid & (S1 & S2) & Vs & Em & Vm). pose proof (H32 s Vs) as A. destruct (Sep mid Vm) as (B1 & _ & B3).
    assert (Fm : f <= mid) by lia.
    assert (Xm : x <= mid * D).
    { destruct (Z.eq_dec f mid) as [E|E]; [|apply B1; lia]. specialize (Hw s Vs ltac:(lia) ltac:(lia)). rewrite E in Hw. clear - Hw S1. nia. }
    assert (M2 : 2 * (mid * D) <= g * D + v * D) by (replace (2 * (mid * D)) with ((2 * mid) * D) by ring; rewrite <- Em; clear - S2 HD; nia).
    assert (G2 : g * D < v * D) by (apply Z.mul_lt_mono_pos_r; lia).
    split; [lia|]. intros E _. assert (x = mid * D) by lia. exists s. split; [exact Vs|]. split; [lia|]. specialize (B3 ltac:(lia)). lia.
  - destruct (neighbour_down g v L Vg Vv) as (s & mid & (S1 & S2) & Vs & Em & Vm). pose proof (H32 s Vs) as A. destruct (Sep mid Vm) as (_ & B1 & B3).
    assert (Fm : mid <= f) by lia.
    assert (Xm : mid * D <= x).
    { destruct (Z.eq_dec f mid) as [E|E]; [|apply B1; lia]. specialize (Hw s Vs ltac:(lia) ltac:(lia)). rewrite E in Hw. clear - Hw S2. nia. }
    assert (M2 : g * D + v * D <= 2 * (mid * D)) by (replace (2 * (mid * D)) with ((2 * mid) * D) by ring; rewrite <- Em; clear - S1 HD; nia).
    assert (G2 : v * D < g * D) by (apply Z.mul_lt_mono_pos_r; lia).
    split; [lia|]. intros E _. assert (x = mid * D) by lia. exists s. split; [exact Vs|]. split; [lia|]. specialize (B3 ltac:(lia)). lia.
Qed.
