(** Rounding to a float format gives the nearest value.  Proofs for ConvNearestProps.v. *)
From Verif Require Import Base ConvModel ConvFloat.
From Coq Require Import Floats.SpecFloat ZArith.
Local Open Scope Z.

(** *** dropping bits *)
Lemma shr_bits M n : 0 <= M ->
  let r := Nat.iter n shr_1 (Build_shr_record M false false) in
  exists lo, M = shr_m r * 2^Z.of_nat n + lo /\ 0 <= lo < 2^Z.of_nat n /\ 0 <= shr_m r /\
    (shr_r r = true -> 2^Z.of_nat n <= 2 * lo) /\ (shr_r r = false -> 2 * lo < 2^Z.of_nat n) /\
    (shr_s r = false <-> 2 * lo = if shr_r r then 2^Z.of_nat n else 0).
Proof.
  intros HM. induction n as [|n IH].
  - exists 0. cbn. repeat split; intros; lia || congruence.
  - cbn zeta in IH |- *. change (Nat.iter (S n) shr_1 (Build_shr_record M false false)) with (shr_1 (Nat.iter n shr_1 (Build_shr_record M false false))).
    destruct (Nat.iter n shr_1 (Build_shr_record M false false)) as [m r s]. destruct IH as (lo & E & B & P & R1 & R2 & S). cbn [shr_m shr_r shr_s] in *.
    rewrite Nat2Z.inj_succ, Z.pow_succ_r by lia. set (W := 2^Z.of_nat n) in *.
    assert (HW : 0 < W) by (apply Z.pow_pos_nonneg; lia).
    assert (HZ : (r || s = false) <-> lo = 0).
    { destruct r; [specialize (R1 eq_refl)|]; destruct s; cbn [orb]; split; intros H; try discriminate; lia. }
    assert (G : forall m' b, m = 2 * m' + Z.b2z b -> 0 <= m' -> exists lo0 : Z, M = shr_m (Build_shr_record m' b (r || s)) * (2 * W) + lo0 /\ 0 <= lo0 < 2 * W /\ 0 <= m' /\
              (b = true -> 2 * W <= 2 * lo0) /\ (b = false -> 2 * lo0 < 2 * W) /\ (r || s = false <-> 2 * lo0 = (if b then 2 * W else 0))).
    { intros m' b Em Hm'. exists (Z.b2z b * W + lo). cbn [shr_m]. rewrite HZ. destruct b; cbn [Z.b2z] in *; repeat split; intros; try congruence; lia. }
    destruct m as [|[p|p|]|[p|p|]]; cbn [shr_1]; try lia.
    + apply (G 0 false); cbn; lia.
    + apply (G (Zpos p) true); cbn; lia.
    + apply (G (Zpos p) false); cbn; lia.
    + apply (G 0 true); cbn; lia.
Qed.
(** the nearest multiple, the even one of two *)
Lemma near_even M n : 0 <= M ->
  let r := Nat.iter n shr_1 (Build_shr_record M false false) in
  let q := round_nearest_even (shr_m r) (loc_of_shr_record r) in
  0 <= q /\ 2 * Z.abs (q * 2^Z.of_nat n - M) <= 2^Z.of_nat n /\ (2 * Z.abs (q * 2^Z.of_nat n - M) = 2^Z.of_nat n -> Z.even q = true).
Proof.
  intros HM r q. destruct (shr_bits M n HM) as (lo & E & B & P & R1 & R2 & S). fold r in E, P, R1, R2, S. subst q. destruct r as [m r s]. cbn [shr_m shr_r shr_s] in *.
  set (W := 2^Z.of_nat n) in *. assert (HW : 0 < W) by (apply Z.pow_pos_nonneg; lia).
  destruct r, s; cbn [loc_of_shr_record round_nearest_even].
  - specialize (R1 eq_refl). assert (2 * lo <> W) by (intros H; destruct S as [_ S]; specialize (S H); congruence).
    rewrite E. replace ((m + 1) * W - (m * W + lo)) with (W - lo) by ring. rewrite Z.abs_eq by lia. repeat split; lia.
  - assert (H : 2 * lo = W) by (apply S; reflexivity). destruct (Z.even m) eqn:Ev.
    + rewrite E. replace (m * W - (m * W + lo)) with (- lo) by ring. rewrite Z.abs_opp, Z.abs_eq by lia. repeat split; lia || auto.
    + rewrite E. replace ((m + 1) * W - (m * W + lo)) with (W - lo) by ring. rewrite Z.abs_eq by lia. repeat split; try lia. intros _. rewrite Z.even_add, Ev. reflexivity.
  - specialize (R2 eq_refl). assert (2 * lo <> 0) by (intros H; destruct S as [_ S]; specialize (S H); congruence).
    rewrite E. replace (m * W - (m * W + lo)) with (- lo) by ring. rewrite Z.abs_opp, Z.abs_eq by lia. repeat split; lia.
  - assert (H : 2 * lo = 0) by (apply S; reflexivity).
    rewrite E. replace (m * W - (m * W + lo)) with (- lo) by ring. rewrite Z.abs_opp, Z.abs_eq by lia. repeat split; lia.
Qed.

Section Format.
Context (prec emax : Z) (Hprec : 1 < prec) (Hemax : prec + 2 < emax).
Notation fe := (fexp prec emax).
Notation emn := (emin prec emax).
Lemma fe_max k : fe k = Z.max (k - prec) emn. Proof. reflexivity. Qed.
(** rounding [M * 2^u], with [u] low enough *)
Definition finish (s : bool) (q e : Z) : spec_float :=
  match q with Zpos m => if e <=? emax - prec then S754_finite s m e else S754_infinity s | _ => S754_zero s end.
Lemma round_low s m u : let e0 := fe (Zpos (digits2_pos m) + u) in u <= e0 ->
  exists q, 0 <= q <= 2^prec /\ 2 * Z.abs (q * 2^(e0 - u) - Zpos m) <= 2^(e0 - u) /\ (2 * Z.abs (q * 2^(e0 - u) - Zpos m) = 2^(e0 - u) -> Z.even q = true) /\
    (e0 = emn \/ 2^(prec - 1) * 2^(e0 - u) <= Zpos m /\ 2^(prec - 1) <= q) /\ Zpos m < 2^prec * 2^(e0 - u) /\
    binary_round prec emax s m u = if q =? 2^prec then finish s (2^(prec - 1)) (e0 + 1) else finish s q e0.
Proof.
  intros e0 Hu. set (n := Z.to_nat (e0 - u)). assert (En : Z.of_nat n = e0 - u) by (unfold n; lia).
  pose proof (near_even (Zpos m) n ltac:(lia)) as HN. cbn zeta in HN. set (q := round_nearest_even _ _) in HN. rewrite En in HN. set (W := 2^(e0 - u)) in *.
  assert (HW : 0 < W) by (apply Z.pow_pos_nonneg; lia). destruct HN as (Q0 & Q1 & Q2).
  pose proof (digits_bound m) as [D1 D2]. set (d := Zpos (digits2_pos m)) in *.
  assert (Hup : Zpos m < 2^prec * W).
  { eapply Z.lt_le_trans; [exact D2|]. unfold W. rewrite <- Z.pow_add_r by lia. apply Z.pow_le_mono_r; [lia|]. unfold e0. rewrite fe_max. lia. }
  assert (Hlow : e0 = emn \/ 2^(prec - 1) * W <= Zpos m).
  { destruct (Z.eq_dec e0 emn) as [|Ne]; [auto|right]. eapply Z.le_trans; [|exact D1]. unfold W. rewrite <- Z.pow_add_r by lia. apply Z.pow_le_mono_r; [lia|]. unfold e0 in *. rewrite fe_max in *. lia. }
  assert (Hq : q <= 2^prec) by nia.
  assert (Hql : e0 = emn \/ 2^(prec - 1) * W <= Zpos m /\ 2^(prec - 1) <= q) by (destruct Hlow as [H|H]; [auto|right; split; [exact H|nia]]).
  exists q. split; [lia|]. split; [exact Q1|]. split; [exact Q2|]. split; [exact Hql|]. split; [exact Hup|].
  unfold binary_round. rewrite shl_nat. fold d e0. assert (Ea : (if e0 <=? u then (shift_nat (Z.to_nat (u - e0)) m, e0) else (m, u)) = (m, u)).
  { destruct (Z.leb_spec e0 u); [|reflexivity]. assert (e0 = u) as -> by lia. rewrite Z.sub_diag. reflexivity. }
  rewrite Ea. unfold binary_round_aux. rewrite shr_nat by (cbn [Zdigits2]; fold d e0; lia). cbn [Zdigits2]. fold d e0 n.
  change (round_nearest_even (shr_m (Nat.iter n shr_1 {| shr_m := Zpos m; shr_r := false; shr_s := false |})) (loc_of_shr_record (Nat.iter n shr_1 {| shr_m := Zpos m; shr_r := false; shr_s := false |}))) with q.
  clearbody q. destruct (Z.eqb_spec q (2^prec)) as [Eq|Nq].
  - assert (EP : exists k, 2^prec = Zpos (xO k) /\ 2^(prec - 1) = Zpos k).
    { assert (Hp : 0 < 2^(prec - 1)) by (apply Z.pow_pos_nonneg; lia). destruct (2^(prec - 1)) as [|k|k] eqn:Ek; try lia. exists k. split; [|reflexivity].
      replace prec with (Z.succ (prec - 1)) by lia. rewrite Z.pow_succ_r, Ek by lia. reflexivity. }
    destruct EP as (k & E1 & E2). rewrite Eq, E1, E2. cbn [finish].
    assert (Dk : Zpos (digits2_pos k~0) = prec + 1).
    { pose proof (digits_bound k~0) as [B1 B2]. rewrite <- E1 in B1, B2. apply Z.pow_le_mono_r_iff in B1; [|lia|lia]. apply Z.pow_lt_mono_r_iff in B2; [|lia|lia]. lia. }
    assert (Ef : fe (prec + 1 + e0) = e0 + 1) by (rewrite fe_max; pose proof (Z.le_max_r (d + u - prec) emn); unfold e0; rewrite fe_max; lia).
    rewrite shr_nat by (cbn [Zdigits2]; rewrite Dk, Ef; lia). cbn [Zdigits2]. rewrite Dk, Ef. replace (Z.to_nat (e0 + 1 - e0)) with 1%nat by lia. cbn [Nat.iter shr_1 shr_m]. reflexivity.
  - assert (Ef : forall p, q = Zpos p -> fe (Zpos (digits2_pos p) + e0) = e0).
    { intros p ->. pose proof (digits_le p prec ltac:(lia) ltac:(lia)) as B. assert (Hmn : emn <= e0) by (unfold e0; rewrite fe_max; lia). destruct Hql as [H|[_ H]].
      - rewrite fe_max. lia.
      - pose proof (digits_bound p) as [B1 B2]. assert (H1 : 2^(prec - 1) < 2^(Zpos (digits2_pos p))) by lia. apply Z.pow_lt_mono_r_iff in H1; [|lia|lia]. rewrite fe_max. lia. }
    destruct q as [|p|p]; [|specialize (Ef p eq_refl)|lia].
    + unfold shr_fexp. cbn [Zdigits2 shr_record_of_loc finish]. assert (Hz : forall k, exists e2, shr (Build_shr_record 0 false false) e0 k = (Build_shr_record 0 false false, e2)).
      { intros [|p|p]; cbn [shr]; [eauto| |eauto]. rewrite iter_pos_nat. eexists. f_equal. clear. induction (Pos.to_nat p) as [|j IH]; [reflexivity|]. change (shr_1 (Nat.iter j shr_1 (Build_shr_record 0 false false)) = Build_shr_record 0 false false). rewrite IH. reflexivity. }
      match goal with |- context [shr _ e0 ?k] => destruct (Hz k) as (e2 & ->) end. cbn [shr_m]. reflexivity.
    + rewrite shr_nat by (cbn [Zdigits2]; rewrite Ef; lia). cbn [Zdigits2]. rewrite Ef, Z.sub_diag. cbn [Z.to_nat Nat.iter shr_m finish]. reflexivity.
Qed.

(** *** no value of the format is nearer *)
(** a multiple of 2^(eg - u) with at most [prec] bits *)
Lemma nearest_low q e0 u M k eg : u <= e0 -> u <= eg -> emn <= eg -> 0 <= k < 2^prec ->
  2 * Z.abs (q * 2^(e0 - u) - M) <= 2^(e0 - u) -> (e0 = emn \/ 2^(prec - 1) * 2^(e0 - u) <= M) -> emn <= e0 ->
  Z.abs (q * 2^(e0 - u) - M) <= Z.abs (k * 2^(eg - u) - M) /\
  (Z.abs (q * 2^(e0 - u) - M) = Z.abs (k * 2^(eg - u) - M) -> k * 2^(eg - u) = q * 2^(e0 - u) \/ 2 * Z.abs (q * 2^(e0 - u) - M) = 2^(e0 - u)).
Proof.
  intros Hu Hug Hg Hk HQ Hlow He0. set (W := 2^(e0 - u)) in *. assert (HW : 0 < W) by (apply Z.pow_pos_nonneg; lia).
  assert (Hmul : forall j, Z.abs (q * W - M) <= Z.abs (j * W - M) /\ (Z.abs (q * W - M) = Z.abs (j * W - M) -> j * W = q * W \/ 2 * Z.abs (q * W - M) = W)).
  { intros j. destruct (Z.eq_dec j q) as [->|Nj]; [split; [lia|auto]|]. assert (D : j <= q - 1 \/ q + 1 <= j) by lia. assert (j * W <= q * W - W \/ q * W + W <= j * W) by (destruct D; [left|right]; nia). split; [lia|]. intros. right. lia. }
  destruct (Z.le_gt_cases e0 eg) as [L|L].
  - replace (k * 2^(eg - u)) with (k * 2^(eg - e0) * W); [apply Hmul|]. unfold W. rewrite <- Z.mul_assoc, <- Z.pow_add_r by lia. do 2 f_equal. lia.
  - destruct Hlow as [H|H]; [lia|]. assert (B : k * 2^(eg - u) < 2^(prec - 1) * W).
    { assert (P : 0 < 2^(eg - u)) by (apply Z.pow_pos_nonneg; lia). apply Z.lt_le_trans with (2^prec * 2^(eg - u)); [nia|]. unfold W. rewrite <- !Z.pow_add_r by lia. apply Z.pow_le_mono_r; lia. }
    destruct (Hmul (2^(prec - 1))) as [H1 _]. split; lia.
Qed.

(** *** in units of 2^E *)
Definition units (E : Z) (f : spec_float) : Z := match f with S754_finite s m e => (if s then -1 else 1) * (Zpos m * 2^(e - E)) | _ => 0 end.
Definition fin (f : spec_float) : Prop := match f with S754_finite _ _ _ | S754_zero _ => True | _ => False end.
Definition even_mantissa (f : spec_float) : bool := match f with S754_finite _ m _ => Z.even (Zpos m) | _ => true end.
Lemma valid_small s m e : valid_binary prec emax (S754_finite s m e) = true -> Zpos m < 2^prec /\ emn <= e.
Proof.
  cbn [valid_binary]. unfold bounded, canonical_mantissa. rewrite andb_true_iff. intros [H1 H2]. apply Zeq_bool_eq in H1. fold (fe (Zpos (digits2_pos m) + e)) in H1. rewrite fe_max in H1.
  pose proof (digits_bound m) as [_ B]. split; [|lia]. eapply Z.lt_le_trans; [exact B|]. apply Z.pow_le_mono_r; lia.
Qed.
Lemma finish_valid s q e : 0 <= q < 2^prec -> emn <= e -> (e = emn \/ 2^(prec - 1) <= q) -> valid_binary prec emax (finish s q e) = true.
Proof.
  intros Hq He Hc. destruct q as [|m|m]; [reflexivity| |lia]. cbn [finish]. destruct (Z.leb_spec e (emax - prec)); [|reflexivity]. cbn [valid_binary]. unfold bounded, canonical_mantissa.
  pose proof (digits_le m prec ltac:(lia) ltac:(lia)) as D. pose proof (digits_bound m) as [_ B]. apply andb_true_iff. split; [|apply Zle_is_le_bool; lia]. apply Zeq_is_eq_bool. rewrite fe_max.
  destruct Hc as [->|Hc]; [lia|]. assert (Hd : 2^(prec - 1) < 2^(Zpos (digits2_pos m))) by lia. apply Z.pow_lt_mono_r_iff in Hd; lia.
Qed.
Theorem round_nearest s m e E : E <= e -> E <= emn ->
  let f := binary_round prec emax s m e in
  let X := units E (S754_finite s m e) in
  valid_binary prec emax f = true /\
  (f = S754_infinity s <-> (2^(prec + 1) - 1) * 2^(emax - prec - 1 - E) <= Zpos m * 2^(e - E)) /\
  (f <> S754_infinity s -> fin f /\ match f with S754_finite s' _ _ | S754_zero s' => s' = s | _ => False end /\
    forall g, fin g -> valid_binary prec emax g = true ->
      Z.abs (units E f - X) <= Z.abs (units E g - X) /\ (Z.abs (units E f - X) = Z.abs (units E g - X) -> units E g = units E f \/ even_mantissa f = true)).
Proof.
  intros HE1 HE2 f X. set (n := Z.to_nat (e - E)). destruct (ex_intro (fun M : positive => M = shift_nat n m) _ eq_refl) as [M HM].
  assert (EM : Zpos M = Zpos m * 2^(e - E)) by (rewrite HM, shift_nat_val; unfold n; rewrite Z2Nat.id by lia; reflexivity).
  assert (Ef : f = binary_round prec emax s M E) by (unfold f; rewrite <- (round_value prec emax s m n e), HM; f_equal; lia).
  assert (EX : X = (if s then -1 else 1) * Zpos M) by (unfold X, units; rewrite EM; reflexivity).
  rewrite <- EM. clearbody X f. clear HM EM n HE1 e m.
  pose proof (round_low s M E) as HR. cbn zeta in HR. set (e0 := fe (Zpos (digits2_pos M) + E)) in HR.
  assert (H0 : emn <= e0) by (unfold e0; rewrite fe_max; lia). destruct (HR ltac:(lia)) as (q & Q0 & Q1 & Q2 & Q3 & Q4 & Q5). clear HR. clearbody e0. rewrite <- Ef in Q5. clear Ef.
  set (W := 2^(e0 - E)) in *. assert (HW : 0 < W) by (apply Z.pow_pos_nonneg; lia).
  assert (Hhalf : 2^prec = 2 * 2^(prec - 1)) by (rewrite <- Z.pow_succ_r by lia; f_equal; lia). assert (Hp1 : 0 < 2^(prec - 1)) by (apply Z.pow_pos_nonneg; lia).
  assert (Hev : Z.even (2^(prec - 1)) = true) by (apply Z.even_spec; exists (2^(prec - 2)); rewrite <- Z.pow_succ_r by lia; f_equal; lia).
  (* f is what is left of q units of 2^e0, or infinite *)
  assert (HV : valid_binary prec emax f = true).
  { rewrite Q5. destruct (Z.eqb_spec q (2^prec)).
    - apply finish_valid; [lia|lia|right; lia].
    - apply finish_valid; [lia|lia|]. destruct Q3 as [?|[_ ?]]; auto. }
  split; [exact HV|].
  assert (Hinf : (f = S754_infinity s <-> (emax - prec < e0 \/ emax - prec = e0 /\ q = 2^prec) /\ 0 < q) /\
                 (f <> S754_infinity s -> fin f /\ match f with S754_finite s' _ _ | S754_zero s' => s' = s | _ => False end /\ units E f = (if s then -1 else 1) * (q * W) /\ (Z.even q = true -> even_mantissa f = true))).
  { rewrite Q5. destruct (Z.eqb_spec q (2^prec)) as [Eq|Nq].
    - unfold finish. destruct (2^(prec - 1)) as [|k|k] eqn:Ek; try lia. destruct (Z.leb_spec (e0 + 1) (emax - prec)).
      + split; [split; [discriminate|lia]|]. intros _. split; [exact I|]. split; [reflexivity|]. split; [|intros _; exact Hev]. cbn [units]. f_equal.
        replace (e0 + 1 - E) with (Z.succ (e0 - E)) by lia. rewrite Z.pow_succ_r by lia. fold W. lia.
      + split; [split; [intros _; split; lia|reflexivity]|]. intros H1. congruence.
    - unfold finish. destruct q as [|k|k]; [| |lia].
      + split; [split; [discriminate|lia]|]. intros _. cbn [fin units even_mantissa]. repeat split; auto. destruct s; lia.
      + destruct (Z.leb_spec e0 (emax - prec)).
        * split; [split; [discriminate|lia]|]. intros _. cbn [fin units even_mantissa]. repeat split; auto.
        * split; [split; [intros _; split; lia|reflexivity]|]. intros H1. congruence. }
  destruct Hinf as [Hinf Hfin]. split.
  - rewrite Hinf. set (T := 2^(emax - prec - 1 - E)). assert (Hmn : emn < emax - prec - 1) by (unfold emin; lia). assert (HT : 0 < T) by (apply Z.pow_pos_nonneg; lia).
    assert (HT1 : 2^(prec + 1) = 2 * 2^prec) by (rewrite <- Z.pow_succ_r by lia; f_equal; lia).
    destruct (Z.lt_trichotomy e0 (emax - prec)) as [L|[L|L]].
    + assert (W <= T) by (apply Z.pow_le_mono_r; lia). split; [lia|]. nia.
    + assert (EW : W = 2 * T) by (unfold W, T; rewrite <- Z.pow_succ_r by lia; f_equal; lia). split.
      * intros [[?|[_ ->]] _]; [lia|]. rewrite EW in *. nia.
      * intros H. assert (A1 : 2^prec - 1 <= q) by (rewrite EW in *; nia). split; [|lia]. right. split; [lia|]. destruct (Z.eq_dec q (2^prec - 1)) as [Eq|]; [|lia].
        assert (Ev : Z.even q = true) by (apply Q2; rewrite EW in *; subst q; nia). subst q. rewrite Z.even_sub, Hhalf, Z.even_mul in Ev. discriminate.
    + assert (2 * (2 * T) <= W) by (unfold W, T; rewrite <- !Z.pow_succ_r by lia; apply Z.pow_le_mono_r; lia). destruct Q3 as [?|[G1 G2]]; [lia|]. split; [intros _; nia|]. intros _. split; [left; lia|lia].
  - intros Hn. destruct (Hfin Hn) as (F1 & F2 & F3 & F4). split; [exact F1|]. split; [exact F2|]. intros g Fg Vg.
    assert (Hg : exists k eg, emn <= eg /\ 0 <= k < 2^prec /\ (units E g = k * 2^(eg - E) \/ units E g = - (k * 2^(eg - E)))).
    { destruct g as [sg|sg| |sg mg eg]; try contradiction.
      - exists 0, emn. cbn [units]. split; [lia|]. split; [lia|]. left. lia.
      - destruct (valid_small _ _ _ Vg). exists (Zpos mg), eg. split; [lia|]. split; [lia|]. cbn [units]. destruct sg; [right|left]; lia. }
    destruct Hg as (k & eg & G1 & G2 & G3). assert (G0 : 0 <= k * 2^(eg - E)) by (apply Z.mul_nonneg_nonneg; [lia|apply Z.pow_nonneg; lia]).
    assert (Q3' : e0 = emn \/ 2^(prec - 1) * W <= Zpos M) by tauto.
    destruct (nearest_low q e0 E (Zpos M) k eg ltac:(lia) ltac:(lia) G1 G2 Q1 Q3' H0) as [N1 N2].
    destruct (nearest_low q e0 E (Zpos M) 0 eg ltac:(lia) ltac:(lia) G1 ltac:(lia) Q1 Q3' H0) as [N3 N4]. fold W in N1, N2, N3, N4. rewrite Z.mul_0_l in N3, N4.
    set (y := k * 2^(eg - E)) in *. rewrite F3, EX. destruct s.
    + replace (-1 * (q * W) - -1 * Zpos M) with (- (q * W - Zpos M)) by ring. rewrite Z.abs_opp. destruct G3 as [G3|G3].
      * split; [lia|]. intros HH. assert (Hy : y = 0) by lia. destruct N4 as [H|H]; [lia|left; lia|right; auto].
      * replace (units E g - -1 * Zpos M) with (- (y - Zpos M)) by lia. rewrite Z.abs_opp. split; [exact N1|]. intros HH. destruct (N2 HH) as [H|H]; [left; lia|right; auto].
    + replace (1 * (q * W) - 1 * Zpos M) with (q * W - Zpos M) by ring. destruct G3 as [G3|G3].
      * replace (units E g - 1 * Zpos M) with (y - Zpos M) by lia. split; [exact N1|]. intros HH. destruct (N2 HH) as [H|H]; [left; lia|right; auto].
      * split; [lia|]. intros HH. assert (Hy : y = 0) by lia. destruct N4 as [H|H]; [lia|left; lia|right; auto].
Qed.
End Format.
