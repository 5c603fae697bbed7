(** C99, exactly: when the text of a number becomes the right float32 although it is
    rounded to float64 first. *)
From Coq Require Import Floats.SpecFloat ZArith.
From Verif Require Import Base ConvModel ConvProofs ConvProofs2 ConvFloat ConvNearest ConvProps ConvNearestProps ConvExactProps StrconvModel StrconvProps StrconvSingle.
Local Open Scope Z.

(** g is the float32 nearest to N / D, or to - N / D; of two the even one; infinite from
    half a step above the largest *)
Definition rounds_to_single (g : spec_float) (n : bool) (N D : Z) : Prop :=
  let x := (if n then - N else N) * 2^1074 in
  of_type F32 g /\ neg g = n /\ (N = 0 -> g = S754_zero n) /\ (overflow F32 * D <= N * 2^1074 -> g = S754_infinity n) /\
  (N * 2^1074 < overflow F32 * D -> finite g /\ forall h, finite h -> of_type F32 h ->
     Z.abs (amount g * D - x) <= Z.abs (amount h * D - x) /\
     (Z.abs (amount g * D - x) = Z.abs (amount h * D - x) -> amount h = amount g \/ match g with S754_finite _ m _ => Z.even (Zpos m) | _ => true end = true)).
(** the float64 f is halfway between two float32, g is the one that was taken, and the number
    x / D is not f but on the side of the other one *)
Definition misled (f g : spec_float) (x D : Z) : Prop :=
  finite g /\ exists h, finite h /\ of_type F32 h /\ amount h <> amount g /\ Z.abs (amount h - amount f) = Z.abs (amount g - amount f) /\ 0 < (x - amount f * D) * (amount h - amount g).
(** f is half a step above the largest float32, and the number below that *)
Definition misled_up (f : spec_float) (N D : Z) : Prop := Z.abs (amount f) = overflow F32 /\ N * 2^1074 < overflow F32 * D.

Lemma val_overflow : val F64 (overflow F32).
Proof.
  change (overflow F32) with ((2^25 - 1) * 2^(103 + 1074)). apply val_make; [auto|reflexivity|vm_compute; discriminate|].
  change (emin (places F64) (nty_prec F64).2) with (-1074). vm_compute. reflexivity.
Qed.
Lemma of_val F v : val F v -> exists g, finite g /\ of_type F g /\ amount g = v.
Proof. auto. Qed.

Section P.
Context (ff : spec_float -> list Z) (pf : list Z -> spec_float) (oob : ity -> spec_float -> Z).

Lemma single_exact f g n N D : 0 < D -> 0 <= N -> rounds_to f n N D -> convert ff pf oob (BNum F64) (BNum F32) (VFloat f) = Some (VFloat g) ->
  (rounds_to_single g n N D <-> ~ misled f g ((if n then - N else N) * 2^1074) D /\ ~ misled_up f N D).
Proof.
  intros HD HN (T64 & Ng & Z0 & Inf & Fin) Ec. set (x := (if n then - N else N) * 2^1074) in *.
  assert (U : 0 < 2^1074) by (apply Z.pow_pos_nonneg; lia).
  assert (Hx : Z.abs x = N * 2^1074) by (unfold x; destruct n; rewrite Z.abs_mul, (Z.abs_eq (2^1074)) by lia; f_equal; lia).
  assert (Hxs : if n then x <= 0 else 0 <= x) by (unfold x; clear - U HN; destruct n; nia).
  destruct (float_to_nearest_float ff pf oob F64 F32 f eq_refl T64 (or_introl eq_refl)) as (g' & Eg & Sg & G1 & G2 & G3).
  rewrite Ec in Eg. injection Eg as <-.
  assert (Tg : of_type F32 g) by (eapply (float_result_of_type ff pf oob (BNum F64) F32 (VFloat f)); [auto|exact I|exact Ec]).
  assert (O64 : overflow F32 <= overflow F64) by (vm_compute; discriminate).
  assert (OD : overflow F32 * D <= overflow F64 * D) by (apply Z.mul_le_mono_nonneg_r; lia).
  assert (GD : forall n0 : bool, S754_infinity n0 = g -> ~ finite g) by (intros ? <- []).
  (* the number and its float64 are on the same side of the limit *)
  destruct (Z.lt_ge_cases (N * 2^1074) (overflow F64 * D)) as [L|L].
  - destruct (Fin L) as [Ff H64].
    assert (V64 : forall w, val F64 w -> Z.abs (amount f * D - x) <= Z.abs (w * D - x)) by (intros w (h & A & B & <-); apply H64; assumption).
    assert (Lim : (Z.abs (amount f) < overflow F32 -> N * 2^1074 < overflow F32 * D) /\ (overflow F32 < Z.abs (amount f) -> overflow F32 * D <= N * 2^1074)).
    { rewrite <- Hx. set (c := overflow F32) in *. assert (C0 : 0 < c) by reflexivity. pose proof (V64 c val_overflow) as A. pose proof (V64 (- c) (val_opp _ _ val_overflow)) as B. clearbody c. clear - A B Hxs HD C0. set (a := amount f) in *. clearbody a.
      rewrite Z.mul_opp_l in B. assert (CD : 0 < c * D) by (apply Z.mul_pos_pos; assumption).
      split; intros H.
      - assert (a * D < c * D) by (apply Z.mul_lt_mono_pos_r; lia). assert (- c * D < a * D) by (apply Z.mul_lt_mono_pos_r; lia). rewrite Z.mul_opp_l in *. destruct n; lia.
      - destruct (Z.lt_ge_cases a 0); [assert (a * D < - c * D) by (apply Z.mul_lt_mono_pos_r; lia)|assert (c * D < a * D) by (apply Z.mul_lt_mono_pos_r; lia)]; rewrite ?Z.mul_opp_l in *; destruct n; lia. }
    destruct Lim as [Lim1 Lim2].
    destruct (Z.lt_ge_cases (Z.abs (amount f)) (overflow F32)) as [Lf|Lf].
    + destruct (G1 Ff Lf) as (Fg & _ & H32). specialize (Lim1 Lf).
      split.
      * intros (_ & _ & _ & _ & R). destruct (R Lim1) as [_ R']. split; [|intros [E _]; lia].
        intros (_ & h & Fh & Th & Nh & Eh & Hs). destruct (R' h Fh Th) as [A _]. fold x in A. clear - A Nh Eh Hs HD.
        set (a := amount f) in *. set (b := amount g) in *. set (c := amount h) in *. clearbody a b c x.
        assert (E2 : b + c = 2 * a) by lia. assert (E3 : b * D + c * D = 2 * (a * D)) by (rewrite <- Z.mul_add_distr_r, E2; ring).
        destruct (Z.lt_ge_cases b c) as [Q|Q].
        -- assert (b * D < c * D) by (apply Z.mul_lt_mono_pos_r; lia). assert (0 < x - a * D) by (clear - Hs Q; generalize dependent (a * D); intros; nia). clear - A E3 H H0. generalize dependent (a * D). generalize dependent (b * D). generalize dependent (c * D). intros. lia.
        -- assert (c * D < b * D) by (apply Z.mul_lt_mono_pos_r; lia). assert (x - a * D < 0) by (clear - Hs Q; generalize dependent (a * D); intros; nia). clear - A E3 H H0. generalize dependent (a * D). generalize dependent (b * D). generalize dependent (c * D). intros. lia.
      * intros [M _]. split; [exact Tg|]. split; [rewrite Sg; exact Ng|]. split; [|split; [intros C; lia|]].
        -- intros E0. assert (Ef : f = S754_zero n) by auto. assert (A : amount g = 0).
           { destruct (H32 (S754_zero false) I eq_refl) as [A _]. rewrite Ef in A. cbn [amount] in A. lia. }
           destruct g as [sg|sg| |sg mg eg]; try contradiction; [cbn [neg] in Sg; rewrite Sg, Ng; reflexivity|]. exfalso. cbn [amount] in A.
           assert (0 < 2^(eg + 1074)) by (apply Z.pow_pos_nonneg; [lia|]; cbn [of_type] in Tg; destruct (valid_small 24 128 sg mg eg Tg) as [_ W]; unfold emin in W; lia). clear - A H. destruct sg; nia.
        -- intros _. split; [exact Fg|]. intros h Fh Th.
           assert (Vf : val F64 (amount f)) by (exists f; auto). assert (Vg : val F32 (amount g)) by (exists g; auto). assert (Vh : val F32 (amount h)) by (exists h; auto).
           destruct (twice (amount f) (amount g) x D HD V64 Vf Vg) with (v := amount h) as [A B]; [| |exact Vh|].
           ++ intros v (k & Fk & Tk & <-). apply H32; assumption.
           ++ intros v (k & Fk & Tk & <-) Nk Ek. apply Z.nlt_ge. intros C. apply M. split; [exact Fg|]. exists k. split; [exact Fk|]. split; [exact Tk|]. split; [exact Nk|]. split; [symmetry; exact Ek|exact C].
           ++ split; [exact A|]. intros E. destruct (Z.eq_dec (amount h) (amount g)) as [Q|Q]; [left; exact Q|right].
              destruct (B E Q) as (v & (k & Fk & Tk & <-) & Nk & Ek). destruct (H32 k Fk Tk) as [_ T]. destruct (T Ek) as [W|W]; [contradiction|exact W].
    + pose proof (G2 Ff Lf) as Eg. rewrite Ng in Eg. split.
      * intros (_ & _ & _ & _ & R). split; [intros [Fg _]; exact (GD n (eq_sym Eg) Fg)|]. intros [E C]. destruct (R C) as [Fg _]. exact (GD n (eq_sym Eg) Fg).
      * intros [_ M]. assert (C : overflow F32 * D <= N * 2^1074).
        { apply Z.nlt_ge. intros C. destruct (Z.eq_dec (Z.abs (amount f)) (overflow F32)) as [E|E]; [apply M; split; assumption|]. specialize (Lim2 ltac:(lia)). lia. }
        split; [exact Tg|]. split; [rewrite Eg; reflexivity|]. split; [|split; [intros _; exact Eg|intros; lia]].
        intros ->. rewrite Z.mul_0_l in C. assert (0 < overflow F32 * D) by (apply Z.mul_pos_pos; [reflexivity|exact HD]). lia.
  - specialize (Inf ltac:(lia)). assert (Eg : g = S754_infinity n) by (rewrite G3, Inf; [reflexivity|intros X; rewrite Inf in X; exact X]). split.
    + intros _. split; [intros [Fg _]; exact (GD n (eq_sym Eg) Fg)|]. intros [E _]. rewrite Inf in E. cbn [amount] in E. vm_compute in E. discriminate.
    + intros _. split; [exact Tg|]. split; [rewrite Eg; reflexivity|]. split; [|split; [intros _; exact Eg|intros; lia]].
      intros ->. rewrite Z.mul_0_l in L. assert (0 < overflow F64 * D) by (apply Z.mul_pos_pos; [reflexivity|exact HD]). lia.
Qed.

Notation conv := (convert format_float parse_float oob).
(** The float32 of a numeral is the right one, except when the float64 nearest to the number
    is halfway between two float32 (or between the largest and infinity), the number is not
    that float64 itself, and it is on the side of the float32 that was not taken. *)
Theorem text_to_float32_exact s n b M E x :
  decimal s n M E x /\ b = 10 /\ (Z.abs x < 100000 \/ Z.of_nat (length s) <= 7000) \/ hexadecimal s n M E x /\ b = 2 /\ (Z.abs x < 100000 \/ Z.of_nat (length s) <= 1700) ->
  let N := num_of b M E in let D := den_of b E in
  exists f g, conv BStr (BNum F64) (VStr s) = Some (VFloat f) /\ conv BStr (BNum F32) (VStr s) = Some (VFloat g) /\ rounds_to f n N D /\
    (rounds_to_single g n N D <-> ~ misled f g ((if n then - N else N) * 2^1074) D /\ ~ misled_up f N D).
Proof.
  intros H N D. destruct (text_to_float32 oob s) as (f & g & E64 & E32 & Es). exists f, g. split; [exact E64|]. split; [exact Es|].
  assert (R : rounds_to f n N D /\ 0 < D /\ 0 <= N).
  { unfold N, D, num_of, den_of. destruct H as [(H & -> & B)|(H & -> & B)].
    - destruct (text_to_float64_partial oob s n M E x H B) as (f' & Ef & R). rewrite E64 in Ef. injection Ef as <-. split; [exact R|]. split; [apply Z.pow_pos_nonneg; lia|]. apply Z.mul_nonneg_nonneg; [|apply Z.pow_nonneg; lia].
      destruct H as (sgn & ip & fp & fd & ex & _ & _ & Hi & _ & Hd & _ & _ & -> & _). apply dec_val_nonneg. apply Forall_app; auto.
    - destruct (text_to_float64_hex_partial oob s n M E x H B) as (f' & Ef & R). rewrite E64 in Ef. injection Ef as <-. split; [exact R|]. split; [apply Z.pow_pos_nonneg; lia|]. apply Z.mul_nonneg_nonneg; [|apply Z.pow_nonneg; lia].
      destruct H as (sgn & y & ip & fp & fd & ex & _ & _ & _ & Hi & _ & Hd & _ & _ & -> & _). assert (HF : Forall hex_digit (ip ++ fd)) by (apply Forall_app; auto). rewrite <- (hex_num _ HF). apply (hex_val_lt _ HF 0). lia. }
  destruct R as (R & HD & HN). split; [exact R|]. clear H. clearbody N D.
  assert (G := fun HH => single_exact f g n N D HD HN R HH). apply G. rewrite <- E32. rewrite !convert_num. reflexivity.
Qed.
End P.
Print Assumptions text_to_float32_exact.
(** 2^53 + 2^29 + 1: the float64 is 2^53 + 2^29, halfway between the float32 2^53, which is
    taken, and 2^53 + 2^30, which is nearer.  And one less than half a step above the largest
    float32 becomes infinite *)
Example misled_ex : misled (S754_finite false (2^52 + 2^28) 1) (S754_finite false (2^23) 30) ((2^53 + 2^29 + 1) * 2^1074) 1 /\
  parse_float (dec_digits (2^53 + 2^29 + 1)) = S754_finite false (2^52 + 2^28) 1 /\ float_to_float 24 128 (S754_finite false (2^52 + 2^28) 1) = S754_finite false (2^23) 30.
Proof.
  split; [|split; vm_compute; reflexivity]. split; [exact I|]. exists (S754_finite false (2^23 + 1) 30). split; [exact I|]. split; [reflexivity|]. split; [vm_compute; discriminate|]. split; vm_compute; reflexivity.
Qed.
Example misled_up_ex : let N := (2^25 - 1) * 2^103 - 1 in let f := parse_float (dec_digits N) in
  misled_up f N 1 /\ float_to_float 24 128 f = S754_infinity false /\ valid_binary 24 128 (S754_finite false (2^24 - 1) 104) = true.
Proof. split; [split; vm_compute; reflexivity|]. split; vm_compute; reflexivity. Qed.
