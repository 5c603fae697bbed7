(** C125: conversions of numbers to floats are correctly rounded, and conversions of floats
    to integers truncate. *)
From Verif Require Import Base ConvModel ConvProofs ConvProofs2 ConvFloat ConvNearest.
From Coq Require Import Floats.SpecFloat ZArith.
Local Open Scope Z.

(** The value of a finite float64 or float32 as a number of units of 2^-1074, of which all
    of them are multiples *)
Definition amount (f : spec_float) : Z :=
  match f with S754_finite s m e => (if s then -1 else 1) * (Zpos m * 2^(e + 1074)) | _ => 0 end.
Definition finite (f : spec_float) : Prop := match f with S754_finite _ _ _ | S754_zero _ => True | _ => False end.
Definition neg (f : spec_float) : bool := match f with S754_finite s _ _ | S754_zero s | S754_infinity s => s | S754_nan => false end.
(** the values of the two types *)
Definition of_type (F : nty) (f : spec_float) : Prop :=
  match F with F32 => valid_binary 24 128 f = true | F64 => valid_binary 53 1024 f = true | _ => False end.
(** f is the value of F nearest to x units; of two equally near ones it is the even one *)
Definition nearest (F : nty) (x : Z) (f : spec_float) : Prop :=
  finite f /\ of_type F f /\
  forall g, finite g -> of_type F g ->
    Z.abs (amount f - x) <= Z.abs (amount g - x) /\
    (Z.abs (amount f - x) = Z.abs (amount g - x) -> amount g = amount f \/ match f with S754_finite _ m _ => Z.even (Zpos m) | _ => true end = true).
(** half a step above the largest value of the type, in units *)
Definition overflow (F : nty) : Z := match F with F32 => (2^25 - 1) * 2^(103 + 1074) | _ => (2^54 - 1) * 2^(970 + 1074) end.

Lemma amount_units f : amount f = units (-1074) f.
Proof. destruct f as [s|s| |s m e]; reflexivity || (cbn [amount units]; replace (e - -1074) with (e + 1074) by lia; reflexivity). Qed.
Lemma format_round F s m e : F = F32 \/ F = F64 -> -1074 <= e ->
  let f := binary_round (nty_prec F).1 (nty_prec F).2 s m e in let x := amount (S754_finite s m e) in
  of_type F f /\ neg f = s /\ (finite f -> nearest F x f) /\ (~ finite f -> f = S754_infinity s) /\ (finite f <-> Z.abs x < overflow F).
Proof.
  intros HF He f x.
  assert (HP : exists prec emax, nty_prec F = (prec, emax) /\ 1 < prec /\ prec + 2 < emax /\ -1074 <= emin prec emax /\ (forall g, of_type F g <-> valid_binary prec emax g = true) /\
               overflow F = (2^(prec + 1) - 1) * 2^(emax - prec - 1 - -1074)).
  { destruct HF as [-> | ->]; do 2 eexists; (split; [reflexivity|]); (split; [reflexivity|]); (split; [reflexivity|]); (split; [vm_compute; discriminate|]); (split; [intros g; reflexivity|reflexivity]). }
  destruct HP as (prec & emax & EP & P1 & P2 & P3 & HT & HO). subst f x. rewrite EP. cbn [fst snd].
  destruct (round_nearest prec emax P1 P2 s m e (-1074) He P3) as (V & I & N). set (f := binary_round prec emax s m e) in *.
  assert (EA : Z.abs (amount (S754_finite s m e)) = Zpos m * 2^(e - -1074)).
  { rewrite amount_units. cbn [units]. assert (0 < 2^(e - -1074)) by (apply Z.pow_pos_nonneg; lia). destruct s; lia. }
  assert (Hd : f = S754_infinity s \/ f <> S754_infinity s) by (destruct f as [?|[|]| |]; destruct s; (left; reflexivity) || (right; discriminate)).
  split; [apply HT; exact V|]. destruct Hd as [Hf|Hf].
  - rewrite EA, HO. apply I in Hf as Hb. rewrite Hf. cbn [neg finite]. split; [reflexivity|]. split; [intros []|]. split; [reflexivity|]. split; [intros []|]. intros; lia.
  - destruct (N Hf) as (N1 & N2 & N3). assert (Hfin : finite f) by (destruct f; auto). split; [destruct f; auto; contradiction|]. split; [|split].
    + intros _. split; [exact Hfin|]. split; [apply HT; exact V|]. intros g Hg Vg. rewrite !amount_units. apply (N3 g); [destruct g; auto|apply HT; exact Vg].
    + intros H. contradiction.
    + split; [intros _|auto]. rewrite EA, HO. apply Z.nle_gt. intros H. apply Hf. apply I. exact H.
Qed.

Section P.
Context (ff : spec_float -> list Z) (pf : list Z -> spec_float) (oob : ity -> spec_float -> Z).
Notation conv := (convert ff pf oob).

(** An integer of any of the ten types becomes the nearest value of float32 or float64, of
    two nearest ones the even one, and never an infinity. *)
Theorem integer_to_nearest_float T t F x : nty_ity T = Some t -> in_ity t x -> F = F32 \/ F = F64 ->
  exists f, conv (BNum T) (BNum F) (VInt x) = Some (VFloat f) /\ nearest F (x * 2^1074) f.
Proof.
  intros HT Hx HF. rewrite convert_num. assert (HF' : nty_ity F = None) by (destruct HF as [-> | ->]; reflexivity). unfold conv_num. rewrite HF'. eexists. split; [reflexivity|].
  assert (Hb : Z.abs x <= 2^64).
  { destruct (nty_good T t HT) as [G1 G2]. unfold in_ity, good_ity in *. assert (2^(bits t) <= 2^64) by (apply Z.pow_le_mono_r; lia). assert (2^(bits t - 1) <= 2^64) by (apply Z.pow_le_mono_r; lia). destruct (signed t); lia. }
  assert (G : forall (s : bool) (m : positive), x = (if s then Zneg m else Zpos m) -> nearest F (x * 2^1074) (binary_round (nty_prec F).1 (nty_prec F).2 s m 0)).
  { intros s m Em. destruct (format_round F s m 0 HF ltac:(lia)) as (_ & _ & HN & _ & HO). cbn zeta in HN, HO.
    assert (EA : amount (S754_finite s m 0) = x * 2^1074) by (cbn [amount]; change (2^(0 + 1074)) with (2^1074); destruct s; subst x; lia). rewrite EA in *. apply HN. apply HO.
    assert (H1 : 2^64 * 2^1074 < overflow F) by (destruct HF as [-> | ->]; vm_compute; reflexivity). rewrite Z.abs_mul, (Z.abs_eq (2^1074)) by (apply Z.pow_nonneg; lia). nia. }
  unfold int_to_float, binary_normalize. destruct x as [|m|m]; [|apply (G false m); reflexivity|apply (G true m); reflexivity].
  split; [exact I|]. split; [destruct HF as [-> | ->]; reflexivity|]. intros g _ _. cbn [amount]. split; [lia|]. intros H. left. lia.
Qed.
(** A float becomes the nearest value of the other type, or an infinity of its sign if it is
    half a step or more beyond the largest value; the sign is kept, also of zeroes;
    infinities and NaN stay. *)
Theorem float_to_nearest_float T F f : nty_ity T = None -> of_type T f -> F = F32 \/ F = F64 ->
  exists g, conv (BNum T) (BNum F) (VFloat f) = Some (VFloat g) /\ neg g = neg f /\
    (finite f -> Z.abs (amount f) < overflow F -> nearest F (amount f) g) /\
    (finite f -> overflow F <= Z.abs (amount f) -> g = S754_infinity (neg f)) /\
    (~ finite f -> g = f).
Proof.
  intros HT Hf HF. rewrite convert_num. assert (HF' : nty_ity F = None) by (destruct HF as [-> | ->]; reflexivity). unfold conv_num. rewrite HF'. eexists. split; [reflexivity|].
  destruct f as [s|s| |s m e]; cbn [float_to_float].
  - split; [reflexivity|]. split; [|split].
    + intros _ _. split; [exact I|]. split; [destruct HF as [-> | ->]; reflexivity|]. intros g _ _. cbn [amount]. split; [lia|]. intros H. left. lia.
    + intros _ H. exfalso. cbn [amount] in H. destruct HF as [-> | ->]; vm_compute in H; apply H; reflexivity.
    + intros H. exfalso. apply H. exact I.
  - split; [reflexivity|]. split; [intros []|]. split; [intros []|]. reflexivity.
  - split; [reflexivity|]. split; [intros []|]. split; [intros []|]. reflexivity.
  - assert (He : -1074 <= e).
    { destruct T; try discriminate; cbn [of_type] in Hf.
      - assert (Hp : 1 < 24) by lia. destruct (valid_small 24 128 s m e Hf) as [_ H]. unfold emin in H. lia.
      - destruct (valid_small 53 1024 s m e Hf) as [_ H]. unfold emin in H. lia. }
    destruct (format_round F s m e HF He) as (_ & H1 & H2 & H3 & H4). split; [exact H1|]. split; [intros _ H; apply H2, H4, H|]. split; [|intros H; exfalso; apply H; exact I].
    intros _ H. apply H3. intros Hn. apply H4 in Hn. lia.
Qed.
(** Whatever is converted to a float type, the result is a value of that type. *)
Theorem float_result_of_type T F v f : F = F32 \/ F = F64 ->
  match T, v with BNum _, (VInt _ | VFloat _) | BStr, VStr _ | BBool, VBool _ => True | _, _ => False end ->
  conv T (BNum F) v = Some (VFloat f) -> of_type F f.
Proof.
  intros HF Hv. assert (HF' : nty_ity F = None) by (destruct HF as [-> | ->]; reflexivity).
  assert (HR : forall s m e, of_type F (binary_round (nty_prec F).1 (nty_prec F).2 s m e)).
  { intros s m e. destruct HF as [-> | ->].
    - apply (round_nearest 24 128 ltac:(lia) ltac:(lia) s m e (Z.min e (emin 24 128)) ltac:(lia) ltac:(lia)).
    - apply (round_nearest 53 1024 ltac:(lia) ltac:(lia) s m e (Z.min e (emin 53 1024)) ltac:(lia) ltac:(lia)). }
  assert (HZ : forall g, (match g with S754_finite _ _ _ => False | _ => True end) -> of_type F g) by (intros [?|?| |] Hg; try contradiction; destruct HF as [-> | ->]; reflexivity).
  assert (HI : forall x, of_type F (int_to_float (nty_prec F).1 (nty_prec F).2 x)) by (intros [|m|m]; unfold int_to_float, binary_normalize; [apply HZ; exact I|apply HR|apply HR]).
  assert (HG : forall g, of_type F (float_to_float (nty_prec F).1 (nty_prec F).2 g)) by (intros [?|?| |s m e]; cbn [float_to_float]; [apply HZ; exact I|apply HZ; exact I|apply HZ; exact I|apply HR]).
  destruct T as [T| | | |], v as [x|g|s|b| |]; try contradiction; rewrite ?convert_num, ?convert_str_num, ?convert_bool_num; unfold conv_num, conv_from_string, conv_from_bool; rewrite HF'; intros [= <-]; auto.
Qed.
(** A float becomes the integer it truncates to, if that is a value of the integer type:
    it has the same sign, is not larger and less than one smaller. *)
Theorem float_to_integer_truncates T F r f x : F = F32 \/ F = F64 -> of_type F f -> nty_ity T = Some r -> in_ity r x -> finite f ->
  (0 <= x * amount f /\ Z.abs x * 2^1074 <= Z.abs (amount f) < (Z.abs x + 1) * 2^1074) ->
  conv (BNum F) (BNum T) (VFloat f) = Some (VInt x).
Proof.
  intros HF Hf HT Hx Hfin (Hs & Hlo & Hhi). rewrite convert_num. unfold conv_num. rewrite HT. do 2 f_equal. unfold float_to_int.
  assert (E : float_trunc f = Some x).
  { assert (HU : 0 < 2^1074) by (apply Z.pow_pos_nonneg; lia). destruct f as [s|s| |s m e]; try contradiction; cbn [float_trunc].
    - cbn [amount] in Hlo. f_equal. nia.
    - assert (He : -1074 <= e).
      { destruct HF as [-> | ->]; cbn [of_type] in Hf.
        - destruct (valid_small 24 128 s m e Hf) as [_ H]. unfold emin in H. lia.
        - destruct (valid_small 53 1024 s m e Hf) as [_ H]. unfold emin in H. lia. }
      set (a := if 0 <=? e then Zpos m * 2^e else Zpos m / 2^(- e)).
      assert (Ha : 0 <= a /\ a * 2^1074 <= Zpos m * 2^(e + 1074) < (a + 1) * 2^1074).
      { unfold a. destruct (Z.leb_spec 0 e) as [L|L].
        - assert (0 < 2^e) by (apply Z.pow_pos_nonneg; lia). rewrite Z.pow_add_r by lia. split; [lia|]. nia.
        - assert (P : 0 < 2^(-e)) by (apply Z.pow_pos_nonneg; lia). assert (Q : 0 < 2^(e + 1074)) by (apply Z.pow_pos_nonneg; lia).
          replace (2^1074) with (2^(-e) * 2^(e + 1074)) by (rewrite <- Z.pow_add_r by lia; f_equal; lia).
          pose proof (Z.div_mod (Zpos m) (2^(-e)) ltac:(lia)) as D. pose proof (Z.mod_pos_bound (Zpos m) (2^(-e)) P) as B. split; [apply Z.div_pos; lia|]. set (d := Zpos m / 2^(-e)) in *. nia. }
      destruct Ha as (A0 & A1). assert (Eabs : Z.abs (amount (S754_finite s m e)) = Zpos m * 2^(e + 1074)).
      { cbn [amount]. assert (0 < 2^(e + 1074)) by (apply Z.pow_pos_nonneg; lia). destruct s; lia. }
      rewrite Eabs in *. assert (Ex : Z.abs x = a) by nia. cbn [amount] in Hs. assert (Q : 0 < Zpos m * 2^(e + 1074)) by (apply Z.mul_pos_pos; [lia|apply Z.pow_pos_nonneg; lia]).
      f_equal. destruct s; [assert (x <= 0) by nia|assert (0 <= x) by nia]; lia. }
  rewrite E. apply fits_spec in Hx. rewrite Hx. reflexivity.
Qed.
End P.
Print Assumptions integer_to_nearest_float.
Print Assumptions float_to_nearest_float.
Print Assumptions float_result_of_type.
Print Assumptions float_to_integer_truncates.

(** ties: 2^53 + 1 goes down to 2^53, 2^53 + 3 up to 2^53 + 4; 2^24 + 1 in float32; the
    largest float64 becomes an infinite float32; half of the smallest float32 becomes zero;
    -7.5 becomes -7 *)
Example nearest_ex :
  amount (int_to_float 53 1024 (2^53 + 1)) = 2^53 * 2^1074 /\ amount (int_to_float 53 1024 (2^53 + 3)) = (2^53 + 4) * 2^1074 /\ amount (int_to_float 24 128 (2^24 + 1)) = 2^24 * 2^1074 /\
  of_type F64 (S754_finite false (2^53 - 1) 971) /\ float_to_float 24 128 (S754_finite false (2^53 - 1) 971) = S754_infinity false /\
  of_type F64 (S754_finite true (2^52) (-202)) /\ float_to_float 24 128 (S754_finite true (2^52) (-202)) = S754_zero true /\
  of_type F64 (S754_finite true (15 * 2^49) (-50)) /\ amount (S754_finite true (15 * 2^49) (-50)) * 2 = -15 * 2^1074 /\ float_trunc (S754_finite true (15 * 2^49) (-50)) = Some (-7) /\
  Z.abs (-7) * 2^1074 <= Z.abs (amount (S754_finite true (15 * 2^49) (-50))) < (Z.abs (-7) + 1) * 2^1074.
Proof. vm_compute. repeat split; discriminate. Qed.
