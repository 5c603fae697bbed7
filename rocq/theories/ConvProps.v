(** Properties of typex/convx (C69-C75, C96-C99). *)
From Coq Require Import Floats.SpecFloat.
From Verif Require Import Base ConvModel ConvProofs ConvProofs2 ConvUtf8 ConvFloat.
Local Open Scope Z.

(** *** the registry *)
(** C69: for concrete types, every history of calls gives what the converter registered
    last for that pair of types gives *)
Theorem registry_latest {V} (os : list (rop V)) : Forall concrete_op os ->
  exists m, run reg_step no_converters os = (ideal_results reg_ideal (fun _ _ => None) os, Ret m).
Proof. intros H. exact (reg_history os no_converters _ reg_rel_init H). Qed.
Print Assumptions registry_latest.
Definition tA := GTy 0 false. Definition tB := GTy 1 false. Definition tI := GTy 2 true. Definition tJ := GTy 3 true.
Definition reg_ops : list (rop Z) :=
  [OExists tA tB; ORegister tA tB (fun x => x + 1); ORegister tB tA (fun x => x - 1); OInto tA tB (Some tA) 5; ORegister tA tB (fun x => x + 2); OInto tA tB (Some tA) 5;
   OIntoOr tB tA (Some tB) 5 0; OUnregister tA tB; OExists tA tB; OInto tA tB (Some tA) 5; OIntoOr tA tB (Some tA) 5 9; OExists tB tA].
Example registry_ex : Forall concrete_op reg_ops /\
  ideal_results reg_ideal (fun _ _ => None) reg_ops =
    [RetBool false; RetUnit; RetUnit; RetInto (Some 6); RetUnit; RetInto (Some 7); RetVal 4; RetUnit; RetBool false; RetInto None; RetVal 9; RetBool true].
Proof. split; [|reflexivity]. repeat constructor. Qed.

(** C70: interface types.  A converter from an interface type is never used for a value
    that is not nil, whatever was registered *)
Theorem registry_interface_never {V} (os : list (rop V)) rs m T R D v : run reg_step no_converters os = (rs, Ret m) -> g_iface T = true ->
  into m T R (Some D) v = None.
Proof.
  intros E HT. assert (H : reg_typed m) by (eapply (reg_typed_run os no_converters); [intros a b e F; discriminate F|exact E]).
  rewrite into_look. destruct (look m (Some D) (key R)) as [e|] eqn:L; [|reflexivity]. destruct (H _ _ _ L) as [H1 _].
  destruct (decide (e_from e = T)) as [F|]; [|reflexivity]. exfalso. unfold key in H1. rewrite F, HT in H1. discriminate.
Qed.
Print Assumptions registry_interface_never.
Theorem registry_interface_refuted : exists (os : list (rop Z)) rs m,
  run reg_step no_converters os = (rs, Ret m) /\ exists_conv m tI tB = true /\ into m tI tB (Some tA) 5 = None /\
  (* and Exists answers for a pair that was never registered *)
  exists_conv m tJ tB = true.
Proof. exists [ORegister tI tB (fun x => x)], [RetUnit]. eexists. split; [reflexivity|]. repeat split; reflexivity. Qed.
Print Assumptions registry_interface_refuted.
(** two interface result types share one place: the later registration hides the earlier *)
Theorem registry_interface_result_refuted : exists (os : list (rop Z)) rs m,
  run reg_step no_converters os = (rs, Ret m) /\ os = [ORegister tA tI (fun x => x + 1); ORegister tA tJ (fun x => x + 2)] /\
  exists_conv m tA tI = true /\ into m tA tI (Some tA) 5 = None /\ into m tA tJ (Some tA) 5 = Some 7.
Proof. exists [ORegister tA tI (fun x => x + 1); ORegister tA tJ (fun x => x + 2)], [RetUnit; RetUnit]. eexists. split; [reflexivity|]. split; [reflexivity|]. repeat split; reflexivity. Qed.
Print Assumptions registry_interface_result_refuted.
(** what works: a nil value of the interface type registered last *)
Theorem registry_interface_nil_partial {V} (m : registry V) T R f v : g_iface T = true -> into (register m T R f) T R None v = Some (f v).
Proof.
  intros HT. rewrite into_look, look_register. rewrite decide_True by (unfold key; rewrite HT; split; reflexivity). cbn. rewrite !decide_True by reflexivity. reflexivity.
Qed.
Print Assumptions registry_interface_nil_partial.
(** and an interface result type, as long as it is the one registered last *)
Theorem registry_interface_result_partial {V} (m : registry V) T R f v : g_iface T = false -> into (register m T R f) T R (Some T) v = Some (f v).
Proof.
  intros HT. rewrite into_look, look_register. rewrite decide_True by (unfold key; rewrite HT; split; reflexivity). cbn. rewrite !decide_True by reflexivity. reflexivity.
Qed.
Print Assumptions registry_interface_result_partial.

Section builtin.
(** strconv's float functions, and conversions of floats that do not fit *)
Context (ff : spec_float -> list Z) (pf : list Z -> spec_float) (oob : ity -> spec_float -> Z).
Notation conv := (convert ff pf oob).

(** C98: which pairs are registered by init; each of them once *)
Theorem builtin_pairs T R v : (exists r, conv T R v = Some r) <-> supported T R = true.
Proof. rewrite <- (convert_supported ff pf oob T R v). destruct (conv T R v); split; [reflexivity|eauto|intros [r E]; discriminate|discriminate]. Qed.
Theorem builtin_once : NoDup (map fst (init_table ff pf oob)) /\ length (init_table ff pf oob) = 202%nat.
Proof. split; [apply table_nodup|reflexivity]. Qed.

(** C71: integer to integer *)
Theorem integer_conversion T t R r x : nty_ity T = Some t -> nty_ity R = Some r ->
  exists y, conv (BNum T) (BNum R) (VInt x) = Some (VInt y) /\ in_ity r y /\ y mod 2^(bits r) = x mod 2^(bits r) /\ (in_ity r x -> y = x) /\
    (forall z, in_ity r z -> z mod 2^(bits r) = x mod 2^(bits r) -> z = y).
Proof.
  intros HT HR. destruct (nty_good R r HR) as [G _]. exists (wrap r x). rewrite convert_num. unfold conv_num. rewrite HR. split; [reflexivity|].
  split; [apply wrap_in; exact G|]. split; [apply wrap_mod; exact G|]. split; [apply wrap_id; exact G|]. intros z Hz E. symmetry. apply wrap_unique; assumption.
Qed.
(** the ranges of the types, on a 64-bit platform: what fits is kept, and nothing else is *)
Definition int_ranges : list (nty * (Z * Z)) :=
  [(I8, (-128, 127)); (I16, (-32768, 32767)); (I32, (-2147483648, 2147483647)); (I64, (-9223372036854775808, 9223372036854775807)); (IInt, (-9223372036854775808, 9223372036854775807));
   (U8, (0, 255)); (U16, (0, 65535)); (U32, (0, 4294967295)); (U64, (0, 18446744073709551615)); (UInt, (0, 18446744073709551615))].
Theorem integer_range T t R lo hi x : (R, (lo, hi)) ∈ int_ranges -> nty_ity T = Some t ->
  (conv (BNum T) (BNum R) (VInt x) = Some (VInt x) <-> lo <= x <= hi).
Proof.
  intros HE HT. assert (HR : exists r, nty_ity R = Some r /\ (in_ity r x <-> lo <= x <= hi)).
  { unfold int_ranges in HE. repeat (apply elem_of_cons in HE as [[= -> -> ->]|HE]; [eexists; split; [reflexivity|]; unfold in_ity; cbn; lia|]). inversion HE. }
  destruct HR as (r & HR & <-). destruct (nty_good R r HR) as [G _]. rewrite convert_num. unfold conv_num. rewrite HR. unfold integer_to_integer. split.
  - intros [= E]. rewrite <- E. apply wrap_in. exact G.
  - intros H. rewrite wrap_id by assumption. reflexivity.
Qed.
(** there and back: nothing is lost if the other type is as wide, or holds the value *)
Theorem integer_roundtrip T t R r x y : nty_ity T = Some t -> nty_ity R = Some r -> in_ity t x -> bits t <= bits r \/ in_ity r x ->
  conv (BNum T) (BNum R) (VInt x) = Some (VInt y) -> conv (BNum R) (BNum T) (VInt y) = Some (VInt x).
Proof.
  intros HT HR Hx Hw. destruct (nty_good T t HT) as [Gt _]. destruct (nty_good R r HR) as [Gr _]. rewrite !convert_num. unfold conv_num. rewrite HT, HR. intros [= <-]. f_equal. f_equal.
  unfold integer_to_integer. destruct Hw as [Hw|Hw]; [|rewrite (wrap_id r x Gr Hw); apply wrap_id; assumption].
  apply wrap_unique; [exact Gt|exact Hx|].
  assert (E : 2^(bits r) = 2^(bits t) * 2^(bits r - bits t)) by (unfold good_ity in *; rewrite <- Z.pow_add_r by lia; f_equal; lia).
  pose proof (wrap_mod r x Gr) as M. unfold good_ity in *.
  rewrite <- (Z.mod_mod x (2^bits t)), <- (Z.mod_mod (wrap r x) (2^bits t)) by (apply Z.pow_nonzero; lia).
  assert (Mm : forall a, a mod 2^(bits t) = (a mod 2^(bits r)) mod 2^(bits t)).
  { intros a. rewrite E. rewrite Z.rem_mul_r by (apply Z.pow_nonzero || apply Z.pow_pos_nonneg; lia). rewrite Z.mul_comm, Z.mod_add by (apply Z.pow_nonzero; lia). symmetry. apply Z.mod_mod. apply Z.pow_nonzero; lia. }
  rewrite (Mm (wrap r x)), M, <- Mm. reflexivity.
Qed.

(** C72: integer to string and back *)
Theorem integer_string T t x : nty_ity T = Some t -> in_ity t x ->
  exists s, conv (BNum T) BStr (VInt x) = Some (VStr s) /\ conv BStr (BNum T) (VStr s) = Some (VInt x) /\
    (* it is the decimal representation: an optional minus and digits without leading zeroes *)
    exists sg ds, s = sg ++ ds /\ (sg = [] /\ 0 <= x \/ sg = [45] /\ x < 0) /\ ds <> [] /\ Forall is_digit ds /\ dec_val ds = Z.abs x /\ (forall c r, ds = c :: r -> r <> [] -> c <> 48).
Proof.
  intros HT Hx. destruct (nty_good T t HT) as [G B]. exists (if signed t then int_to_string x else uint_to_string x).
  rewrite convert_num_str, convert_str_num. unfold conv_to_string, conv_from_string. rewrite HT.
  assert (R : if signed t then - 2^63 <= x < 2^63 else 0 <= x < 2^64).
  { unfold in_ity, good_ity in *. destruct (signed t); [assert (2^(bits t - 1) <= 2^63) by (apply Z.pow_le_mono_r; lia); lia|assert (2^(bits t) <= 2^64) by (apply Z.pow_le_mono_r; lia); lia]. }
  split; [reflexivity|]. unfold int_to_string, uint_to_string, string_to_integer, string_to_uinteger. destruct (signed t).
  - rewrite (i64_id x) by exact R. rewrite parse_int_format by exact R. rewrite (wrap_id t x G Hx). split; [reflexivity|].
    unfold format_int. destruct (Z.ltb_spec x 0).
    + rewrite (u64_id (- x)) by (unfold is_u64; lia). destruct (format_uint_spec (- x) ltac:(lia)) as (F1 & F2 & F3 & F4). exists [45], (format_uint (- x)).
      split; [reflexivity|]. split; [right; split; [reflexivity|lia]|]. split; [exact F1|]. split; [exact F2|]. split; [lia|exact F4].
    + destruct (format_uint_spec x ltac:(lia)) as (F1 & F2 & F3 & F4). exists [], (format_uint x). split; [reflexivity|]. split; [left; split; [reflexivity|lia]|]. split; [exact F1|]. split; [exact F2|]. split; [lia|exact F4].
  - rewrite (u64_id x) by exact R. rewrite parse_uint_format by exact R. rewrite (wrap_id t x G Hx). split; [reflexivity|].
    destruct (format_uint_spec x ltac:(lia)) as (F1 & F2 & F3 & F4). exists [], (format_uint x). split; [reflexivity|]. split; [left; split; [reflexivity|lia]|]. split; [exact F1|]. split; [exact F2|]. split; [lia|exact F4].
Qed.

(** C73: every string converts, to some number.  Exactly: *)
Theorem string_uint_exact R r s : nty_ity R = Some r -> signed r = false ->
  exists n, conv BStr (BNum R) (VStr s) = Some (VInt (n mod 2^(bits r))) /\
    (Forall is_digit s -> n = Z.min (dec_val s) (2^64 - 1)) /\
    (forall a c t, s = a ++ c :: t -> Forall is_digit a -> ~ is_digit c -> n = if dec_val a <? 2^64 then 0 else 2^64 - 1).
Proof.
  intros HR Hs. exists (parse_uint s).1. rewrite convert_str_num. unfold conv_from_string. rewrite HR, Hs. unfold string_to_uinteger, wrap. rewrite Hs. split; [reflexivity|]. split.
  - intros H. destruct s as [|c s]; [reflexivity|]. pose proof (dec_val_nonneg _ H). rewrite parse_uint_digits by (exact H || discriminate). destruct (Z.ltb_spec (dec_val (c :: s)) (2^64)); cbn [fst]; unfold max_u64; lia.
  - intros a c t -> Ha Hc. rewrite parse_uint_junk by assumption. destruct (dec_val a <? 2^64); reflexivity.
Qed.
Theorem string_int_exact R r s : nty_ity R = Some r -> signed r = true ->
  exists n, conv BStr (BNum R) (VStr s) = Some (VInt (wrap r n)) /\
    (s = [] -> n = 0) /\
    (forall sg ds, is_sign sg -> s = sg ++ ds -> ds <> [] -> Forall is_digit ds -> n = clamp (sign_of sg * dec_val ds)) /\
    (forall sg a c t, is_sign sg -> s = sg ++ a ++ c :: t -> Forall is_digit a -> ~ is_digit c -> (sg = [] -> a = [] -> c <> 43 /\ c <> 45) ->
       n = if dec_val a <? 2^64 then 0 else clamp (sign_of sg * 2^64)) /\
    (is_sign s -> n = 0).
Proof.
  intros HR Hs. exists (parse_int s).1. rewrite convert_str_num. unfold conv_from_string. rewrite HR, Hs. unfold string_to_integer. split; [reflexivity|].
  split; [intros ->; reflexivity|]. split; [intros sg ds H -> N D; apply parse_int_digits; assumption|]. split; [intros sg a c t H -> Ha Hc N; apply parse_int_junk; assumption|].
  intros [->|[->| ->]]; reflexivity.
Qed.
(** so text that is a number in range gives that number *)
Theorem string_in_range_partial R r sg ds x : nty_ity R = Some r -> is_sign sg -> (signed r = false -> sg = []) -> ds <> [] -> Forall is_digit ds -> x = sign_of sg * dec_val ds -> in_ity r x ->
  conv BStr (BNum R) (VStr (sg ++ ds)) = Some (VInt x).
Proof.
  intros HR Hsg Hu N D Ex Hx. destruct (nty_good R r HR) as [G B]. rewrite convert_str_num. unfold conv_from_string. rewrite HR.
  assert (Rg : if signed r then - 2^63 <= x < 2^63 else 0 <= x < 2^64).
  { unfold in_ity, good_ity in *. destruct (signed r); [assert (2^(bits r - 1) <= 2^63) by (apply Z.pow_le_mono_r; lia); lia|assert (2^(bits r) <= 2^64) by (apply Z.pow_le_mono_r; lia); lia]. }
  unfold string_to_integer, string_to_uinteger. destruct (signed r) eqn:S.
  - rewrite parse_int_digits by assumption. rewrite <- Ex. unfold clamp. rewrite Z.min_r by lia. rewrite Z.max_r by lia. rewrite wrap_id by assumption. reflexivity.
  - rewrite (Hu eq_refl) in *. cbn [app sign_of] in *. rewrite parse_uint_digits by assumption. destruct (Z.ltb_spec (dec_val ds) (2^64)); [|lia]. cbn [fst]. rewrite <- (Z.mul_1_l (dec_val ds)), <- Ex. rewrite wrap_id by assumption. reflexivity.
Qed.
(** but "300", "abc" and the empty string convert to 44, 0 and 0, and convx says so with ok = true *)
Theorem string_errors_refuted :
  conv BStr (BNum I8) (VStr [51; 48; 48]) = Some (VInt 44) /\ conv BStr (BNum IInt) (VStr [97; 98; 99]) = Some (VInt 0) /\ conv BStr (BNum UInt) (VStr []) = Some (VInt 0) /\
  conv BStr (BNum UInt) (VStr [45; 49]) = Some (VInt 0) /\ (forall R s, exists v, conv BStr (BNum R) (VStr s) = Some v).
Proof.
  split; [rewrite convert_str_num; reflexivity|]. split; [rewrite convert_str_num; reflexivity|]. split; [rewrite convert_str_num; reflexivity|]. split; [rewrite convert_str_num; reflexivity|].
  intros R s. rewrite convert_str_num. eauto.
Qed.

(** C74: bool *)
Theorem bool_string b : exists s, conv BBool BStr (VBool b) = Some (VStr s) /\ conv BStr BBool (VStr s) = Some (VBool b).
Proof. destruct (convert_others ff pf oob) as (H1 & H2 & _). exists (bool_to_string b). rewrite H1, H2. split; [reflexivity|]. destruct b; reflexivity. Qed.
Theorem bool_number T b : exists v, conv BBool (BNum T) (VBool b) = Some v /\ conv (BNum T) BBool v = Some (VBool b) /\ (forall t, nty_ity T = Some t -> v = VInt (if b then 1 else 0)).
Proof. rewrite convert_bool_num. eexists. split; [reflexivity|]. rewrite convert_num_bool. destruct T, b; (split; [reflexivity|]); intros t [=]; reflexivity. Qed.
Theorem number_bool T x : conv (BNum T) BBool (VInt x) = Some (VBool true) <-> x <> 0.
Proof. rewrite convert_num_bool. cbn [conv_to_bool]. unfold int_to_bool. destruct (Z.eqb_spec x 0); cbn [negb]; split; congruence. Qed.
Theorem float_bool T f : conv (BNum T) BBool (VFloat f) = Some (VBool false) <-> exists sg, f = S754_zero sg.
Proof. rewrite convert_num_bool. cbn [conv_to_bool]. destruct f as [sg|sg| |sg m e]; cbn [float_to_bool]; split; first [intros [sg' E]; discriminate|intros _; eexists; reflexivity|discriminate|reflexivity]. Qed.
Theorem other_same T v : T = BStr \/ T = BBool \/ T = BBytes \/ T = BRunes -> conv T T v = Some v.
Proof. intros H. apply convert_refl. intros t E. subst T. destruct H as [|[|[|]]]; discriminate. Qed.
Theorem string_bool s : conv BStr BBool (VStr s) = Some (VBool true) <-> s ∈ true_strings.
Proof.
  destruct (convert_others ff pf oob) as (_ & H2 & _). rewrite H2. unfold string_to_bool, parse_bool. destruct (bool_decide_reflect (s ∈ true_strings)) as [E|E]; [split; [intros _; exact E|reflexivity]|].
  destruct (bool_decide (s ∈ false_strings)); cbn [fst]; split; [discriminate|tauto|discriminate|tauto].
Qed.

(** C75: bytes and runes *)
Theorem string_bytes s : conv BStr BBytes (VStr s) = Some (VBytes s) /\ conv BBytes BStr (VBytes s) = Some (VStr s).
Proof. destruct (convert_others ff pf oob) as (_ & _ & H3 & H4 & _). split; [apply H3|apply H4]. Qed.
Theorem runes_string rs : Forall (fun r => - 2^31 <= r < 2^31) rs ->
  exists s, conv BRunes BStr (VRunes rs) = Some (VStr s) /\ conv BStr BRunes (VStr s) = Some (VRunes (map to_scalar rs)) /\ Forall is_byte s.
Proof.
  intros H. destruct (convert_others ff pf oob) as (_ & _ & _ & _ & H5 & H6). exists (runes_to_string rs). rewrite H6, H5. split; [reflexivity|]. split; [|apply runes_bytes; exact H].
  rewrite (runes_norm rs H), runes_roundtrip; [reflexivity|]. apply Forall_forall. intros r Hr. apply elem_of_list_fmap in Hr as (r0 & -> & _). apply to_scalar_scalar.
Qed.
Theorem runes_roundtrip_iff rs : Forall (fun r => - 2^31 <= r < 2^31) rs ->
  (exists s, conv BRunes BStr (VRunes rs) = Some (VStr s) /\ conv BStr BRunes (VStr s) = Some (VRunes rs)) <-> Forall scalar rs.
Proof.
  intros H. destruct (runes_string rs H) as (s & E1 & E2 & _). split.
  - intros (s' & F1 & F2). rewrite E1 in F1. injection F1 as <-. rewrite E2 in F2. injection F2 as F2. rewrite <- F2. apply Forall_forall. intros r Hr. apply elem_of_list_fmap in Hr as (r0 & -> & _). apply to_scalar_scalar.
  - intros S. exists s. split; [exact E1|]. rewrite E2. f_equal. f_equal. clear -S. induction S as [|r rs Hr _ IH]; [reflexivity|]. cbn [map]. rewrite (proj1 (to_scalar_spec r) Hr), IH. reflexivity.
Qed.
(** a string survives exactly if it is valid UTF-8: a sequence of encoded scalar values *)
Theorem string_roundtrip_iff s : Forall is_byte s ->
  (exists rs, conv BStr BRunes (VStr s) = Some (VRunes rs) /\ conv BRunes BStr (VRunes rs) = Some (VStr s)) <-> exists rs, Forall scalar rs /\ s = flat_map encode_rune rs.
Proof.
  intros H. destruct (convert_others ff pf oob) as (_ & _ & _ & _ & H5 & H6). split.
  - intros (rs & E1 & E2). rewrite H5 in E1. injection E1 as <-. rewrite H6 in E2. injection E2 as E2. exists (string_to_runes s). split; [apply string_to_runes_scalar; exact H|]. symmetry. exact E2.
  - intros (rs & S & ->). exists rs. rewrite H5, H6. change (flat_map encode_rune rs) with (runes_to_string rs). rewrite runes_roundtrip by exact S. split; reflexivity.
Qed.
(** decoding: an encoded scalar value at the front gives that rune, and if there is none the first byte gives U+FFFD *)
Theorem string_runes_exact s rs : Forall is_byte s -> conv BStr BRunes (VStr s) = Some (VRunes rs) ->
  (s = [] -> rs = []) /\
  (forall r t, s = encode_rune r ++ t -> scalar r -> exists rs', rs = r :: rs' /\ conv BStr BRunes (VStr t) = Some (VRunes rs')) /\
  (forall a t, s = a :: t -> (forall r t', scalar r -> s <> encode_rune r ++ t') -> exists rs', rs = 65533 :: rs' /\ conv BStr BRunes (VStr t) = Some (VRunes rs')).
Proof.
  intros H E. destruct (convert_others ff pf oob) as (_ & _ & _ & _ & H5 & _). rewrite H5 in E. injection E as <-. split; [intros ->; reflexivity|]. split.
  - intros r t -> S. exists (string_to_runes t). rewrite H5. apply Forall_app in H as [_ H]. rewrite decode_encode_cons by assumption. split; reflexivity.
  - intros a t -> N. exists (string_to_runes t). rewrite H5. split; [|reflexivity]. apply (decode_bad (a :: t) a t eq_refl); [|exact H].
    destruct (decode_rune_sound (a :: t) ltac:(discriminate) H) as [D|(r & t' & _ & E & S)]; [exact D|]. exfalso. exact (N r t' S E).
Qed.

(** C96: an integer through a float.  It comes back if it has at most 53 (24) bits *)
Theorem integer_float_partial T t F x : nty_ity T = Some t -> in_ity t x -> (F = F64 /\ Z.abs x <= 2^53 \/ F = F32 /\ Z.abs x <= 2^24) ->
  exists f, conv (BNum T) (BNum F) (VInt x) = Some (VFloat f) /\ conv (BNum F) (BNum T) (VFloat f) = Some (VInt x).
Proof.
  intros HT Hx HF. rewrite convert_num. assert (HF' : nty_ity F = None) by (destruct HF as [[-> _]|[-> _]]; reflexivity). unfold conv_num at 1. rewrite HF'. eexists. split; [reflexivity|].
  rewrite convert_num. unfold conv_num. rewrite HT. f_equal. f_equal. unfold float_to_int.
  assert (E : float_trunc (int_to_float (nty_prec F).1 (nty_prec F).2 x) = Some x).
  { destruct HF as [[-> B]|[-> B]]; cbn [nty_prec fst snd].
    - destruct (decide (x = 2^53)) as [->|]; [vm_compute; reflexivity|]. destruct (decide (x = - 2^53)) as [->|]; [vm_compute; reflexivity|]. apply int_float_int; unfold prec64, emax64; lia.
    - destruct (decide (x = 2^24)) as [->|]; [vm_compute; reflexivity|]. destruct (decide (x = - 2^24)) as [->|]; [vm_compute; reflexivity|]. apply int_float_int; unfold prec32, emax32; lia. }
  rewrite E. apply fits_spec in Hx. rewrite Hx. reflexivity.
Qed.
Theorem integer_float_refuted :
  exists f, conv (BNum IInt) (BNum F64) (VInt (2^53 + 1)) = Some (VFloat f) /\ conv (BNum F64) (BNum IInt) (VFloat f) = Some (VInt (2^53)).
Proof. eexists. rewrite !convert_num. split; reflexivity. Qed.

(** C97: floats between the formats, and to themselves *)
Theorem float_same F f : (F = F64 /\ valid_binary prec64 emax64 f = true \/ F = F32 /\ valid_binary prec32 emax32 f = true) -> conv (BNum F) (BNum F) (VFloat f) = Some (VFloat f).
Proof. intros H. rewrite convert_num. destruct H as [[-> H]|[-> H]]; cbn [conv_num nty_ity nty_prec fst snd]; rewrite same_format by exact H; reflexivity. Qed.
Theorem float32_float64 f : valid_binary prec32 emax32 f = true ->
  exists g, conv (BNum F32) (BNum F64) (VFloat f) = Some (VFloat g) /\ conv (BNum F64) (BNum F32) (VFloat g) = Some (VFloat f).
Proof. intros H. rewrite convert_num. eexists. split; [reflexivity|]. rewrite convert_num. cbn [conv_num nty_ity nty_prec fst snd]. rewrite f32_f64_f32 by exact H. reflexivity. Qed.
(** float to string and back, if strconv keeps its promise for float64 *)
Theorem float_string F f : (forall g, valid_binary prec64 emax64 g = true -> pf (ff g) = g) ->
  (F = F64 /\ valid_binary prec64 emax64 f = true \/ F = F32 /\ valid_binary prec32 emax32 f = true) ->
  exists s, conv (BNum F) BStr (VFloat f) = Some (VStr s) /\ conv BStr (BNum F) (VStr s) = Some (VFloat f).
Proof.
  intros P H. rewrite convert_num_str. assert (HF : nty_ity F = None) by (destruct H as [[-> _]|[-> _]]; reflexivity). unfold conv_to_string. rewrite HF. eexists. split; [reflexivity|].
  rewrite convert_str_num. unfold conv_from_string. rewrite HF. destruct H as [[-> H]|[-> H]]; cbn [nty_prec fst snd].
  - rewrite (same_format prec64 emax64 f H), P by exact H. rewrite same_format by exact H. reflexivity.
  - rewrite P by (apply f32_f64_valid; exact H). rewrite f32_f64_f32 by exact H. reflexivity.
Qed.
(** C99: text to float32 is not correctly rounded: it is rounded twice *)
Theorem string_float32_refuted : (forall y, - 2^63 <= y < 2^63 -> pf (format_int y) = int_to_float prec64 emax64 y) ->
  exists x f, conv BStr (BNum F32) (VStr (format_int x)) = Some (VFloat f) /\ f <> int_to_float prec32 emax32 x.
Proof.
  intros P. exists (2^53 + 2^29 + 1). rewrite convert_str_num. eexists. split; [reflexivity|]. rewrite P by lia. vm_compute. discriminate.
Qed.
(** for the integers that float64 holds exactly, the two roundings are as good as one *)
Theorem string_float32_partial x : (forall y, - 2^63 <= y < 2^63 -> pf (format_int y) = int_to_float prec64 emax64 y) -> - 2^53 <= x <= 2^53 ->
  conv BStr (BNum F32) (VStr (format_int x)) = Some (VFloat (int_to_float prec32 emax32 x)) /\ conv BStr (BNum F32) (VStr (format_int x)) = conv (BNum IInt) (BNum F32) (VInt x).
Proof.
  intros P Hx. rewrite convert_str_num, convert_num. cbn [conv_num conv_from_string nty_ity nty_prec fst snd]. rewrite P by lia.
  assert (E : float_to_float prec32 emax32 (int_to_float prec64 emax64 x) = int_to_float prec32 emax32 x).
  { destruct (decide (x = 2^53)) as [->|]; [vm_compute; reflexivity|]. destruct (decide (x = - 2^53)) as [->|]; [vm_compute; reflexivity|]. apply int_twice. lia. }
  rewrite E. split; reflexivity.
Qed.
End builtin.
Print Assumptions builtin_pairs.
Print Assumptions builtin_once.
Print Assumptions integer_conversion.
Print Assumptions integer_range.
Print Assumptions integer_roundtrip.
Print Assumptions integer_string.
Print Assumptions string_uint_exact.
Print Assumptions string_int_exact.
Print Assumptions string_in_range_partial.
Print Assumptions string_errors_refuted.
Print Assumptions bool_string.
Print Assumptions bool_number.
Print Assumptions number_bool.
Print Assumptions float_bool.
Print Assumptions other_same.
Print Assumptions string_bool.
Print Assumptions string_bytes.
Print Assumptions runes_string.
Print Assumptions runes_roundtrip_iff.
Print Assumptions string_roundtrip_iff.
Print Assumptions string_runes_exact.
Print Assumptions integer_float_partial.
Print Assumptions integer_float_refuted.
Print Assumptions float_same.
Print Assumptions float32_float64.
Print Assumptions float_string.
Print Assumptions string_float32_refuted.
Print Assumptions string_float32_partial.
Example integers_ex : in_ity (Ity true 8) (-5) /\ wrap (Ity false 16) (-5) = 65531 /\ wrap (Ity true 8) 65531 = -5 /\ format_int (-120) = [45; 49; 50; 48] /\ dec_val [49; 50; 48] = 120.
Proof. cbn. repeat split; reflexivity || lia. Qed.
Example strings_ex : is_sign [43] /\ (parse_int [43; 57; 57]).1 = 99 /\ clamp (10^30) = 2^63 - 1 /\ string_to_integer (Ity true 64) (repeat 57 30) = 2^63 - 1.
Proof. split; [right; left; reflexivity|]. repeat split; reflexivity. Qed.
Example runes_ex : Forall scalar [97; 228; 8364; 128512] /\ runes_to_string [97; 228; 8364; 128512; -1; 55296] = [97; 195; 164; 226; 130; 172; 240; 159; 152; 128; 239; 191; 189; 239; 191; 189] /\
  string_to_runes [97; 195; 164; 255; 237; 160; 128; 226; 130] = [97; 228; 65533; 65533; 65533; 65533; 65533; 65533].
Proof. split; [repeat constructor; unfold scalar; lia|]. split; reflexivity. Qed.
(* a FormatFloat and a ParseFloat that meet the hypothesis of float_string *)
Example format_float_ex : exists (ff : spec_float -> list Z) (pf : list Z -> spec_float), forall g, valid_binary prec64 emax64 g = true -> pf (ff g) = g.
Proof.
  exists (fun f => match f with S754_zero b => [0; Z.b2z b] | S754_infinity b => [1; Z.b2z b] | S754_nan => [] | S754_finite b m e => [2; Z.b2z b; Zpos m; e] end).
  exists (fun s => match s with [0; b] => S754_zero (b =? 1) | [1; b] => S754_infinity (b =? 1) | [2; b; m; e] => S754_finite (b =? 1) (Z.to_pos m) e | _ => S754_nan end).
  intros [[]|[]| |[] m e] _; reflexivity.
Qed.
(* a ParseFloat that meets the hypothesis of C99 *)
Example parse_float_ex : exists pf : list Z -> spec_float, forall y, - 2^63 <= y < 2^63 -> pf (format_int y) = int_to_float prec64 emax64 y.
Proof. exists (fun s => int_to_float prec64 emax64 (parse_int s).1). intros y Hy. rewrite parse_int_format by exact Hy. reflexivity. Qed.
Example floats_ex : valid_binary prec32 emax32 (int_to_float prec32 emax32 16777217) = true /\ valid_binary prec64 emax64 (S754_finite true 1 (-1074)) = true /\ float_trunc (int_to_float prec64 emax64 (-7)) = Some (-7).
Proof. repeat split; reflexivity. Qed.
(** each theorem on a case that meets its hypotheses *)
Notation nff := (fun _ : spec_float => []). Notation npf := (fun _ : list Z => S754_nan). Notation noob := (fun (_ : ity) (_ : spec_float) => 0).
Lemma small_i64 : in_ity (Ity true 64) (-120). Proof. split; vm_compute; discriminate || reflexivity. Qed.
Example registry_latest_case := registry_latest reg_ops (proj1 registry_ex).
Example registry_interface_nil_case := registry_interface_nil_partial (V:=Z) no_converters tI tB (fun x => x + 1) 5 eq_refl.
Example registry_interface_result_case := registry_interface_result_partial (V:=Z) no_converters tA tI (fun x => x + 1) 5 eq_refl.
Example registry_interface_never_case := fun rs m H => registry_interface_never [ORegister tI tB (fun x => x + 1)] rs m tI tB tA 5 H eq_refl.
Example integer_conversion_case := integer_conversion nff npf noob I64 _ U16 _ (-5) eq_refl eq_refl.
Example integer_range_case := integer_range nff npf noob I64 _ I8 (-128) 127 (-5) ltac:(left) eq_refl.
Example integer_roundtrip_case := integer_roundtrip nff npf noob I64 _ U64 _ (-120) (2^64 - 120) eq_refl eq_refl small_i64 ltac:(left; discriminate) eq_refl.
Example integer_string_case := integer_string nff npf noob I64 _ (-120) eq_refl small_i64.
Example string_uint_case := string_uint_exact nff npf noob U16 _ [49; 50; 120] eq_refl eq_refl.
Example string_int_case := string_int_exact nff npf noob I16 _ [45; 49; 50] eq_refl eq_refl.
Example string_in_range_case := string_in_range_partial nff npf noob I64 _ [45] [49; 50; 48] (-120) eq_refl ltac:(right; right; reflexivity) ltac:(discriminate) ltac:(discriminate) ltac:(repeat constructor; vm_compute; discriminate) eq_refl small_i64.
Example runes_string_case := runes_string nff npf noob [97; 8364; -1] ltac:(repeat constructor; vm_compute; discriminate).
Example runes_roundtrip_case := runes_roundtrip_iff nff npf noob [97; 8364; -1] ltac:(repeat constructor; vm_compute; discriminate).
Example string_roundtrip_case := string_roundtrip_iff nff npf noob [97; 195; 164; 255] ltac:(repeat constructor; vm_compute; discriminate).
Example string_runes_case := string_runes_exact nff npf noob [97; 195; 164; 255] _ ltac:(repeat constructor; vm_compute; discriminate) eq_refl.
Example integer_float_case := integer_float_partial nff npf noob I64 _ F32 (-120) eq_refl small_i64 ltac:(right; split; [reflexivity|vm_compute; discriminate]).
Example float_same_case := float_same nff npf noob F64 (S754_finite true 1 (-1074)) ltac:(left; split; reflexivity).
Example float32_float64_case := float32_float64 nff npf noob (int_to_float prec32 emax32 16777217) eq_refl.
