(** C150, C151: text to float and float to text, with Go's strconv written out. *)
From Verif Require Import Base ConvModel ConvProofs ConvProofs2 ConvFloat ConvNearest ConvProps ConvNearestProps StrconvModel StrconvRound StrconvParse StrconvShape StrconvFormat.
From Coq Require Import Floats.SpecFloat ZArith.
Local Open Scope Z.

(** *** Numerals and what they stand for *)
Definition signed_as (sgn : list Z) (n : bool) : Prop := sgn = [] /\ n = false \/ sgn = [43] /\ n = false \/ sgn = [45] /\ n = true.
(** no point; or a point with these digits after it *)
Definition after_point (fp fd : list Z) : Prop := fp = [] /\ fd = [] \/ fp = 46 :: fd.
(** no exponent; or a letter, a sign and digits *)
Definition exponent (letters : list Z) (ex : list Z) (x : Z) : Prop :=
  exists c es n ed, ex = c :: es ++ ed /\ c ∈ letters /\ signed_as es n /\ ed <> [] /\ Forall is_digit ed /\ x = if n then - dec_val ed else dec_val ed.
(** s is a sign, digits with or without a point, an exponent with value x or none; without
    the sign it stands for M * 10^E *)
Definition decimal (s : list Z) (n : bool) (M E x : Z) : Prop :=
  exists sgn ip fp fd ex, s = sgn ++ ip ++ fp ++ ex /\ signed_as sgn n /\ Forall is_digit ip /\ after_point fp fd /\ Forall is_digit fd /\ ip ++ fd <> [] /\
    (ex = [] /\ x = 0 \/ exponent [101; 69] ex x) /\ M = dec_val (ip ++ fd) /\ E = x - Z.of_nat (length fd).
(** the same in base sixteen, for M * 2^E; the exponent is not optional *)
Definition hex_digit (c : Z) : Prop := 48 <= c <= 57 \/ 65 <= c <= 70 \/ 97 <= c <= 102.
Definition hex_val (ds : list Z) : Z := foldl (fun n c => 16 * n + (if c <=? 57 then c - 48 else if c <=? 70 then c - 55 else c - 87)) 0 ds.
Definition hexadecimal (s : list Z) (n : bool) (M E x : Z) : Prop :=
  exists sgn y ip fp fd ex, s = sgn ++ [48; y] ++ ip ++ fp ++ ex /\ signed_as sgn n /\ (y = 120 \/ y = 88) /\ Forall hex_digit ip /\ after_point fp fd /\ Forall hex_digit fd /\ ip ++ fd <> [] /\
    exponent [112; 80] ex x /\ M = hex_val (ip ++ fd) /\ E = x - 4 * Z.of_nat (length fd).
(** [M * b^E] as a fraction *)
Definition num_of (b M E : Z) : Z := M * b^(Z.max E 0).
Definition den_of (b E : Z) : Z := b^(Z.max (- E) 0).
(** f is the float64 nearest to N / D, or to - N / D; of two the even one; infinite from
    half a step above the largest *)
Definition rounds_to (f : spec_float) (n : bool) (N D : Z) : Prop :=
  let x := (if n then - N else N) * 2^1074 in
  of_type F64 f /\ neg f = n /\ (N = 0 -> f = S754_zero n) /\ (overflow F64 * D <= N * 2^1074 -> f = S754_infinity n) /\
  (N * 2^1074 < overflow F64 * D -> finite f /\ forall g, finite g -> of_type F64 g ->
     Z.abs (amount f * D - x) <= Z.abs (amount g * D - x) /\
     (Z.abs (amount f * D - x) = Z.abs (amount g * D - x) -> amount g = amount f \/ match f with S754_finite _ m _ => Z.even (Zpos m) | _ => true end = true)).
(** in capitals or not *)
Definition uncap (c : Z) : Z := if (65 <=? c) && (c <=? 90) then c + 32 else c.
Definition infinity_text (s : list Z) (n : bool) : Prop := exists sgn w, s = sgn ++ w /\ signed_as sgn n /\ (map uncap w = [105; 110; 102] \/ map uncap w = [105; 110; 102; 105; 110; 105; 116; 121]).
Definition nan (s : list Z) : Prop := map uncap s = [110; 97; 110].
Definition no_underscores (s : list Z) : list Z := List.filter (fun c => negb (c =? 95)) s.

(** *** Lemmas *)
Lemma signed_sign sgn n : signed_as sgn n <-> is_sign sgn /\ n = sgn_neg sgn.
Proof. unfold signed_as, is_sign. split; [intros [[-> ->]|[[-> ->]|[-> ->]]]; auto|intros [[->|[->| ->]] ->]; auto]. Qed.
Lemma signed_of es n : signed_as es n -> sign_of es = if n then -1 else 1.
Proof. intros [[-> ->]|[[-> ->]|[-> ->]]]; reflexivity. Qed.
Lemma hex_digit_iff c : hex_digit c <-> isd true c = true.
Proof. rewrite isd_iff. unfold hex_digit, is_digit. intuition. Qed.
Lemma hex_num ds : Forall hex_digit ds -> num true 0 ds = hex_val ds.
Proof.
  unfold hex_val. generalize 0. induction ds as [|c ds IH]; intros n H; [reflexivity|]. apply Forall_cons in H as [Hc H]. cbn [foldl]. rewrite <- IH by exact H. unfold num at 1. cbn [foldl]. f_equal. replace (n * 16) with (16 * n) by lia. f_equal. unfold dv, hex_digit in *.
  destruct (dec_digit c) eqn:E; [apply dec_digit_iff in E; unfold is_digit in E; destruct (Z.leb_spec c 57); lia|]. assert (N : ~ is_digit c) by (rewrite <- dec_digit_iff; congruence). unfold is_digit in N.
  destruct (Z.leb_spec c 57); [lia|]. destruct (Z.leb_spec c 70).
  - rewrite (proj2 (lower_letter c (c + 32) ltac:(lia))) by lia. lia.
  - rewrite (proj2 (lower_letter c c ltac:(lia))) by auto. lia.
Qed.
Lemma exp_letters (hex : bool) c : c ∈ (if hex then [112; 80] else [101; 69]) <-> e_char hex c = true.
Proof. rewrite e_char_iff. destruct hex; rewrite !elem_of_cons, elem_of_nil; intuition. Qed.
Lemma exponent_form hex ex x : exponent (if hex : bool then [112; 80] else [101; 69]) ex x <-> exists e, ex = expo (Some e) /\ expo_ok hex (Some e) /\ x = let '(_, es, ed) := e in sign_of es * dec_val ed.
Proof.
  split.
  - intros (c & es & n & ed & -> & Hc & Hs & Hn & Hd & ->). exists (c, es, ed). split; [reflexivity|]. apply exp_letters in Hc. pose proof Hs as Hs'. apply signed_sign in Hs' as [Hs' _]. split; [cbn; auto|]. rewrite (signed_of es n Hs). destruct n; lia.
  - intros ([[c es] ed] & -> & (Hc & Hs & Hn & Hd) & ->). exists c, es, (sgn_neg es), ed. split; [reflexivity|]. split; [apply exp_letters; exact Hc|]. assert (S : signed_as es (sgn_neg es)) by (apply signed_sign; auto). split; [exact S|]. split; [exact Hn|]. split; [exact Hd|]. rewrite (signed_of es _ S). destruct (sgn_neg es); lia.
Qed.
Definition frac_opt (fp fd : list Z) : option (list Z) := match fp with [] => None | _ => Some fd end.
Lemma after_point_form fp fd : after_point fp fd -> match frac_opt fp fd with Some f => 46 :: f | None => [] end = fp /\ frac (frac_opt fp fd) = fd.
Proof. intros [[-> ->]| ->]; split; reflexivity. Qed.
(** the exponent that is read *)
Definition read_x (x : Z) (ex : list Z) (e : option (Z * list Z * list Z)) : Prop :=
  ex = expo e /\ (e = None /\ x = 0 \/ exists c es ed, e = Some (c, es, ed) /\ is_sign es /\ Forall is_digit ed /\ ed <> [] /\ x = sign_of es * dec_val ed).
Lemma decimal_numeral s n M E x : decimal s n M E x -> exists l, s = l_text l /\ l_ok l /\ l_hex l = None /\ sgn_neg (l_sgn l) = n /\ num false 0 (l_int l ++ frac (l_frac l)) = M /\
  E = x - Z.of_nat (length (frac (l_frac l))) /\ (length (frac (l_frac l)) + length (l_int l) <= length s)%nat /\ read_x x (expo (l_exp l)) (l_exp l).
Proof.
  intros (sgn & ip & fp & fd & ex & -> & Hs & Hi & Hf & Hd & Hn & Hx & -> & ->). apply signed_sign in Hs as [Hs ->]. destruct (after_point_form fp fd Hf) as [F1 F2].
  assert (He : exists e, ex = expo e /\ expo_ok false e /\ read_x x (expo e) e).
  { destruct Hx as [[-> ->]|Hx]; [exists None; split; [reflexivity|]; split; [reflexivity|]; split; [reflexivity|left; auto]|]. apply (exponent_form false) in Hx as ([[c es] ed] & -> & Hok & ->). exists (Some (c, es, ed)). split; [reflexivity|]. split; [exact Hok|]. split; [reflexivity|]. right.
    destruct Hok as (_ & H1 & H2 & H3). exists c, es, ed. auto. }
  destruct He as (e & -> & Hok & Hrx). exists (Numeral sgn None ip (frac_opt fp fd) e). unfold l_text, l_ok. cbn [l_sgn l_hex l_int l_frac l_exp is_hex pre app]. unfold body. rewrite F1, F2. rewrite <- !app_assoc.
  split; [reflexivity|]. split; [rewrite !all_d_dec; repeat split; auto|]. split; [reflexivity|]. split; [reflexivity|]. split; [apply num_dec; apply Forall_app; auto|]. split; [reflexivity|]. split; [|exact Hrx].
  rewrite !app_length. destruct Hf as [[-> ->]| ->]; cbn [length]; lia.
Qed.
Lemma hexadecimal_numeral s n M E x : hexadecimal s n M E x -> exists l, s = l_text l /\ l_ok l /\ is_hex (l_hex l) = true /\ sgn_neg (l_sgn l) = n /\ num true 0 (l_int l ++ frac (l_frac l)) = M /\
  E = x - 4 * Z.of_nat (length (frac (l_frac l))) /\ (length (frac (l_frac l)) + length (l_int l) <= length s)%nat /\ read_x x (expo (l_exp l)) (l_exp l).
Proof.
  intros (sgn & y & ip & fp & fd & ex & -> & Hs & Hy & Hi & Hf & Hd & Hn & Hx & -> & ->). apply signed_sign in Hs as [Hs ->]. destruct (after_point_form fp fd Hf) as [F1 F2].
  apply (exponent_form true) in Hx as ([[c es] ed] & -> & Hok & ->). exists (Numeral sgn (Some y) ip (frac_opt fp fd) (Some (c, es, ed))). unfold l_text, l_ok. cbn [l_sgn l_hex l_int l_frac l_exp is_hex pre app]. unfold body. rewrite F1, F2. rewrite <- !app_assoc.
  assert (Hall : forall l, Forall hex_digit l -> all_d true l) by (intros l H; eapply Forall_impl; [exact H|intros z; apply hex_digit_iff]).
  split; [reflexivity|]. split; [repeat split; auto; apply Hok|]. split; [reflexivity|]. split; [reflexivity|]. split; [apply hex_num; apply Forall_app; auto|]. split; [reflexivity|]. split.
  - rewrite !app_length. cbn [length]. rewrite !app_length. destruct Hf as [[-> ->]| ->]; cbn [length]; lia.
  - split; [reflexivity|]. right. destruct Hok as (_ & H1 & H2 & H3). exists c, es, ed. auto.
Qed.
Lemma numeral_decimal l : l_ok l -> l_hex l = None -> exists n M E x, decimal (l_text l) n M E x.
Proof.
  intros (H1 & H2 & H3 & H4 & _ & H6) Hh. unfold l_text. rewrite Hh in *. cbn [is_hex pre app] in *. apply all_d_dec in H2, H3.
  assert (Hx : exists x, expo (l_exp l) = [] /\ x = 0 \/ exponent [101; 69] (expo (l_exp l)) x).
  { destruct (l_exp l) as [e|]; [|exists 0; left; auto]. eexists. right. apply (exponent_form false). exists e. split; [reflexivity|]. split; [exact H6|reflexivity]. }
  destruct Hx as (x & Hx). exists (sgn_neg (l_sgn l)), (dec_val (l_int l ++ frac (l_frac l))), (x - Z.of_nat (length (frac (l_frac l)))), x.
  exists (l_sgn l), (l_int l), (match l_frac l with Some f => 46 :: f | None => [] end), (frac (l_frac l)), (expo (l_exp l)). unfold body. rewrite <- app_assoc.
  split; [reflexivity|]. split; [apply signed_sign; auto|]. split; [exact H2|]. split; [destruct (l_frac l); [right|left]; auto|]. split; [exact H3|]. auto.
Qed.
Lemma numeral_hexadecimal l : l_ok l -> l_hex l <> None -> exists n M E x, hexadecimal (l_text l) n M E x.
Proof.
  intros (H1 & H2 & H3 & H4 & H5 & H6) Hh. unfold l_text. destruct (l_hex l) as [y|]; [|congruence]. cbn [is_hex pre app] in *.
  destruct (l_exp l) as [e|]; [|discriminate H6]. exists (sgn_neg (l_sgn l)), (hex_val (l_int l ++ frac (l_frac l))). do 2 eexists.
  exists (l_sgn l), y, (l_int l), (match l_frac l with Some f => 46 :: f | None => [] end), (frac (l_frac l)), (expo (Some e)). unfold body. rewrite <- app_assoc.
  assert (Hall : forall l, all_d true l -> Forall hex_digit l) by (intros l0 H; eapply Forall_impl; [exact H|intros z; apply hex_digit_iff]).
  split; [reflexivity|]. split; [apply signed_sign; auto|]. split; [exact H5|]. split; [auto|]. split; [destruct (l_frac l); [right|left]; auto|]. split; [auto|]. split; [exact H4|].
  split; [apply (exponent_form true); exists e; split; [reflexivity|]; split; [exact H6|reflexivity]|]. split; reflexivity.
Qed.

Lemma rounds_ratio n N D : 0 <= N -> 0 < D -> rounds_to (round_ratio n N D) n N D.
Proof.
  intros HN HD. destruct (Z.eq_dec N 0) as [->|N0].
  - assert (E : round_ratio n 0 D = S754_zero n) by reflexivity. rewrite E. split; [reflexivity|]. split; [reflexivity|]. split; [reflexivity|]. split.
    + intros H. exfalso. assert (0 < overflow F64) by reflexivity. set (o := overflow F64) in *. clearbody o. nia.
    + intros _. split; [exact I|]. intros g _ _. cbn [amount]. split; [destruct n; lia|]. intros H. right. reflexivity.
  - destruct (ratio_nearest n N D ltac:(lia) HD) as (V & HI & HF). set (f := round_ratio n N D) in *. clearbody f.
    assert (HO : overflow F64 * D <= N * 2^1074 <-> (2^54 - 1) * 2^970 * D <= N).
    { change (overflow F64) with ((2^54 - 1) * 2^970 * 2^1074). set (K := (2^54 - 1) * 2^970). assert (HU : 0 < 2^1074) by (apply Z.pow_pos_nonneg; lia). set (U := 2^1074) in *. clearbody K U. replace (K * U * D) with (K * D * U) by ring. rewrite <- Z.mul_le_mono_pos_r by exact HU. reflexivity. }
    split; [exact V|]. destruct (Z.le_gt_cases (overflow F64 * D) (N * 2^1074)) as [L|L].
    + assert (Ef : f = S754_infinity n) by (apply HI, HO, L). rewrite Ef. split; [reflexivity|]. split; [lia|]. split; [reflexivity|]. intros F. lia.
    + assert (Ef : f <> S754_infinity n) by (intros F; apply HI, HO in F; lia). destruct (HF Ef) as (F1 & F2 & F3). split; [destruct f; try contradiction; exact F2|]. split; [lia|]. split; [lia|]. intros _. split; [destruct f; auto|].
      intros g Hg Vg. rewrite !amount_units. replace ((if n then - N else N) * 2^1074) with (sg n * (N * 2^1074)) by (unfold sg; destruct n; ring). exact (F3 g ltac:(destruct g; auto) Vg).
Qed.
(** far above and far below *)
Lemma rounds_big n N D : 0 < D -> 2^1024 * D <= N -> rounds_to (S754_infinity n) n N D.
Proof.
  intros HD H. assert (O : overflow F64 <= 2^1024 * 2^1074) by (vm_compute; discriminate). set (U := 2^1074) in *. assert (HU : 0 < U) by (apply Z.pow_pos_nonneg; lia). set (X := 2^1024) in *. set (o := overflow F64) in *. assert (0 < X) by (apply Z.pow_pos_nonneg; lia).
  assert (L : o * D <= N * U) by (clearbody U X o; nia). split; [reflexivity|]. split; [reflexivity|]. split; [intros ->; clearbody X; nia|]. split; [reflexivity|]. fold U o. intros F. lia.
Qed.
Lemma rounds_small n N D : 0 < D -> 0 <= N -> N * 2^1075 < D -> rounds_to (S754_zero n) n N D.
Proof.
  intros HD HN H. change (2^1075) with (2 * 2^1074) in H. unfold rounds_to. set (U := 2^1074) in *. assert (HU : 0 < U) by (apply Z.pow_pos_nonneg; lia). assert (O : 1 <= overflow F64) by (vm_compute; discriminate). set (o := overflow F64) in *. clearbody U o.
  split; [reflexivity|]. split; [reflexivity|]. split; [reflexivity|]. split; [intros L; exfalso; nia|]. intros _. split; [exact I|]. intros g _ _. cbn [amount]. split; [|intros _; right; reflexivity].
  assert (G : amount g = 0 \/ D <= Z.abs (amount g * D)) by (destruct (Z.eq_dec (amount g) 0); [auto|right; rewrite Z.abs_mul, (Z.abs_eq D) by lia; nia]). destruct G as [->|G]; [lia|]. destruct n; lia.
Qed.
Lemma pow_split b E k : 0 < b -> b^(Z.max (E + k) 0) * b^(Z.max (- E) 0) = b^(Z.max E 0) * b^(Z.max (- (E + k)) 0) * b^k \/ k < 0.
Proof. intros Hb. destruct (Z.le_gt_cases 0 k); [|auto]. left. rewrite <- !Z.pow_add_r by lia. f_equal. lia. Qed.
(** the exponent that is read, and the real one *)
Lemma rounds_exponent n b M x x' sh K : b = 2 \/ b = 10 -> 0 <= M < b^K -> 0 <= K -> 0 <= sh <= K ->
  (x = x' \/ (K + 2000 <= x /\ K + 2000 <= x') \/ (x <= - (K + 2000) /\ x' <= - (K + 2000))) ->
  rounds_to (round_exp n b M (x' - sh)) n (num_of b M (x - sh)) (den_of b (x - sh)).
Proof.
  intros Hb HM HK Hs [->|H].
  - assert (Hb0 : 0 < b) by lia. unfold round_exp, num_of, den_of. apply rounds_ratio; [apply Z.mul_nonneg_nonneg; [lia|apply Z.pow_nonneg; lia]|apply Z.pow_pos_nonneg; lia].
  - destruct (Z.eq_dec M 0) as [->|M0].
    + unfold round_exp, num_of, den_of. change (round_ratio n (0 * b^(Z.max (x' - sh) 0)) (b^(Z.max (- (x' - sh)) 0))) with (S754_zero n). apply rounds_small; [apply Z.pow_pos_nonneg; lia|lia|]. assert (0 < b^(Z.max (- (x - sh)) 0)) by (apply Z.pow_pos_nonneg; lia). lia.
    + assert (B2 : forall j, 0 <= j -> 2^j <= b^j) by (intros j Hj; apply Z.pow_le_mono_l; lia).
      assert (Up : forall k, K + 2000 <= k -> 0 < den_of b (k - sh) /\ 2^1024 * den_of b (k - sh) <= num_of b M (k - sh)).
      { intros k Hk. unfold num_of, den_of. rewrite (Z.max_r (- (k - sh))), Z.max_l by lia. change (b^0) with 1. split; [lia|]. pose proof (B2 (k - sh) ltac:(lia)). assert (2^1024 <= 2^(k - sh)) by (apply Z.pow_le_mono_r; lia). set (X := 2^1024) in *. clearbody X. nia. }
      assert (Dn : forall k, k <= - (K + 2000) -> 0 < den_of b (k - sh) /\ 0 <= num_of b M (k - sh) /\ num_of b M (k - sh) * 2^1075 < den_of b (k - sh)).
      { intros k Hk. unfold num_of, den_of. rewrite (Z.max_r (k - sh)), Z.max_l by lia. change (b^0) with 1. rewrite Z.mul_1_r. split; [apply Z.pow_pos_nonneg; lia|]. split; [lia|].
        replace (- (k - sh)) with (K + (- (k - sh) - K)) by lia. rewrite Z.pow_add_r by lia. pose proof (B2 (- (k - sh) - K) ltac:(lia)). assert (2^1075 <= 2^(- (k - sh) - K)) by (apply Z.pow_le_mono_r; lia). set (X := 2^1075) in *. assert (0 < X) by (apply Z.pow_pos_nonneg; lia). clearbody X. nia. }
      destruct H as [[H1 H2]|[H1 H2]].
      * destruct (Up x H1) as [U1 U2], (Up x' H2) as [U3 U4]. assert (E : round_exp n b M (x' - sh) = S754_infinity n); [|rewrite E; apply rounds_big; assumption].
        unfold round_exp. fold (num_of b M (x' - sh)) (den_of b (x' - sh)). assert (0 < num_of b M (x' - sh)) by (set (X := 2^1024) in *; assert (0 < X) by (apply Z.pow_pos_nonneg; lia); clearbody X; nia).
        apply (ratio_nearest n (num_of b M (x' - sh)) (den_of b (x' - sh)) ltac:(assumption) U3). eapply Z.le_trans; [|exact U4]. apply Z.mul_le_mono_nonneg_r; [lia|]. vm_compute. discriminate.
      * destruct (Dn x H1) as (U1 & U2 & U3), (Dn x' H2) as (U4 & U5 & U6). assert (E : round_exp n b M (x' - sh) = S754_zero n); [|rewrite E; apply rounds_small; assumption].
        unfold round_exp. fold (num_of b M (x' - sh)) (den_of b (x' - sh)). set (N' := num_of b M (x' - sh)) in *. set (D' := den_of b (x' - sh)) in *. destruct (Z.eq_dec N' 0) as [->|N0]; [reflexivity|].
        destruct (ratio_nearest n N' D' ltac:(lia) U4) as (V & HI & HF). set (f := round_ratio n N' D') in *. clearbody f.
        assert (Ef : f <> S754_infinity n). { intros F. apply HI in F. assert (1 <= (2^54 - 1) * 2^970) by (vm_compute; discriminate). set (K0 := (2^54 - 1) * 2^970) in *. assert (1 <= 2^1075) by (vm_compute; discriminate). set (X := 2^1075) in *. clearbody K0 X. nia. }
        destruct (HF Ef) as (F1 & F2 & F3). destruct (F3 (S754_zero n) I eq_refl) as [G _]. change (2^1075) with (2 * 2^1074) in U6. set (U := 2^1074) in *. assert (HU : 0 < U) by (apply Z.pow_pos_nonneg; lia). clearbody U.
        change (amt (S754_zero n)) with 0 in G. assert (A0 : amt f = 0).
        { destruct (Z.eq_dec (amt f) 0) as [|A]; [assumption|]. exfalso. assert (D' <= Z.abs (amt f * D')) by (rewrite Z.abs_mul, (Z.abs_eq D') by lia; nia). unfold sg in G. destruct n; lia. }
        destruct f as [s'|s'| |s' m e]; try contradiction; [rewrite F2; reflexivity|]. exfalso. apply valid64_iff in V. cbn [units] in A0. assert (0 < Zpos m * 2^(e - -1074)) by (apply Z.mul_pos_pos; [lia|apply Z.pow_pos_nonneg; lia]). destruct s'; lia.
Qed.
Lemma read_exponent x ex e : read_x x ex e -> expo_val e = x \/ (10000 <= x /\ 10000 <= expo_val e) \/ (x <= -10000 /\ expo_val e <= -10000).
Proof.
  intros [_ [[-> ->]|(c & es & ed & -> & Hs & Hd & Hn & ->)]]; [auto|]. cbn [expo_val]. unfold exp_val. destruct (exp_from_range ed Hd 0 ltac:(lia)) as [R1 R2]. change (dec_from 0 ed) with (dec_val ed) in R2.
  destruct (Z.lt_ge_cases (dec_val ed) 10000) as [L|L].
  - left. rewrite exp_from_small by (assumption || (change (dec_from 0 ed) with (dec_val ed); lia)). reflexivity.
  - right. specialize (R2 L). destruct Hs as [->|[->| ->]]; cbn [sign_of]; lia.
Qed.
Lemma read_exponent_small x ex e : read_x x ex e -> Z.abs x < 100000 -> expo_val e = x.
Proof.
  intros [_ [[-> ->]|(c & es & ed & -> & Hs & Hd & Hn & ->)]] Hx; [reflexivity|]. cbn [expo_val]. unfold exp_val. pose proof (dec_val_nonneg ed Hd).
  rewrite exp_from_small; [reflexivity|exact Hd|lia|]. change (dec_from 0 ed) with (dec_val ed). destruct Hs as [->|[->| ->]]; cbn [sign_of] in Hx; lia.
Qed.

Lemma round_tiny k : k <= -2000 -> round_exp false 10 1 k = S754_zero false.
Proof.
  intros Hk. assert (Hsm : rounds_to (round_exp false 10 1 k) false (num_of 10 1 k) (den_of 10 k)) by (apply rounds_ratio; [apply Z.mul_nonneg_nonneg; [lia|apply Z.pow_nonneg; lia]|apply Z.pow_pos_nonneg; lia]).
  destruct Hsm as (T1 & T2 & _ & _ & T5). assert (ND : num_of 10 1 k = 1) by (unfold num_of; rewrite Z.max_r by lia; reflexivity). rewrite ND in T5. assert (HD : 2^1075 < den_of 10 k).
  { unfold den_of. apply Z.lt_le_trans with (2^(Z.max (- k) 0)); [apply Z.pow_lt_mono_r; lia|apply Z.pow_le_mono_l; lia]. }
  set (D := den_of 10 k) in *. clearbody D. set (f := round_exp false 10 1 k) in *. clearbody f. assert (O : 1 <= overflow F64) by (vm_compute; discriminate). change (2^1075) with (2 * 2^1074) in HD.
  set (U := 2^1074) in *. assert (HU : 0 < U) by (apply Z.pow_pos_nonneg; lia). set (o := overflow F64) in *. clearbody U o. destruct (T5 ltac:(nia)) as [T6 T7]. destruct (T7 (S754_zero false) I eq_refl) as [G _]. change (amount (S754_zero false)) with 0 in G.
  destruct f as [s'|s'| |s' m e]; try contradiction; [cbn [neg] in T2; congruence|]. exfalso. cbn [of_type] in T1. apply valid64_iff in T1. cbn [amount neg] in *. subst s'. assert (1 <= 2^(e + 1074)) by (apply (Z.pow_le_mono_r 2 0); lia). rewrite Z.mul_1_l in G. assert (GD : D <= Zpos m * 2^(e + 1074) * D) by (clear - H HD HU; set (w := 2^(e + 1074)) in *; clearbody w; assert (1 <= Zpos m * w) by nia; set (mw := Zpos m * w) in *; clearbody mw; nia). set (X := Zpos m * 2^(e + 1074) * D) in *. clearbody X. clear T5 T7. lia.
Qed.

Section P.
Context (oob : ity -> spec_float -> Z).
Notation conv := (convert format_float parse_float oob).
Lemma conv_f64 s : conv BStr (BNum F64) (VStr s) = Some (VFloat (float_to_float 53 1024 (parse_float s))).
Proof. apply convert_str_num. Qed.
Lemma parse_valid s : valid64 (parse_float s) = true.
Proof.
  assert (R : forall n N D, valid64 (round_ratio n N D) = true).
  { intros n N D. unfold round_ratio. destruct (N =? 0); [reflexivity|]. pose proof (Z.log2_nonneg D). cbn zeta. match goal with |- context [Z.to_pos ?m] => pose proof (round_nearest 53 1024 ltac:(lia) ltac:(lia) n (Z.to_pos m) (- (1100 + Z.log2 D + 1)) (- (1100 + Z.log2 D + 1)) ltac:(lia)) as R end. unfold emin in R. specialize (R ltac:(lia)). cbn zeta in R. apply R. }
  unfold parse_float. destruct (special s) as [[f n]|] eqn:E.
  - destruct (Nat.eqb_spec n (length s)) as [->|]; [|reflexivity]. apply special_full in E as [(sgn & w & _ & _ & _ & ->)|[_ ->]]; reflexivity.
  - destruct (read_float s) as [x|]; [|reflexivity]. destruct (n_rest x); [apply R|reflexivity].
Qed.
Lemma conv_parse s : conv BStr (BNum F64) (VStr s) = Some (VFloat (parse_float s)).
Proof. rewrite conv_f64. rewrite same_format by apply parse_valid. reflexivity. Qed.

(** C150: A decimal numeral becomes the float64 nearest to the number it stands for, unless
    it is absurdly long (an exponent of 100000 or more, with thousands of digits to
    compensate it). *)
Theorem text_to_float64_partial s n M E x : decimal s n M E x -> Z.abs x < 100000 \/ Z.of_nat (length s) <= 7000 ->
  exists f, conv BStr (BNum F64) (VStr s) = Some (VFloat f) /\ rounds_to f n (num_of 10 M E) (den_of 10 E).
Proof.
  intros H Hx. apply decimal_numeral in H as (l & -> & Hl & Hh & Hn & HM & HE & HL & Hr). rewrite conv_parse. eexists. split; [reflexivity|]. rewrite parse_numeral by exact Hl. unfold l_val. rewrite Hh, Hn. cbn [is_hex]. rewrite HM, HE. rewrite Z.mul_1_l.
  assert (Hd : Forall is_digit (l_int l ++ frac (l_frac l))) by (destruct Hl as (_ & H2 & H3 & _); rewrite Hh in *; apply all_d_dec in H2, H3; apply Forall_app; auto). rewrite num_dec in HM by exact Hd. change (dec_from 0 (l_int l ++ frac (l_frac l))) with (dec_val (l_int l ++ frac (l_frac l))) in HM.
  pose proof (dec_val_lt _ Hd) as B. pose proof (dec_val_nonneg _ Hd) as B0. rewrite HM in B, B0. rewrite app_length in B.
  apply (rounds_exponent n 10 M x _ _ (Z.of_nat (length (l_int l) + length (frac (l_frac l))))); [auto|lia|lia|lia|].
  destruct Hx as [Hx|Hx]; [left; symmetry; eapply read_exponent_small; eassumption|]. destruct (read_exponent _ _ _ Hr) as [->|[?|?]]; [auto| |]; right; [left|right]; lia.
Qed.
Lemma hex_val_lt ds : Forall hex_digit ds -> forall n, 0 <= n -> 0 <= num true n ds < (n + 1) * 2^(4 * Z.of_nat (length ds)).
Proof.
  intros H. induction H as [|c ds Hc H IH]; intros n Hn; [cbn; lia|]. cbn [num foldl length]. assert (0 <= dv c < 16).
  { unfold dv, hex_digit in *. destruct (dec_digit c) eqn:E; [apply dec_digit_iff in E; unfold is_digit in E; lia|]. assert (N : ~ is_digit c) by (rewrite <- dec_digit_iff; congruence). unfold is_digit in N. destruct (Z.le_gt_cases c 70).
    - rewrite (proj2 (lower_letter c (c + 32) ltac:(lia))) by lia. lia.
    - rewrite (proj2 (lower_letter c c ltac:(lia))) by auto. lia. }
  specialize (IH (n * 16 + dv c) ltac:(lia)). replace (4 * Z.of_nat (S (length ds))) with (4 + 4 * Z.of_nat (length ds)) by lia. rewrite Z.pow_add_r by lia. change (2^4) with 16. assert (0 < 2^(4 * Z.of_nat (length ds))) by (apply Z.pow_pos_nonneg; lia).
  change (foldl (fun n c => n * 16 + dv c) (n * 16 + dv c) ds) with (num true (n * 16 + dv c) ds). nia.
Qed.
Theorem text_to_float64_hex_partial s n M E x : hexadecimal s n M E x -> Z.abs x < 100000 \/ Z.of_nat (length s) <= 1700 ->
  exists f, conv BStr (BNum F64) (VStr s) = Some (VFloat f) /\ rounds_to f n (num_of 2 M E) (den_of 2 E).
Proof.
  intros H Hx. apply hexadecimal_numeral in H as (l & -> & Hl & Hh & Hn & HM & HE & HL & Hr). rewrite conv_parse. eexists. split; [reflexivity|]. rewrite parse_numeral by exact Hl. unfold l_val.
  assert (Hc : (if l_hex l then 2 else 10) = 2 /\ (if l_hex l then 4 else 1) = 4) by (destruct (l_hex l); [auto|discriminate]). destruct Hc as [-> ->]. rewrite Hn, Hh, HM, HE.
  assert (Hd : Forall hex_digit (l_int l ++ frac (l_frac l))).
  { destruct Hl as (_ & H2 & H3 & _). rewrite Hh in *. apply Forall_app. split; (eapply Forall_impl; [eassumption|intros z; apply hex_digit_iff]). }
  pose proof (hex_val_lt _ Hd 0 ltac:(lia)) as B. rewrite HM in B. rewrite app_length in B.
  apply (rounds_exponent n 2 M x _ _ (4 * Z.of_nat (length (l_int l) + length (frac (l_frac l))))); [auto|lia|lia|lia|].
  destruct Hx as [Hx|Hx]; [left; symmetry; eapply read_exponent_small; eassumption|]. destruct (read_exponent _ _ _ Hr) as [->|[?|?]]; [auto| |]; right; [left|right]; lia.
Qed.
(** inf, infinity and nan *)
Theorem text_to_infinity s n : infinity_text s n -> conv BStr (BNum F64) (VStr s) = Some (VFloat (S754_infinity n)).
Proof.
  intros (sgn & w & -> & Hs & Hw). rewrite conv_parse. apply signed_sign in Hs as [Hs ->]. assert (E : special (sgn ++ w) = Some (S754_infinity (sgn_neg sgn), length (sgn ++ w))) by (apply special_full; left; exists sgn, w; auto).
  unfold parse_float. rewrite E, Nat.eqb_refl. reflexivity.
Qed.
Theorem text_to_nan s : nan s -> conv BStr (BNum F64) (VStr s) = Some (VFloat S754_nan).
Proof. intros H. rewrite conv_parse. assert (E : special s = Some (S754_nan, length s)) by (apply special_full; right; auto). unfold parse_float. rewrite E, Nat.eqb_refl. reflexivity. Qed.
(** Everything else becomes zero, and nobody hears of it.  Underscores are dropped, or
    make it zero. *)
Theorem text_otherwise_zero s : 95 ∉ s -> (forall n M E x, ~ decimal s n M E x) -> (forall n M E x, ~ hexadecimal s n M E x) -> (forall n, ~ infinity_text s n) -> ~ nan s ->
  conv BStr (BNum F64) (VStr s) = Some (VFloat (S754_zero false)).
Proof.
  intros Hu H1 H2 H3 H4. rewrite conv_parse. do 2 f_equal. destruct (parse_shape s Hu) as [E|[(f & E & _)|(l & -> & Hl)]]; [exact E| |].
  - exfalso. apply special_full in E as [(sgn & w & -> & Hs & Hw & _)|[E _]]; [|exact (H4 E)]. apply (H3 (sgn_neg sgn)). exists sgn, w. split; [reflexivity|]. split; [apply signed_sign; auto|exact Hw].
  - exfalso. destruct (l_hex l) eqn:Eh.
    + destruct (numeral_hexadecimal l Hl ltac:(congruence)) as (n & M & E & x & H). exact (H2 n M E x H).
    + destruct (numeral_decimal l Hl Eh) as (n & M & E & x & H). exact (H1 n M E x H).
Qed.
Theorem text_underscores s : conv BStr (BNum F64) (VStr s) = Some (VFloat (S754_zero false)) \/ conv BStr (BNum F64) (VStr s) = conv BStr (BNum F64) (VStr (no_underscores s)).
Proof. rewrite !conv_parse. destruct (parse_strip s) as [->|E]; [auto|right]. rewrite E. reflexivity. Qed.
(** letters are not a number: the caller gets a zero that looks like any other *)
Theorem text_error_refuted : exists s, (forall n M E x, ~ decimal s n M E x) /\ (forall n M E x, ~ hexadecimal s n M E x) /\ (forall n, ~ infinity_text s n) /\ ~ nan s /\
  conv BStr (BNum F64) (VStr s) = Some (VFloat (S754_zero false)) /\ conv BStr (BNum F64) (VStr s) = conv BStr (BNum F64) (VStr [48]).
Proof.
  exists [97; 98]. split; [|split; [|split; [|split; [|split; [rewrite conv_parse; reflexivity|rewrite !conv_parse; reflexivity]]]]].
  - intros n M E x (sgn & ip & fp & fd & ex & Es & Hs & Hi & Hf & Hd & Hn & _). assert (G : forall c, is_digit c -> c ∉ [97; 98]) by (intros c Hc; unfold is_digit in Hc; rewrite !elem_of_cons, elem_of_nil; lia). rewrite Es in G.
    destruct ip as [|c ip]; [destruct fd as [|c fd]; [exfalso; apply Hn; reflexivity|]; destruct Hf as [[_ F]|Hf]; [discriminate|]; apply Forall_cons in Hd as [Hc _]|apply Forall_cons in Hi as [Hc _]]; apply (G c Hc); rewrite ?Hf, !elem_of_app, !elem_of_cons; tauto.
  - intros n M E x (sgn & y & ip & fp & fd & ex & Es & _). assert (G : 48 ∉ [97; 98]) by (rewrite !elem_of_cons, elem_of_nil; lia). rewrite Es in G. apply G. rewrite !elem_of_app, !elem_of_cons. tauto.
  - intros n (sgn & w & Es & Hs & Hw). apply (f_equal length) in Es. rewrite app_length in Es. destruct Hw as [Hw|Hw]; apply (f_equal length) in Hw; rewrite map_length in Hw; cbn [length] in *; lia.
  - unfold nan. cbn. discriminate.
Qed.
(** to float32: by way of float64 *)
Theorem text_to_float32 s : exists f g, conv BStr (BNum F64) (VStr s) = Some (VFloat f) /\ conv (BNum F64) (BNum F32) (VFloat f) = Some (VFloat g) /\ conv BStr (BNum F32) (VStr s) = Some (VFloat g).
Proof. rewrite conv_parse, convert_str_num. do 2 eexists. split; [reflexivity|]. rewrite convert_num. split; reflexivity. Qed.
(** the exponent stops growing: this is the text of 1, and it becomes 0 *)
Lemma long_exponent (z : nat) : Z.of_nat z = 100000 -> exists s, decimal s false 1 0 100001 /\ conv BStr (BNum F64) (VStr s) = Some (VFloat (S754_zero false)).
Proof.
  intros Hz. set (fd := repeat 48 z ++ [49]). set (ed := [49; 48; 48; 48; 48; 49]).
  assert (Hfd : Forall is_digit fd) by (apply Forall_app; split; [clear; induction z; constructor; [unfold is_digit; lia|assumption]|constructor; [unfold is_digit; lia|constructor]]).
  assert (Hl : Z.of_nat (length fd) = 100001) by (unfold fd; rewrite app_length, repeat_length; cbn [length]; lia). assert (Hv : dec_val ([48] ++ fd) = 1) by (unfold fd; rewrite dec_val_app, dec_val_app, dec_val_zeros; reflexivity).
  assert (Hed : Forall is_digit ed) by (repeat constructor; unfold is_digit; lia). clearbody fd.
  set (l := Numeral [] None [48] (Some fd) (Some (101, [], ed))). exists (l_text l). split.
  - exists [], [48], (46 :: fd), fd, (101 :: ed). split; [unfold l_text, l, body; cbn [l_sgn l_hex l_int l_frac l_exp pre expo app]; reflexivity|]. split; [left; auto|]. split; [repeat constructor; unfold is_digit; lia|]. split; [right; reflexivity|]. split; [exact Hfd|]. split; [discriminate|].
    split; [right; exists 101, [], false, ed; split; [reflexivity|]; split; [constructor|]; split; [left; auto|]; split; [discriminate|]; split; [exact Hed|reflexivity]|]. split; [symmetry; exact Hv|]. lia.
  - rewrite conv_parse, parse_numeral.
    + do 2 f_equal. unfold l_val, l. cbn [l_sgn l_hex l_int l_frac l_exp sgn_neg is_hex frac]. rewrite num_dec by (apply Forall_app; split; [repeat constructor; unfold is_digit; lia|exact Hfd]). change (dec_from 0 ([48] ++ fd)) with (dec_val ([48] ++ fd)). rewrite Hv, Hl.
      assert (Ev : expo_val (Some (101, [], ed)) = 10000) by reflexivity. rewrite Ev. apply round_tiny. lia.
    + unfold l_ok, l. cbn [l_sgn l_hex l_int l_frac l_exp is_hex frac expo_ok]. split; [left; reflexivity|]. split; [apply all_d_dec; repeat constructor; unfold is_digit; lia|]. split; [apply all_d_dec; exact Hfd|]. split; [discriminate|]. split; [exact I|].
      split; [reflexivity|]. split; [left; reflexivity|]. split; [discriminate|exact Hed].
Qed.
Theorem text_long_exponent_refuted : exists s, decimal s false 1 0 100001 /\ conv BStr (BNum F64) (VStr s) = Some (VFloat (S754_zero false)).
Proof. apply (long_exponent (Z.to_nat 100000)). apply Z2Nat.id. lia. Qed.

(** *** C151: float to text *)
Lemma format_finite s m e : valid64 (S754_finite s m e) = true -> exists (L t : nat) c ds z,
  (t < L)%nat /\ 10^(Z.of_nat L - 1) <= Zpos m * unit10 e < 10^Z.of_nat L /\ shortest (Zpos m) e (pred L) = (c, t) /\ 0 < c /\ Forall is_digit ds /\ c = dec_val ds * 10^Z.of_nat z /\ (0 < length ds <= L - t)%nat /\ (exists c r, ds = c :: r /\ c <> 48) /\ (forall a c, ds = a ++ [c] -> c <> 48) /\
  format_float (S754_finite s m e) = l_text (fmt_numeral s ds (Z.of_nat (length ds) + Z.of_nat z + Z.of_nat t - dec_exp e)).
Proof.
  intros V. assert (Hn : 0 < Zpos m * unit10 e) by (pose proof (unit10_pos e); lia). destruct (dec_digits_len _ Hn) as [L0 L1]. set (L := length (dec_digits (Zpos m * unit10 e))) in *.
  pose proof (shortest_spec (Zpos m) e (pred L) ltac:(lia)) as S. cbn [format_float]. fold L. destruct (shortest (Zpos m) e (pred L)) as [c t] eqn:Es. destruct S as (S1 & S2 & S3 & S4).
  assert (Hp : 0 < 10^Z.of_nat t) by (apply pos10; lia). assert (Hd : 0 < down (Zpos m) e t < 10^Z.of_nat (L - t)).
  { unfold down. split.
    - assert (1 <= Zpos m * unit10 e / 10^Z.of_nat t); [|lia]. apply Z.div_le_lower_bound; [exact Hp|]. rewrite Z.mul_1_r. eapply Z.le_trans; [|apply L1]. apply Z.pow_le_mono_r; lia.
    - apply Z.div_lt_upper_bound; [exact Hp|]. rewrite <- Z.pow_add_r by lia. replace (Z.of_nat t + Z.of_nat (L - t)) with (Z.of_nat L) by lia. apply L1. }
  assert (Hc : 0 < c <= 10^Z.of_nat (L - t)) by lia. destruct (dec_digits_spec c ltac:(lia)) as (D1 & D2 & c0 & r0 & D3 & D4). destruct (trim_spec (dec_digits c)) as (z & Z1 & Z2).
  set (ds := trim (dec_digits c)) in *. assert (Hds : Forall is_digit ds) by (rewrite Z1 in D1; apply Forall_app in D1; apply D1). assert (Ec : c = dec_val ds * 10^Z.of_nat z) by (rewrite <- D2, Z1 at 1; rewrite dec_val_app, dec_val_zeros, repeat_length; lia).
  exists L, t, c, ds, z. split; [lia|]. split; [exact L1|]. split; [exact Es|]. split; [lia|]. split; [exact Hds|]. split; [exact Ec|]. split.
  - assert (N0 : ds <> []) by (intros E; rewrite E in Ec; cbn in Ec; lia). split; [destruct ds; [congruence|cbn; lia]|]. destruct (dec_digits_len c ltac:(lia)) as [Q1 Q2]. destruct (Z.eq_dec c (10^Z.of_nat (L - t))) as [E10|N10].
    + (* one and zeros *)
      destruct ds as [|d0 [|d1 dr]]; [congruence|cbn [length]; lia|]. exfalso. assert (Hlast : exists a x, d0 :: d1 :: dr = a ++ [x]) by (exists (removelast (d0 :: d1 :: dr)), (List.last (d0 :: d1 :: dr) 0); apply app_removelast_last; discriminate). destruct Hlast as (a & x & Ea).
      specialize (Z2 a x Ea). rewrite Ea in *. rewrite dec_val_app in Ec. change (10^Z.of_nat (length [x])) with 10 in Ec. change (dec_val [x]) with (10 * 0 + (x - 48)) in Ec. apply Forall_app in Hds as [Ha Hx]. apply Forall_cons in Hx as [Hx _]. unfold is_digit in Hx.
      pose proof (dec_val_nonneg a Ha) as Pa. assert (Pa1 : 0 < dec_val a).
      { destruct a as [|a0 ar]; [discriminate|]. rewrite Z1 in D3. cbn [app] in D3. injection D3 as <- _. apply Forall_cons in Ha as [Ha0 Har]. pose proof (dec_val_lead _ _ Ha0 D4 Har). pose proof (pos10 (Z.of_nat (length ar)) ltac:(lia)). lia. }
      rewrite E10 in Ec. set (k := (L - t)%nat) in *. assert (Zk : (z < k)%nat).
      { destruct (Nat.le_gt_cases k z) as [G|G]; [|exact G]. exfalso. assert (10^Z.of_nat k <= 10^Z.of_nat z) by (apply Z.pow_le_mono_r; lia). pose proof (pos10 (Z.of_nat k) ltac:(lia)). nia. }
      replace (10^Z.of_nat k) with (10 * 10^(Z.of_nat k - Z.of_nat z - 1) * 10^Z.of_nat z) in Ec by (rewrite <- Z.pow_succ_r, <- Z.pow_add_r by lia; f_equal; lia).
      pose proof (pos10 (Z.of_nat z) ltac:(lia)). assert (10 * 10^(Z.of_nat k - Z.of_nat z - 1) = dec_val a * 10 + (10 * 0 + (x - 48))) by nia. lia.
    + assert (Hlt : 10^(Z.of_nat (length (dec_digits c)) - 1) < 10^Z.of_nat (L - t)) by lia. apply Z.pow_lt_mono_r_iff in Hlt; [|lia|lia]. pose proof (f_equal length Z1) as Zl. rewrite app_length in Zl. lia.
  - split; [|split; [exact Z2|]]. { destruct ds as [|d0 dr]; [cbn in Ec; lia|]. rewrite Z1 in D3. cbn [app] in D3. injection D3 as <- _. eauto. } rewrite fmt_f_text. f_equal. f_equal. pose proof (f_equal length Z1) as Zl. rewrite app_length, repeat_length in Zl. rewrite Zl. unfold dec_exp. lia.
Qed.
(** the number that the text stands for, in both notations *)
Lemma same_number ds (z t : nat) y : 0 <= y ->
  let k := Z.of_nat z + Z.of_nat t - y in
  dec_val ds * 10^(Z.max k 0) * 10^y = dec_val ds * 10^Z.of_nat z * 10^Z.of_nat t * 10^(Z.max (- k) 0).
Proof. intros Hy k. rewrite <- !Z.mul_assoc, <- !Z.pow_add_r by lia. do 2 f_equal. lia. Qed.
Lemma format_parse f : valid64 f = true -> parse_float (format_float f) = f.
Proof.
  intros V. destruct f as [s|s| |s m e]; [destruct s; reflexivity|destruct s; reflexivity|reflexivity|]. destruct (format_finite s m e V) as (L & t & c & ds & z & HtL & HL & Hs & Hc & Hds & Ec & Hlen & _ & _ & ->).
  pose proof V as V0. apply valid64_iff in V0 as (M1 & M2 & M3). pose proof (shortest_spec (Zpos m) e (pred L) ltac:(lia)) as S. rewrite Hs in S. destruct S as (_ & S2 & _).
  set (dp := Z.of_nat (length ds) + Z.of_nat z + Z.of_nat t - dec_exp e). rewrite parse_numeral by (apply fmt_numeral_ok; exact Hds). destruct (fmt_numeral_val s ds dp Hds) as [F1 F2]. cbn zeta in F1, F2.
  replace (dp - Z.of_nat (length ds)) with (Z.of_nat z + Z.of_nat t - dec_exp e) in F1, F2 by (unfold dp; lia). set (k := Z.of_nat z + Z.of_nat t - dec_exp e) in *.
  pose proof (fmt_numeral_ok s ds dp Hds) as (_ & O2 & O3 & _). unfold l_val. set (l := fmt_numeral s ds dp) in *. change (l_hex l) with (@None Z) in *. change (l_exp l) with (@None (Z * list Z * list Z)) in *. cbn [is_hex expo_val] in *. apply all_d_dec in O2, O3.
  rewrite num_dec by (apply Forall_app; auto). change (dec_from 0 (l_int l ++ frac (l_frac l))) with (dec_val (l_int l ++ frac (l_frac l))). rewrite F1, F2. assert (Es : sgn_neg (l_sgn l) = s) by (destruct s; reflexivity). rewrite Es. clear Es l O2 O3 F1 F2.
  unfold round_exp. rewrite Z.mul_1_l. replace (0 - Z.max (- k) 0) with (- Z.max (- k) 0) by lia. rewrite (Z.max_r (- Z.max (- k) 0)), (Z.max_l (- - Z.max (- k) 0)), Z.opp_involutive by lia. change (10^0) with 1. rewrite Z.mul_1_r.
  assert (Hy : 0 <= dec_exp e) by (unfold dec_exp; lia). assert (Hv : 0 < dec_val ds) by (pose proof (dec_val_nonneg ds Hds); destruct (Z.eq_dec (dec_val ds) 0) as [E|]; [rewrite E in Ec; lia|lia]).
  apply round_within; [exact V| | |].
  - apply Z.mul_pos_pos; [exact Hv|apply pos10; lia].
  - apply pos10. lia.
  - apply (within_eq _ _ (c * 10^Z.of_nat t) (10^(dec_exp e))); [apply pos10; exact Hy|apply pos10; lia| |].
    + rewrite Ec. pose proof (same_number ds z t (dec_exp e) Hy) as SN. cbn zeta in SN. fold k in SN. symmetry. exact SN.
    + apply within_inside; [lia|exact S2].
Qed.
(** A float written as text and read again is the same float: for float32 as well, for
    zeroes of both signs, for infinities and NaN. *)
Theorem float_text_float F f : F = F32 \/ F = F64 -> of_type F f ->
  exists s, conv (BNum F) BStr (VFloat f) = Some (VStr s) /\ conv BStr (BNum F) (VStr s) = Some (VFloat f).
Proof. intros HF Hf. apply float_string; [intros g Hg; apply format_parse; exact Hg|]. destruct HF as [-> | ->]; [right|left]; auto. Qed.
(** The text of a finite float has no exponent and no digit too many: no zero in front
    unless before the point, none at the end after it *)
Definition plain (n : bool) (ip fd : list Z) : list Z := (if n then [45] else []) ++ ip ++ match fd with [] => [] | _ => 46 :: fd end.
Definition plain_ok (ip fd : list Z) : Prop :=
  Forall is_digit ip /\ Forall is_digit fd /\ (ip = [48] \/ exists c r, ip = c :: r /\ c <> 48) /\ (fd = [] \/ exists r c, fd = r ++ [c] /\ c <> 48).
(** |N / D - f| <= |N' / D' - f|, signs apart *)
Definition as_near (f : spec_float) (N D N' D' : Z) : Prop :=
  Z.abs (N * 2^1074 * D' - Z.abs (amount f) * D * D') <= Z.abs (N' * 2^1074 * D - Z.abs (amount f) * D * D').
Lemma fmt_plain n ds dp : Forall is_digit ds -> (exists c r, ds = c :: r /\ c <> 48) -> (forall a c, ds = a ++ [c] -> c <> 48) -> 
  let l := fmt_numeral n ds dp in l_text l = plain n (l_int l) (frac (l_frac l)) /\ plain_ok (l_int l) (frac (l_frac l)).
Proof.
  intros Hd (c & r & Ec & Nc) Hl. pose proof (fmt_numeral_ok n ds dp Hd) as (_ & O2 & O3 & _). cbn zeta. change (is_hex (l_hex (fmt_numeral n ds dp))) with false in *. apply all_d_dec in O2, O3.
  assert (Hlast : exists a x, ds = a ++ [x]) by (rewrite Ec; exists (removelast (c :: r)), (List.last (c :: r) 0); apply app_removelast_last; discriminate). destruct Hlast as (a & x & Ea). pose proof (Hl a x Ea) as Nx.
  unfold l_text, plain, plain_ok. split; [|split; [exact O2|]; split; [exact O3|]].
  - unfold fmt_numeral. cbn [l_sgn l_hex l_int l_frac l_exp pre expo app]. rewrite app_nil_r. unfold body. f_equal. f_equal. destruct (Z.leb_spec (Z.of_nat (length ds)) dp) as [L|L]; [reflexivity|]. cbn [frac].
    destruct (repeat 48 (Z.to_nat (- dp)) ++ drop (Z.to_nat dp) ds) eqn:E; [|reflexivity]. apply (f_equal length) in E. rewrite app_length, repeat_length, drop_length in E. cbn [length] in E. lia.
  - unfold fmt_numeral. cbn [l_int l_frac]. split.
    + destruct (Z.leb_spec dp 0); [auto|]. right. rewrite Ec. replace (Z.to_nat dp) with (S (Z.to_nat (dp - 1))) by lia. cbn [firstn app]. eauto.
    + destruct (Z.leb_spec (Z.of_nat (length ds)) dp) as [L|L]; [auto|]. right. cbn [frac]. rewrite Ea in *. rewrite app_length in L. cbn [length] in L. rewrite drop_app_le by lia. exists (repeat 48 (Z.to_nat (- dp)) ++ drop (Z.to_nat dp) a), x. rewrite <- app_assoc. auto.
Qed.
Lemma near_case n d r p D X c (A B : Prop) : 0 < D -> n = p * d + r -> 0 <= r < p -> c = d /\ (B -> 2 * r <= p) \/ c = d + 1 /\ (A -> p <= 2 * r) -> X <= d * p * D /\ A \/ (d + 1) * p * D <= X /\ B ->
  Z.abs (c * p * D - n * D) <= Z.abs (X - n * D).
Proof.
  intros HD -> Hr H1 H2. assert (E1 : d * p * D - (p * d + r) * D = - (r * D)) by ring. assert (E2 : (d + 1) * p * D - (p * d + r) * D = (p - r) * D) by ring. assert (R0 : 0 <= r * D) by nia. assert (R1 : 0 <= (p - r) * D) by nia.
  assert (Q1 : 2 * r <= p -> r * D <= (p - r) * D) by (intros; nia). assert (Q2 : p <= 2 * r -> (p - r) * D <= r * D) by (intros; nia). set (n := (p * d + r) * D) in *. set (u := r * D) in *. set (v := (p - r) * D) in *. set (x := d * p * D) in *. set (y := (d + 1) * p * D) in *.
  assert (Ec : c * p * D = x /\ c = d \/ c * p * D = y /\ c = d + 1) by (destruct H1 as [[-> _]|[-> _]]; auto). clearbody n u v x y.
  destruct H1 as [[-> H1]|[-> H1]], H2 as [[C1 C2]|[C1 C2]]; try (specialize (H1 C2)); destruct Ec as [[-> Ec]|[-> Ec]]; try lia.
Qed.
(** It has the fewest digits that a decimal number nearest to this float can have: k.  And no
    number with k digits is nearer to it.  It reads as this float. *)
Theorem float_text_shortest f : of_type F64 f -> finite f -> amount f <> 0 ->
  exists ip fd k, let M := dec_val (ip ++ fd) in let E := - Z.of_nat (length fd) in
    conv (BNum F64) BStr (VFloat f) = Some (VStr (plain (neg f) ip fd)) /\ plain_ok ip fd /\ rounds_to f (neg f) (num_of 10 M E) (den_of 10 E) /\
    (exists c E0, 0 < c < 10^k /\ num_of 10 M E * den_of 10 E0 = num_of 10 c E0 * den_of 10 E) /\
    forall c E0, 0 < c -> rounds_to f (neg f) (num_of 10 c E0) (den_of 10 E0) -> 10^(k - 1) <= c /\ (c < 10^k -> as_near f (num_of 10 M E) (den_of 10 E) (num_of 10 c E0) (den_of 10 E0)).
Proof.
  intros V Hf Ha. destruct f as [s|s| |s m e]; try contradiction. clear Hf. cbn [of_type] in V. pose proof (format_parse _ V) as FP. destruct (format_finite s m e V) as (L & t & c & ds & z & HtL & HL & Hs & Hc & Hds & Ec & Hlen & Hlead & Hlast & Ef). rewrite Ef in FP.
  pose proof V as V0. apply valid64_iff in V0 as (M1 & M2 & M3). pose proof (shortest_spec (Zpos m) e (pred L) ltac:(lia)) as S. rewrite Hs in S. destruct S as (_ & S2 & S3 & S4).
  set (dp := Z.of_nat (length ds) + Z.of_nat z + Z.of_nat t - dec_exp e) in *. destruct (fmt_numeral_val s ds dp Hds) as [F1 F2]. cbn zeta in F1, F2.
  replace (dp - Z.of_nat (length ds)) with (Z.of_nat z + Z.of_nat t - dec_exp e) in F1, F2 by (unfold dp; lia). set (k0 := Z.of_nat z + Z.of_nat t - dec_exp e) in *.
  destruct (fmt_plain s ds dp Hds Hlead Hlast) as [P1 P2]. pose proof (fmt_numeral_ok s ds dp Hds) as Lok. set (l := fmt_numeral s ds dp) in *.
  assert (Hy : 0 <= dec_exp e) by (unfold dec_exp; lia). assert (Hv : 0 < dec_val ds) by (pose proof (dec_val_nonneg ds Hds); destruct (Z.eq_dec (dec_val ds) 0) as [E|]; [rewrite E in Ec; lia|lia]).
  exists (l_int l), (frac (l_frac l)), (Z.of_nat (length ds)). cbn zeta. set (M := dec_val (l_int l ++ frac (l_frac l))) in *. set (E := - Z.of_nat (length (frac (l_frac l)))).
  assert (EN : num_of 10 M E = dec_val ds * 10^(Z.max k0 0)) by (unfold num_of; rewrite F1, (Z.max_r E) by (unfold E; lia); change (10^0) with 1; lia). assert (ED : den_of 10 E = 10^(Z.max (- k0) 0)) by (unfold den_of, E; rewrite F2; f_equal; lia).
  assert (HN : 0 < num_of 10 M E) by (rewrite EN; apply Z.mul_pos_pos; [exact Hv|apply pos10; lia]). assert (HD : 0 < den_of 10 E) by (rewrite ED; apply pos10; lia).
  pose proof (same_number ds z t (dec_exp e) Hy) as SN. cbn zeta in SN. fold k0 in SN. rewrite <- Ec, <- EN, <- ED in SN.
  split; [rewrite convert_num_str; unfold conv_to_string; cbn [nty_ity]; rewrite same_format by exact V; rewrite Ef, P1; reflexivity|]. split; [exact P2|]. split; [|split].
  - cbn [neg]. rewrite parse_numeral in FP by exact Lok. unfold l_val in FP. change (l_hex l) with (@None Z) in FP. change (l_exp l) with (@None (Z * list Z * list Z)) in FP. cbn [is_hex expo_val] in FP.
    assert (Es : sgn_neg (l_sgn l) = s) by (destruct s; reflexivity). rewrite Es, Z.mul_1_l in FP. destruct P2 as (Q1 & Q2 & _). rewrite num_dec in FP by (apply Forall_app; auto). change (dec_from 0 (l_int l ++ frac (l_frac l))) with M in FP.
    replace (0 - Z.of_nat (length (frac (l_frac l)))) with E in FP by (unfold E; lia). unfold round_exp in FP. fold (num_of 10 M E) (den_of 10 E) in FP. rewrite <- FP at 1. apply rounds_ratio; lia.
  - exists (dec_val ds), k0. split; [split; [exact Hv|apply dec_val_lt; exact Hds]|]. rewrite EN, ED. reflexivity.
  - intros c' E' Hc' R. set (N' := num_of 10 c' E') in *. set (D' := den_of 10 E') in *. assert (HN' : 0 < N') by (apply Z.mul_pos_pos; [exact Hc'|apply pos10; lia]). assert (HD' : 0 < D') by (apply pos10; lia).
    assert (W : within (Zpos m) e N' D').
    { destruct R as (_ & _ & _ & R4 & R5). cbn [neg] in *. assert (LT : N' * 2^1074 < overflow F64 * D') by (apply Z.nle_gt; intros F; apply R4 in F; discriminate). destruct (R5 LT) as [_ R6]. apply (within_nearest s); [exact HN'|exact HD'|exact V| |].
      - change (overflow F64) with ((2^54 - 1) * 2^970 * 2^1074) in LT. assert (HU : 0 < 2^1074) by (apply Z.pow_pos_nonneg; lia). set (K := (2^54 - 1) * 2^970) in *. set (U := 2^1074) in *. clearbody K U N' D'. clear - LT HU. nia.
      - intros g Fg Vg. rewrite <- !amount_units. replace (sg s * (N' * 2^1074)) with ((if s then - N' else N') * 2^1074) by (unfold sg; destruct s; ring). apply R6; [destruct g; auto|exact Vg]. }
    assert (LD : (1 <= length ds)%nat) by lia. split.
    + apply Z.nlt_ge. intros Lt. assert (Hk : (length ds <> 1)%nat) by (intros H1; rewrite H1 in Lt; change (10^(Z.of_nat 1 - 1)) with 1 in Lt; lia).
      set (t2 := (L - (length ds - 1))%nat). assert (T2 : (t < t2 <= pred L)%nat) by (unfold t2; lia). destruct (S3 t2 T2) as [X1 X2].
      destruct (candidates (Zpos m) e L t2 c' E' ltac:(lia) ltac:(lia) ltac:(lia) ltac:(lia)) as [[_ X]|[_ X]]; [split; [exact Hc'|]|exact W|congruence|congruence].
      replace (Z.of_nat (L - t2)) with (Z.of_nat (length ds) - 1) by (unfold t2; lia). exact Lt.
    + intros Lt. assert (Lt' : 0 < c' < 10^Z.of_nat (L - t)) by (split; [exact Hc'|]; eapply Z.lt_le_trans; [exact Lt|]; apply Z.pow_le_mono_r; lia).
      pose proof (candidates (Zpos m) e L t c' E' ltac:(lia) ltac:(lia) HtL ltac:(lia) Lt') as CD. cbn zeta in CD. fold (num_of 10 c' E') (den_of 10 E') in CD. fold N' D' in CD. specialize (CD W).
      set (n := Zpos m * unit10 e) in *. set (p := 10^Z.of_nat t) in *. assert (Hp : 0 < p) by (apply pos10; lia). set (Y := 10^(dec_exp e)) in *. assert (HY : 0 < Y) by (apply pos10; lia).
      pose proof (Z.div_mod n p ltac:(lia)) as DM. pose proof (Z.mod_pos_bound n p Hp) as MB. change (n / p) with (down (Zpos m) e t) in DM. set (d := down (Zpos m) e t) in *. set (r := n mod p) in *.
      assert (Near : Z.abs (c * p * D' - n * D') <= Z.abs (N' * Y - n * D')).
      { exact (near_case _ _ _ _ _ _ _ _ _ HD' DM MB S4 CD). }
      unfold as_near. cbn [amount]. set (A := Zpos m * 2^(e + 1074)). assert (HA0 : 0 <= A) by (apply Z.mul_nonneg_nonneg; [apply Pos2Z.is_nonneg|apply Z.pow_nonneg; apply Z.leb_le; reflexivity]). assert (HA : Z.abs ((if s then -1 else 1) * A) = A) by (clearbody A; clear - HA0; destruct s; lia). rewrite HA.
      pose proof (unit10_scale e ltac:(lia)) as US. fold Y in US. set (U := 2^1074) in *. assert (HU : 0 < U) by (apply Z.pow_pos_nonneg; lia). assert (EA : A * Y = n * U) by (unfold A, n; transitivity (Zpos m * (unit10 e * U)); [rewrite US; ring|ring]).
      set (N0 := num_of 10 M E) in *. set (D0 := den_of 10 E) in *. clearbody A U n Y p N' D' N0 D0. clear - Near EA SN HY HU HD. apply (Z.mul_le_mono_pos_r _ _ Y HY).
      rewrite <- (Z.abs_eq Y) at 1 2 by lia. rewrite <- !Z.abs_mul.
      replace ((N0 * U * D' - A * D0 * D') * Y) with (U * D0 * (c * p * D' - n * D')).
      2:{ transitivity (N0 * Y * U * D' - (A * Y) * D0 * D'); [rewrite SN, EA; ring|ring]. }
      replace ((N' * U * D0 - A * D0 * D') * Y) with (U * D0 * (N' * Y - n * D')).
      2:{ transitivity (N' * U * D0 * Y - (A * Y) * D0 * D'); [rewrite EA; ring|ring]. }
      rewrite !(Z.abs_mul (U * D0)). apply Z.mul_le_mono_nonneg_l; [lia|exact Near].
Qed.
(** zeroes, infinities and NaN *)
Theorem float_text_special n :
  conv (BNum F64) BStr (VFloat (S754_zero n)) = Some (VStr (plain n [48] [])) /\
  conv (BNum F64) BStr (VFloat (S754_infinity n)) = Some (VStr ((if n then 45 else 43) :: [73; 110; 102])) /\
  conv (BNum F64) BStr (VFloat S754_nan) = Some (VStr [78; 97; 78]).
Proof. rewrite !convert_num_str. destruct n; repeat split; reflexivity. Qed.
(** A float32 is written with the digits that a float64 needs: not the shortest text *)
Theorem float32_text_shortest_refuted : exists f s s', of_type F32 f /\ conv (BNum F32) BStr (VFloat f) = Some (VStr s) /\ length s = 19%nat /\ s' = [48; 46; 49] /\ conv BStr (BNum F32) (VStr s') = Some (VFloat f).
Proof. exists (S754_finite false 13421773 (-27)). rewrite convert_num_str. do 2 eexists. split; [reflexivity|]. split; [reflexivity|]. split; [vm_compute; reflexivity|]. split; [reflexivity|]. rewrite convert_str_num. vm_compute. reflexivity. Qed.
(** *** C99 with strconv written out *)
Lemma parse_format_int y : - 2^63 <= y < 2^63 -> parse_float (format_int y) = int_to_float prec64 emax64 y.
Proof.
  intros Hy. assert (G : forall n u, 0 < u < 2^64 -> parse_float ((if n : bool then [45] else []) ++ format_uint u) = binary_round prec64 emax64 n (Z.to_pos u) 0).
  { intros n u Hu. destruct (format_uint_spec u ltac:(lia)) as (F1 & F2 & F3 & _). set (l := Numeral (if n then [45] else []) None (format_uint u) None None).
    replace ((if n then [45] else []) ++ format_uint u) with (l_text l) by (unfold l_text, l, body; cbn [l_sgn l_hex l_int l_frac l_exp pre expo app]; rewrite !app_nil_r; reflexivity).
    rewrite parse_numeral by (unfold l_ok, l; cbn [l_sgn l_hex l_int l_frac l_exp is_hex frac expo_ok]; rewrite !all_d_dec, app_nil_r; destruct n; repeat split; auto; [right; right; reflexivity|left; reflexivity]).
    unfold l_val, l. cbn [l_sgn l_hex l_int l_frac l_exp is_hex frac expo_val]. rewrite app_nil_r, num_dec by exact F2. change (dec_from 0 (format_uint u)) with (dec_val (format_uint u)). rewrite F3. assert (Es : sgn_neg (if n then [45] else []) = n) by (destruct n; reflexivity). rewrite Es.
    change (0 - 1 * Z.of_nat (length [])) with 0. unfold round_exp. change (10^Z.max 0 0) with 1. change (10^Z.max (- 0) 0) with 1. rewrite Z.mul_1_r. unfold round_ratio. destruct (Z.eqb_spec u 0); [lia|]. change (Z.log2 1) with 0. change (1100 + 0) with 1100. rewrite Z.div_1_r, Z.mod_1_r, Z.eqb_refl, Z.add_0_r.
    rewrite <- (round_value prec64 emax64 n (Z.to_pos u) 1101 0). f_equal. apply Pos2Z.inj. rewrite shift_nat_val. change (2^Z.of_nat 1101) with (2 * 2^1100). assert (HU : 0 < 2^1100) by (apply Z.pow_pos_nonneg; lia). set (U := 2^1100) in *. clearbody U. assert (HuU : 0 < u * U) by nia. rewrite (Z2Pos.id u) by lia. rewrite Z2Pos.id by (clear - HuU; lia). ring. }
  unfold format_int. destruct (Z.ltb_spec y 0) as [L|L].
  - rewrite u64_id by (unfold is_u64; lia). change (45 :: format_uint (- y)) with ([45] ++ format_uint (- y)). rewrite (G true (- y)) by lia. destruct y as [|p|p]; [lia|lia|]. reflexivity.
  - destruct (Z.eq_dec y 0) as [->|N]; [reflexivity|]. change (format_uint y) with ([] ++ format_uint y). rewrite (G false y) by lia. destruct y as [|p|p]; [lia| |lia]. reflexivity.
Qed.
Theorem text_to_float32_twice_refuted : exists x f, conv BStr (BNum F32) (VStr (format_int x)) = Some (VFloat f) /\ f <> int_to_float prec32 emax32 x.
Proof. apply string_float32_refuted. exact parse_format_int. Qed.
Theorem text_to_float32_partial x : - 2^53 <= x <= 2^53 ->
  conv BStr (BNum F32) (VStr (format_int x)) = Some (VFloat (int_to_float prec32 emax32 x)) /\ conv BStr (BNum F32) (VStr (format_int x)) = conv (BNum IInt) (BNum F32) (VInt x).
Proof. apply string_float32_partial. exact parse_format_int. Qed.
End P.
Print Assumptions text_to_float64_partial.
Print Assumptions text_to_float64_hex_partial.
Print Assumptions text_to_infinity.
Print Assumptions text_to_nan.
Print Assumptions text_otherwise_zero.
Print Assumptions text_underscores.
Print Assumptions text_error_refuted.
Print Assumptions text_to_float32.
Print Assumptions text_long_exponent_refuted.
Print Assumptions float_text_float.
Print Assumptions float_text_shortest.
Print Assumptions float_text_special.
Print Assumptions float32_text_shortest_refuted.
Print Assumptions text_to_float32_twice_refuted.
Print Assumptions text_to_float32_partial.
(** -12.5e3, 0X1.8p-1, -inf, nan *)
Example decimal_ex : decimal [45; 49; 50; 46; 53; 101; 51] true 125 2 3 /\ num_of 10 125 2 = 12500 /\ den_of 10 2 = 1 /\ num_of 10 125 (-2) = 125 /\ den_of 10 (-2) = 100.
Proof.
  split; [|repeat split; reflexivity]. exists [45], [49; 50], [46; 53], [53], [101; 51]. split; [reflexivity|]. split; [right; right; auto|]. split; [repeat constructor; unfold is_digit; lia|]. split; [right; reflexivity|]. split; [repeat constructor; unfold is_digit; lia|]. split; [discriminate|].
  split; [|split; reflexivity]. right. exists 101, [], false, [51]. split; [reflexivity|]. split; [constructor|]. split; [left; auto|]. split; [discriminate|]. split; [repeat constructor; unfold is_digit; lia|reflexivity].
Qed.
Example hexadecimal_ex : hexadecimal [48; 88; 49; 46; 65; 112; 45; 49] false 26 (-5) (-1).
Proof.
  exists [], 88, [49], [46; 65], [65], [112; 45; 49]. split; [reflexivity|]. split; [left; auto|]. split; [auto|]. split; [repeat constructor; unfold hex_digit; lia|]. split; [right; reflexivity|]. split; [repeat constructor; unfold hex_digit; lia|]. split; [discriminate|].
  split; [|split; reflexivity]. exists 112, [45], true, [49]. split; [reflexivity|]. split; [constructor|]. split; [right; right; auto|]. split; [discriminate|]. split; [repeat constructor; unfold is_digit; lia|reflexivity].
Qed.
Example special_ex : infinity_text [45; 73; 78; 102] true /\ nan [110; 65; 78].
Proof. split; [|reflexivity]. exists [45], [73; 78; 102]. split; [reflexivity|]. split; [right; right; auto|left; reflexivity]. Qed.
(** a tenth, the least float64, the greatest float32 *)
Example text_ex : let tenth := S754_finite false 7205759403792794 (-56) in of_type F64 tenth /\ finite tenth /\ amount tenth <> 0 /\ format_float tenth = plain false [48] [49] /\ plain_ok [48] [49] /\
  of_type F64 (S754_finite true 1 (-1074)) /\ length (format_float (S754_finite true 1 (-1074))) = 327%nat /\ of_type F32 (S754_finite false 16777215 104).
Proof.
  cbn zeta. split; [reflexivity|]. split; [exact I|]. split; [vm_compute; discriminate|]. split; [vm_compute; reflexivity|].
  split; [split; [repeat constructor; unfold is_digit; lia|]; split; [repeat constructor; unfold is_digit; lia|]; split; [left; reflexivity|right; exists [], 49; split; [reflexivity|lia]]|]. split; [reflexivity|]. split; [vm_compute; reflexivity|reflexivity].
Qed.
(** 0x_1.8p0 is 1.5 and 1_5 is 15; _15 is not a number *)
Example underscores_ex : parse_float [48; 120; 95; 49; 46; 56; 112; 48] = parse_float [48; 120; 49; 46; 56; 112; 48] /\ parse_float [48; 120; 49; 46; 56; 112; 48] = parse_float [49; 46; 53] /\ parse_float [49; 95; 53] = parse_float [49; 53] /\ parse_float [95; 49; 53] = S754_zero false /\ 95 ∉ [97; 98].
Proof. split; [vm_compute; reflexivity|]. split; [vm_compute; reflexivity|]. split; [vm_compute; reflexivity|]. split; [vm_compute; reflexivity|]. rewrite !elem_of_cons, elem_of_nil. lia. Qed.
