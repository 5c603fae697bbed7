(** Which strings parse_float reads as a number.  Lemmas for StrconvProps.v. *)
From Verif Require Import Base ConvModel ConvProofs ConvProofs2 StrconvModel StrconvParse.
From Coq Require Import Floats.SpecFloat ZArith.
Local Open Scope Z.

(** *** infinities and NaN *)
Lemma common_prefix_le s t : (common_prefix s t <= length s)%nat /\ (common_prefix s t <= length t)%nat.
Proof. revert t. induction s as [|c s IH]; intros [|d t]; cbn [common_prefix length]; try lia. destruct (IH t). destruct (_ =? _); lia. Qed.
Lemma common_prefix_map s t : map fold_case (take (common_prefix s t) s) = take (common_prefix s t) t.
Proof. revert t. induction s as [|c s IH]; intros [|d t]; cbn [common_prefix take map]; try reflexivity. destruct (Z.eqb_spec (fold_case c) d) as [<-|]; [|reflexivity]. cbn [take map]. f_equal. apply IH. Qed.
Lemma common_prefix_eq w t : map fold_case w = take (length w) t -> common_prefix w t = Nat.min (length w) (length t).
Proof.
  revert t. induction w as [|c w IH]; intros [|d t] H; try reflexivity. cbn [map length take] in H. injection H as H1 H2. cbn [common_prefix length]. rewrite H1, Z.eqb_refl, IH by exact H2. lia.
Qed.
Definition str_inf : list Z := [105; 110; 102].
(** the texts of the special values *)
Definition inf_text (w : list Z) : Prop := map fold_case w = str_inf \/ map fold_case w = str_infinity.
Definition nan_text (w : list Z) : Prop := map fold_case w = str_nan.
Lemma special_inf_full neg k w f n : special_inf neg k w = Some (f, n) -> n = (k + length w)%nat -> inf_text w /\ f = S754_infinity neg.
Proof.
  unfold special_inf. intros H En. pose proof (common_prefix_map w str_infinity) as M. pose proof (common_prefix_le w str_infinity) as [L _]. set (p := common_prefix w str_infinity) in *.
  destruct ((3 <? p)%nat && (p <? 8)%nat) eqn:E1.
  - apply andb_true_iff in E1 as [E1 _]. apply Nat.ltb_lt in E1. cbn in H. injection H as <- <-. exfalso. lia.
  - destruct ((p =? 3)%nat || (p =? 8)%nat) eqn:E2; [|discriminate]. injection H as <- <-. assert (p = length w) by lia. split; [|reflexivity]. rewrite H, firstn_all in M. unfold inf_text.
    apply orb_true_iff in E2 as [E2|E2]; apply Nat.eqb_eq in E2; rewrite H in E2; rewrite M, E2; [left|right]; reflexivity.
Qed.
Lemma special_inf_text neg k w : inf_text w -> special_inf neg k w = Some (S754_infinity neg, (k + length w)%nat).
Proof.
  intros H. unfold special_inf. assert (L : length w = 3%nat \/ length w = 8%nat) by (destruct H as [H|H]; apply (f_equal length) in H; rewrite map_length in H; auto).
  assert (E : common_prefix w str_infinity = length w). { rewrite common_prefix_eq; [cbn [length str_infinity]; lia|]. destruct H as [H|H]; rewrite H; pose proof (f_equal length H) as Hl; rewrite map_length in Hl; rewrite Hl; reflexivity. }
  rewrite E. destruct L as [-> | ->]; reflexivity.
Qed.
Lemma fold_case_i c : fold_case c = 105 <-> c = 105 \/ c = 73.
Proof. unfold fold_case. destruct (Z.leb_spec 65 c), (Z.leb_spec c 90); cbn [andb]; lia. Qed.
Lemma fold_case_n c : fold_case c = 110 <-> c = 110 \/ c = 78.
Proof. unfold fold_case. destruct (Z.leb_spec 65 c), (Z.leb_spec c 90); cbn [andb]; lia. Qed.
Lemma inf_text_head w : inf_text w -> exists c r, w = c :: r /\ (c = 105 \/ c = 73).
Proof. intros [H|H]; (destruct w as [|c r]; [discriminate|]; injection H as H _; apply fold_case_i in H; eauto). Qed.
Lemma special_full s f : special s = Some (f, length s) <-> (exists sgn w, s = sgn ++ w /\ is_sign sgn /\ inf_text w /\ f = S754_infinity (sgn_neg sgn)) \/ (nan_text s /\ f = S754_nan).
Proof.
  split.
  - destruct s as [|c r]; [discriminate|]. cbn [special]. destruct ((c =? 43) || (c =? 45)) eqn:E1.
    + intros H. apply special_inf_full in H as [H1 H2]; [|reflexivity]. left. exists [c], r. split; [reflexivity|]. split; [|split; [exact H1|exact H2]].
      apply orb_true_iff in E1. rewrite !Z.eqb_eq in E1. destruct E1 as [-> | ->]; [right; left; reflexivity|right; right; reflexivity].
    + destruct ((c =? 105) || (c =? 73)).
      * intros H. apply special_inf_full in H as [H1 H2]; [|reflexivity]. left. exists [], (c :: r). split; [reflexivity|]. split; [left; reflexivity|split; [exact H1|exact H2]].
      * destruct ((c =? 110) || (c =? 78)); [|discriminate]. destruct (Nat.eqb_spec (common_prefix (c :: r) str_nan) 3) as [E|]; [|discriminate]. intros [= <- El]. right. split; [|reflexivity].
        pose proof (common_prefix_map (c :: r) str_nan) as M. rewrite E in M. unfold nan_text. rewrite <- (firstn_all (c :: r)). cbn [length] in *. rewrite <- El. exact M.
  - intros [(sgn & w & -> & Hs & Hw & ->)|[H ->]].
    + destruct Hs as [->|[->| ->]].
      * destruct (inf_text_head w Hw) as (c & r & -> & Hc). cbn [app special]. replace ((c =? 43) || (c =? 45)) with false by (destruct Hc as [-> | ->]; reflexivity).
        replace ((c =? 105) || (c =? 73)) with true by (destruct Hc as [-> | ->]; reflexivity). rewrite special_inf_text by exact Hw. reflexivity.
      * cbn [app special]. rewrite special_inf_text by exact Hw. reflexivity.
      * cbn [app special]. rewrite special_inf_text by exact Hw. reflexivity.
    + pose proof (f_equal length H) as L. rewrite map_length in L. destruct s as [|c r]; [discriminate|]. pose proof H as H0. unfold nan_text in H0. cbn [map] in H0. injection H0 as Hc _. apply fold_case_n in Hc.
      assert (E : common_prefix (c :: r) str_nan = 3%nat) by (rewrite common_prefix_eq; [rewrite L; reflexivity|rewrite L; exact H]).
      cbn [special]. replace ((c =? 43) || (c =? 45)) with false by (destruct Hc as [-> | ->]; reflexivity).
      replace ((c =? 105) || (c =? 73)) with false by (destruct Hc as [-> | ->]; reflexivity). replace ((c =? 110) || (c =? 78)) with true by (destruct Hc as [-> | ->]; reflexivity).
      rewrite E. rewrite L. reflexivity.
Qed.

(** *** numerals *)
(** sign, prefix, digits, point and digits, exponent *)
Record numeral := Numeral { l_sgn : list Z; l_hex : option Z; l_int : list Z; l_frac : option (list Z); l_exp : option (Z * list Z * list Z) }.
Definition l_text (l : numeral) : list Z := l_sgn l ++ pre (l_hex l) ++ body (l_int l) (l_frac l) ++ expo (l_exp l).
Definition l_ok (l : numeral) : Prop :=
  is_sign (l_sgn l) /\ all_d (is_hex (l_hex l)) (l_int l) /\ all_d (is_hex (l_hex l)) (frac (l_frac l)) /\ l_int l ++ frac (l_frac l) <> [] /\
  match l_hex l with Some x => x_char x | None => True end /\ expo_ok (is_hex (l_hex l)) (l_exp l).
Definition l_val (l : numeral) : spec_float :=
  round_exp (sgn_neg (l_sgn l)) (if l_hex l then 2 else 10) (num (is_hex (l_hex l)) 0 (l_int l ++ frac (l_frac l))) (expo_val (l_exp l) - (if l_hex l then 4 else 1) * Z.of_nat (length (frac (l_frac l)))).
Lemma special_number sgn t : is_sign sgn -> (forall c r, t = c :: r -> is_digit c \/ c = 46) -> special (sgn ++ t) = None.
Proof.
  intros Hs Ht. assert (P : forall n k, special_inf n k t = None).
  { intros n k. unfold special_inf. assert (E : common_prefix t str_infinity = O); [|rewrite E; reflexivity]. destruct t as [|c r]; [reflexivity|]. cbn [common_prefix str_infinity]. destruct (Z.eqb_spec (fold_case c) 105) as [E|]; [|reflexivity].
    apply fold_case_i in E. specialize (Ht c r eq_refl). unfold is_digit in Ht. lia. }
  destruct Hs as [->|[->| ->]]; [|apply P|apply P]. destruct t as [|c r]; [reflexivity|]. specialize (Ht c r eq_refl). unfold is_digit in Ht. cbn [app special].
  replace ((c =? 43) || (c =? 45)) with false by (symmetry; apply orb_false_iff; rewrite !Z.eqb_neq; lia). replace ((c =? 105) || (c =? 73)) with false by (symmetry; apply orb_false_iff; rewrite !Z.eqb_neq; lia).
  replace ((c =? 110) || (c =? 78)) with false by (symmetry; apply orb_false_iff; rewrite !Z.eqb_neq; lia). reflexivity.
Qed.
Lemma text_head l : l_ok l -> forall c r, pre (l_hex l) ++ body (l_int l) (l_frac l) ++ expo (l_exp l) = c :: r -> is_digit c \/ c = 46.
Proof.
  intros (_ & H2 & H3 & H4 & H5 & _) c r E. destruct (l_hex l) as [x|]; [injection E as <- _; left; unfold is_digit; lia|]. cbn [pre app] in E.
  destruct (body_form false _ _ _ H2 H4 c r E) as [G|G]; [|auto]. apply isd_iff in G as [G|[G _]]; [auto|discriminate].
Qed.
Theorem parse_numeral l : l_ok l -> parse_float (l_text l) = l_val l.
Proof.
  intros H. unfold parse_float, l_text. rewrite special_number; [|apply H|apply text_head; exact H].
  pose proof (read_number (l_sgn l) (l_hex l) (l_int l) (l_frac l) (l_exp l) []) as R. rewrite app_nil_r in R. destruct H as (H1 & H2 & H3 & H4 & H5 & H6).
  rewrite R by auto. cbn [n_rest n_neg n_hex n_mant n_exp]. unfold l_val. destruct (l_hex l); reflexivity.
Qed.

Lemma notin_app_r {A} (x : A) a b : x ∉ a ++ b -> x ∉ b.
Proof. rewrite elem_of_app. tauto. Qed.
Lemma notin_cons {A} (x y : A) b : x ∉ y :: b -> y <> x /\ x ∉ b.
Proof. rewrite elem_of_cons. intros H. split; [intros ->; auto|auto]. Qed.
(** what is read is a numeral *)
Theorem read_shape s x : 95 ∉ s -> read_float s = Some x -> n_rest x = [] -> exists l, s = l_text l /\ l_ok l.
Proof.
  intros Hu. destruct (split_sign_form s) as (sgn & t & -> & Hs & Ht). apply notin_app_r in Hu. unfold read_float. rewrite (split_sign_spec sgn t Hs Ht).
  assert (Hp : exists hex t', t = pre hex ++ t' /\ split_prefix t = (is_hex hex, t') /\ match hex with Some y => x_char y | None => True end).
  { destruct t as [|z [|c [|y r]]]; try (exists None; eexists; split; [reflexivity|split; [reflexivity|exact I]]). cbn [split_prefix]. destruct ((z =? 48) && (lower c =? 120)) eqn:E.
    - apply andb_true_iff in E as [E1 E2]. apply Z.eqb_eq in E1, E2. apply lower_letter in E2; [|lia]. exists (Some c), (y :: r). subst z. split; [reflexivity|]. split; [reflexivity|]. exact E2.
    - exists None. eexists. split; [reflexivity|split; [reflexivity|exact I]]. }
  destruct Hp as (hex & t' & -> & -> & Hx). apply notin_app_r in Hu. clear Ht. set (h := is_hex hex) in *.
  (* the digits and the point *)
  destruct (split_d h t') as (ip & r1 & -> & Hip & Hr1). apply notin_app_r in Hu.
  assert (Hf : exists fp r, ip ++ r1 = body ip fp ++ r /\ all_d h (frac fp) /\ 95 ∉ r /\ (r = [] \/ exists c t, r = c :: t /\ isd h c = false /\ c <> 95 /\ (c <> 46 \/ fp <> None))).
  { destruct Hr1 as [->|(c & t2 & -> & Hc)].
    - exists None, []. unfold body. cbn [frac]. rewrite !app_nil_r. split; [reflexivity|]. split; [constructor|]. split; [exact Hu|auto].
    - destruct (notin_cons _ _ _ Hu) as [Nc Hu']. destruct (Z.eq_dec c 46) as [->|N46].
      + destruct (split_d h t2) as (f & r & -> & Hf & Hr). apply notin_app_r in Hu'. exists (Some f), r. unfold body. cbn [frac]. rewrite <- app_assoc. cbn [app]. split; [reflexivity|]. split; [exact Hf|]. split; [exact Hu'|].
        destruct Hr as [->|(c & t & -> & Hc')]; [auto|]. right. exists c, t. destruct (notin_cons _ _ _ Hu') as [Nc' _]. split; [reflexivity|]. split; [exact Hc'|]. split; [exact Nc'|right; discriminate].
      + exists None, (c :: t2). unfold body. cbn [frac]. rewrite app_nil_r. split; [reflexivity|]. split; [constructor|]. split; [exact Hu|]. right. exists c, t2. auto. }
  destruct Hf as (fp & r & -> & Hfp & Hur & Hr). destruct (scan_body h ip fp r Hip Hfp Hr) as (a & A1 & A2 & A3 & A4 & A5). rewrite A1.
  destruct (sawdigits a) eqn:Esd; [|discriminate]. cbn [negb]. assert (Hn : ip ++ frac fp <> []) by (intros E; rewrite E in A4; discriminate).
  destruct r as [|c r].
  - destruct h eqn:Eh; [discriminate|]. intros _ _. exists (Numeral sgn hex ip fp None). unfold l_text, l_ok. cbn [l_sgn l_hex l_int l_frac l_exp expo expo_ok]. fold h. rewrite Eh, app_nil_r. repeat split; assumption.
  - destruct (lower c =? (if h then 112 else 101)) eqn:Ec.
    + destruct (read_exp r (under a)) as [[[e u] r']|] eqn:Er; [|discriminate]. rewrite A5 in *. intros H Hrest.
      (* the digits of the exponent *)
      destruct (notin_cons _ _ _ Hur) as [_ Hur']. unfold read_exp in Er. destruct (split_sign_form r) as (sg & t & -> & Hsg & Ht). rewrite (split_sign_spec sg t Hsg Ht) in Er. apply notin_app_r in Hur'.
      destruct t as [|d t]; [discriminate|]. destruct (dec_digit d) eqn:Ed; [|discriminate]. destruct (split_digits (d :: t)) as [Hd|(ds & c' & t' & E & Hd & Hc')].
      * exists (Numeral sgn hex ip fp (Some (c, sg, d :: t))). unfold l_text, l_ok. cbn [l_sgn l_hex l_int l_frac l_exp expo expo_ok]. fold h. split; [reflexivity|].
        split; [exact Hs|]. split; [exact Hip|]. split; [exact Hfp|]. split; [exact Hn|]. split; [exact Hx|]. split; [exact Ec|]. split; [exact Hsg|]. split; [discriminate|exact Hd].
      * exfalso. rewrite E in *. apply notin_app_r in Hur'. destruct (notin_cons _ _ _ Hur') as [N95 _]. rewrite scan_exp_digits in Er by exact Hd. rewrite scan_exp_stop in Er; [|destruct (dec_digit c') eqn:X; [apply dec_digit_iff in X; contradiction|reflexivity]|exact N95].
        injection Er as _ Eu Er. subst r'. rewrite <- Eu in H. cbn [andb] in H. injection H as <-. discriminate.
    + rewrite A5. cbn [andb]. destruct h; [discriminate|]. intros [= <-]. discriminate.
Qed.
Theorem parse_shape s : 95 ∉ s -> parse_float s = S754_zero false \/ (exists f, special s = Some (f, length s) /\ parse_float s = f) \/ exists l, s = l_text l /\ l_ok l.
Proof.
  intros Hu. unfold parse_float. destruct (special s) as [[f n]|] eqn:E.
  - destruct (Nat.eqb_spec n (length s)) as [->|]; [|auto]. right. left. eauto.
  - destruct (read_float s) as [x|] eqn:Er; [|auto]. destruct (n_rest x) eqn:En; [|auto]. right. right. exact (read_shape s x Hu Er En).
Qed.

(** *** underscores *)
Definition strip (s : list Z) : list Z := List.filter (fun c => negb (c =? 95)) s.
Lemma strip_app a b : strip (a ++ b) = strip a ++ strip b.
Proof. apply List.filter_app. Qed.
Lemma strip_cons c r : strip (c :: r) = if c =? 95 then strip r else c :: strip r.
Proof. unfold strip. cbn [List.filter]. destruct (c =? 95); reflexivity. Qed.
Lemma strip_keep c r : c <> 95 -> strip (c :: r) = c :: strip r.
Proof. intros H. rewrite strip_cons. apply Z.eqb_neq in H. rewrite H. reflexivity. Qed.
Lemma strip_none s : 95 ∉ s -> strip s = s.
Proof. induction s as [|c s IH]; intros H; [reflexivity|]. destruct (notin_cons _ _ _ H) as [N H']. rewrite strip_keep, IH by assumption. reflexivity. Qed.
Lemma strip_notin s : 95 ∉ strip s.
Proof. unfold strip. rewrite elem_of_list_In, filter_In. intros [_ H]. discriminate. Qed.
Definition clr (a : mant) : mant := Mant (mt a) (nd a) (dp a) (sawdot a) (sawdigits a) false.
Lemma scan_strip hex s : forall a, scan hex (strip s) (clr a) = (clr (scan hex s a).1, strip (scan hex s a).2) /\ (forall c r, (scan hex s a).2 = c :: r -> c <> 95).
Proof.
  induction s as [|c s IH]; intros a; [split; [reflexivity|discriminate]|]. rewrite strip_cons. cbn [scan]. destruct (Z.eqb_spec c 95) as [->|N]; [apply (IH (Mant (mt a) (nd a) (dp a) (sawdot a) (sawdigits a) true))|].
  assert (Stop : (clr a, c :: strip s) = (clr (a, c :: s).1, strip (a, c :: s).2) /\ (forall c0 r, (a, c :: s).2 = c0 :: r -> c0 <> 95)).
  { cbn [fst snd]. rewrite strip_keep by exact N. split; [reflexivity|]. intros ? ? [= <- _]. exact N. }
  cbn [scan]. apply Z.eqb_neq in N. rewrite N. change (sawdot (clr a)) with (sawdot a). change (nd (clr a)) with (nd a). change (mt (clr a)) with (mt a). change (dp (clr a)) with (dp a). destruct (c =? 46).
  - destruct (sawdot a); [exact Stop|]. apply (IH (Mant (mt a) (nd a) (nd a) true (sawdigits a) (under a))).
  - destruct (dec_digit c).
    + destruct ((c =? 48) && (nd a =? 0)); [apply (IH (Mant (mt a) (nd a) (dp a - 1) (sawdot a) true (under a)))|]. apply (IH (Mant (mt a * (if hex then 16 else 10) + (c - 48)) (nd a + 1) (dp a) (sawdot a) true (under a))).
    + destruct (hex && hex_letter c); [|exact Stop]. apply (IH (Mant (mt a * 16 + (lower c - 97 + 10)) (nd a + 1) (dp a) (sawdot a) true (under a))).
Qed.
Lemma scan_exp_strip s : forall e u, scan_exp (strip s) e false = ((scan_exp s e u).1.1, false, strip (scan_exp s e u).2).
Proof.
  induction s as [|c s IH]; intros e u; [reflexivity|]. rewrite strip_cons. cbn [scan_exp]. destruct (Z.eqb_spec c 95) as [->|N]; [apply IH|]. cbn [scan_exp]. pose proof N as N'. apply Z.eqb_neq in N. rewrite N.
  destruct (dec_digit c); [apply IH|]. cbn [fst snd]. rewrite strip_keep by exact N'. reflexivity.
Qed.
Lemma strip_sign sgn t : is_sign sgn -> strip (sgn ++ t) = sgn ++ strip t.
Proof. intros [->|[->| ->]]; reflexivity. Qed.
Lemma digit_keep c : dec_digit c = true -> c <> 95.
Proof. intros H. apply dec_digit_iff in H. unfold is_digit in H. lia. Qed.
Lemma read_exp_strip s u e u' r : read_exp s u = Some (e, u', r) -> read_exp (strip s) false = Some (e, false, strip r).
Proof.
  unfold read_exp. destruct (split_sign_form s) as (sgn & t & -> & Hs & Ht). rewrite (split_sign_spec sgn t Hs Ht), (strip_sign sgn t Hs). destruct t as [|c t]; [discriminate|]. destruct (dec_digit c) eqn:Ec; [|discriminate].
  pose proof (scan_exp_strip (c :: t) 0 u) as X. rewrite (strip_keep c) in * by (apply digit_keep; exact Ec). rewrite split_sign_spec; [|exact Hs|intros E ? ? [= <- _]; exact (Ht E c t eq_refl)]. rewrite Ec.
  rewrite X. destruct (scan_exp (c :: t) 0 u) as [[e0 u0] r0]. cbn [fst snd]. intros [= <- <- <-]. reflexivity.
Qed.
Theorem read_strip s x : read_float s = Some x -> n_rest x = [] -> read_float (strip s) = Some x.
Proof.
  destruct (split_sign_form s) as (sgn & t & -> & Hs & Ht). unfold read_float. rewrite (split_sign_spec sgn t Hs Ht), (strip_sign sgn t Hs). set (a0 := Mant 0 0 0 false false false).
  assert (Hp : exists hex t', t = pre hex ++ t' /\ split_prefix t = (is_hex hex, t') /\ match hex with Some y => x_char y | None => True end).
  { destruct t as [|z [|c [|y r]]]; try (exists None; eexists; split; [reflexivity|split; [reflexivity|exact I]]). cbn [split_prefix]. destruct ((z =? 48) && (lower c =? 120)) eqn:E.
    - apply andb_true_iff in E as [E1 E2]. apply Z.eqb_eq in E1, E2. apply lower_letter in E2; [|lia]. exists (Some c), (y :: r). subst z. split; [reflexivity|]. split; [reflexivity|]. exact E2.
    - exists None. eexists. split; [reflexivity|split; [reflexivity|exact I]]. }
  destruct Hp as (hex & t' & Et & -> & Hx). set (h := is_hex hex) in *. pose proof (scan_strip h t' a0) as [S1 S2]. change (clr a0) with a0 in S1. destruct (scan h t' a0) as [a r] eqn:Es. cbn [fst snd] in *.
  destruct (sawdigits a) eqn:Esd; [|discriminate]. cbn [negb]. intros H Hrest.
  assert (Hempty : forall q, scan h q a0 = (a0, q) -> strip t' <> q).
  { intros q Hq E. rewrite E, Hq in S1. apply (f_equal (fun p => sawdigits p.1)) in S1. cbn in S1. congruence. }
  (* the sign *)
  assert (Es1 : split_sign (sgn ++ strip t) = (sgn_neg sgn, strip t)).
  { apply split_sign_spec; [exact Hs|]. intros E c q Eq. destruct hex as [y|]; cbn [pre app] in Et.
    - rewrite Et in Eq. rewrite strip_keep in Eq by lia. injection Eq as <- _. lia.
    - subst t'. assert (N : c <> 43 /\ c <> 45 \/ (c = 43 \/ c = 45)) by lia. destruct N as [N|N]; [exact N|]. exfalso. apply (Hempty (c :: q)); [|exact Eq].
      apply scan_stop; [|lia|left; lia]. unfold isd. destruct N as [-> | ->]; reflexivity. }
  rewrite Es1. fold (sgn_neg sgn) in H.
  (* the prefix *)
  assert (Es2 : split_prefix (strip t) = (h, strip t')).
  { destruct hex as [y|]; cbn [pre app is_hex] in *.
    - rewrite Et. rewrite !strip_keep by (unfold x_char in Hx; lia). apply (split_prefix_spec (Some y)). split; [exact Hx|]. apply Hempty. reflexivity.
    - subst t'. apply (split_prefix_spec None). intros z c y q Eq. destruct (Z.eq_dec z 48) as [->|]; [|auto]. right. intros Xc.
      assert (E : scan h (strip t) a0 = (Mant 0 0 (-1) false true false, c :: y :: q)).
      { rewrite Eq. cbn [scan]. change (48 =? 95) with false. change (48 =? 46) with false. change (dec_digit 48) with true. cbn match. cbn [andb nd mt dp sawdot sawdigits under a0]. change (48 =? 48) with true. change (0 =? 0) with true. cbn match. change (0 - 1) with (-1).
        unfold h. cbn [is_hex]. destruct Xc as [-> | ->]; reflexivity. }
      rewrite E in S1. apply (f_equal snd) in S1. cbn [snd] in S1. destruct r as [|c' r]; [discriminate|]. rewrite strip_keep in S1 by (apply (S2 c' r); reflexivity). injection S1 as <- _.
      assert (El : (lower c =? (if h then 112 else 101)) = false) by (unfold h; cbn [is_hex]; destruct Xc as [-> | ->]; reflexivity). rewrite El in H. unfold h in H. cbn [is_hex] in H.
      destruct (under a && _); [discriminate|]. injection H as <-. discriminate Hrest. }
  rewrite Es2, S1. cbn [clr sawdigits sawdot dp nd mt under]. rewrite Esd. cbn [negb]. destruct r as [|c r].
  - cbn [strip List.filter]. destruct h; [discriminate|]. destruct (under a && _); [discriminate|]. cbn [andb]. exact H.
  - rewrite strip_keep by (apply (S2 c r); reflexivity). destruct (lower c =? (if h then 112 else 101)).
    + destruct (read_exp r (under a)) as [[[e u] r']|] eqn:Er; [|discriminate]. rewrite (read_exp_strip _ _ _ _ _ Er). destruct (u && _); [discriminate|]. cbn [andb]. injection H as <-. cbn [n_rest] in *. rewrite Hrest. reflexivity.
    + destruct h; [discriminate|]. destruct (under a && _); [discriminate|]. injection H as <-. discriminate Hrest.
Qed.
Theorem parse_strip s : parse_float s = S754_zero false \/ parse_float s = parse_float (strip s).
Proof.
  unfold parse_float at 1 2. destruct (special s) as [[f n]|] eqn:E.
  - destruct (Nat.eqb_spec n (length s)) as [->|]; [|auto]. right. assert (Hn : 95 ∉ s).
    { apply special_full in E. assert (G : forall w, (map fold_case w = str_inf \/ map fold_case w = str_infinity \/ map fold_case w = str_nan) -> 95 ∉ w).
      { intros w Hw Hin. apply (elem_of_list_fmap_1 fold_case) in Hin. change (fold_case <$> w) with (map fold_case w) in Hin. change (fold_case 95) with 95 in Hin. destruct Hw as [Hw|[Hw|Hw]]; rewrite Hw in Hin; repeat (apply elem_of_cons in Hin as [Hin|Hin]; [discriminate|]); apply elem_of_nil in Hin; exact Hin. }
      destruct E as [(sgn & w & -> & Hs & Hw & _)|[Hw _]]; [|apply G; auto]. rewrite elem_of_app. intros [Hin|Hin]; [|revert Hin; apply G; destruct Hw; auto].
      destruct Hs as [->|[->| ->]]; repeat (apply elem_of_cons in Hin as [Hin|Hin]; [discriminate|]); apply elem_of_nil in Hin; exact Hin. }
    rewrite strip_none by exact Hn. unfold parse_float. rewrite E, Nat.eqb_refl. reflexivity.
  - destruct (read_float s) as [x|] eqn:Er; [|auto]. destruct (n_rest x) eqn:En; [|auto]. right. pose proof (read_strip s x Er En) as Er'. destruct (read_shape (strip s) x (strip_notin s) Er' En) as (l & El & Hl).
    unfold parse_float. rewrite Er', En. assert (Es : special (strip s) = None); [|rewrite Es; reflexivity]. rewrite El. unfold l_text. apply special_number; [apply Hl|apply text_head; exact Hl].
Qed.
