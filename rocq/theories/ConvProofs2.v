From Verif Require Import Base ConvModel ConvProofs.
Local Open Scope Z.

(** *** ParseInt *)
Definition clamp (z : Z) : Z := Z.max (- 2^63) (Z.min (2^63 - 1) z).
Definition sign_of (sg : list Z) : Z := match sg with 45 :: _ => -1 | _ => 1 end.
Definition is_sign (sg : list Z) : Prop := sg = [] \/ sg = [43] \/ sg = [45].
Lemma parse_int_of sg s un err : is_sign sg -> s <> [] -> (sg = [] -> forall c t, s = c :: t -> c <> 43 /\ c <> 45) -> parse_uint s = (un, err) -> 0 <= un < 2^64 ->
  (parse_int (sg ++ s)).1 = match err with ESyntax => 0 | _ => clamp (sign_of sg * un) end.
Proof.
  intros Hsg N Hs E Hu.
  assert (G : forall c s', sg ++ s = c :: s' -> (if (c =? 43) || (c =? 45) then s' else c :: s') = s /\ (sign_of sg = if c =? 45 then -1 else 1)).
  { intros c s' F. destruct Hsg as [->|[->| ->]]; cbn [app] in F.
    - destruct (Hs eq_refl c s' F) as [C1 C2]. apply Z.eqb_neq in C1, C2. rewrite C1, C2. cbn [orb]. split; [congruence|reflexivity].
    - injection F as <- <-. split; reflexivity.
    - injection F as <- <-. split; reflexivity. }
  destruct (sg ++ s) as [|c s'] eqn:F; [destruct Hsg as [->|[->| ->]]; cbn in F; congruence|]. destruct (G c s' eq_refl) as [G1 G2].
  unfold parse_int. cbv zeta. rewrite G1, E, G2. unfold clamp.
  destruct err; [|reflexivity|];
  (destruct (c =? 45); cbn [negb andb];
   [destruct (Z.ltb_spec (2^63) un); cbn [fst]; [lia|]; destruct (decide (un = 2^63)) as [->|]; [reflexivity|]; rewrite (i64_id un) by (unfold is_i64; lia); rewrite (i64_id (- un)) by (unfold is_i64; lia); lia
   |destruct (Z.leb_spec (2^63) un); cbn [fst]; [lia|]; rewrite (i64_id un) by (unfold is_i64; lia); lia]).
Qed.
Lemma parse_int_digits sg ds : is_sign sg -> ds <> [] -> Forall is_digit ds -> (parse_int (sg ++ ds)).1 = clamp (sign_of sg * dec_val ds).
Proof.
  intros Hsg N H. pose proof (dec_val_nonneg ds H).
  assert (Hs : sg = [] -> forall c t, ds = c :: t -> c <> 43 /\ c <> 45) by (intros _ c t ->; apply Forall_cons in H as [H _]; unfold is_digit in H; lia).
  pose proof (parse_uint_digits ds N H) as P. destruct (Z.ltb_spec (dec_val ds) (2^64)) as [L|L].
  - rewrite (parse_int_of sg ds _ _ Hsg N Hs P) by lia. reflexivity.
  - rewrite (parse_int_of sg ds _ _ Hsg N Hs P) by (unfold max_u64; lia). unfold clamp, max_u64. destruct Hsg as [->|[->| ->]]; cbn [sign_of]; lia.
Qed.
Lemma parse_int_junk sg a c t : is_sign sg -> Forall is_digit a -> ~ is_digit c -> (sg = [] -> a = [] -> c <> 43 /\ c <> 45) ->
  (parse_int (sg ++ a ++ c :: t)).1 = if dec_val a <? 2^64 then 0 else clamp (sign_of sg * 2^64).
Proof.
  intros Hsg Ha Hc Hs.
  assert (Hs' : sg = [] -> forall c0 t0, a ++ c :: t = c0 :: t0 -> c0 <> 43 /\ c0 <> 45).
  { intros E c0 t0 F. destruct a as [|x a]; cbn in F; injection F as <- _; [apply Hs; [exact E|reflexivity]|]. apply Forall_cons in Ha as [Ha _]. unfold is_digit in Ha. lia. }
  assert (N : a ++ c :: t <> []) by (destruct a; discriminate).
  pose proof (parse_uint_junk a c t Ha Hc) as P. destruct (Z.ltb_spec (dec_val a) (2^64)) as [L|L].
  - rewrite (parse_int_of sg _ _ _ Hsg N Hs' P) by lia. reflexivity.
  - rewrite (parse_int_of sg _ _ _ Hsg N Hs' P) by (unfold max_u64; lia). unfold clamp, max_u64. destruct Hsg as [->|[->| ->]]; cbn [sign_of]; lia.
Qed.
Lemma parse_int_format n : - 2^63 <= n < 2^63 -> (parse_int (format_int n)).1 = n.
Proof.
  intros H. unfold format_int. destruct (Z.ltb_spec n 0).
  - assert (E : u64 (- n) = - n) by (apply u64_id; unfold is_u64; lia). rewrite E. destruct (format_uint_spec (- n) ltac:(lia)) as (F1 & F2 & F3 & _).
    change (45 :: format_uint (- n)) with ([45] ++ format_uint (- n)). rewrite parse_int_digits by (assumption || (right; right; reflexivity)). rewrite F3. unfold clamp. cbn [sign_of]. lia.
  - destruct (format_uint_spec n ltac:(lia)) as (F1 & F2 & F3 & _). change (format_uint n) with ([] ++ format_uint n). rewrite parse_int_digits by (assumption || (left; reflexivity)). rewrite F3. unfold clamp. cbn [sign_of]. lia.
Qed.
Lemma parse_uint_format n : 0 <= n < 2^64 -> (parse_uint (format_uint n)).1 = n.
Proof.
  intros H. destruct (format_uint_spec n H) as (F1 & F2 & F3 & _). rewrite parse_uint_digits by assumption. rewrite F3. destruct (Z.ltb_spec n (2^64)); [reflexivity|lia].
Qed.

(** *** the table of built-in converters *)
Section table.
Context (ff : Floats.SpecFloat.spec_float -> list Z) (pf : list Z -> Floats.SpecFloat.spec_float) (oob : ity -> Floats.SpecFloat.spec_float -> Z).
Lemma look_table {A} (tbl : list (bty * bty * (A -> A))) : forall (m : registry A) T R,
  NoDup (map fst tbl) ->
  look (foldl (fun m '(T, R, f) => register m (bgty T) (bgty R) f) m tbl) (Some (bgty T)) (Some (bgty R)) =
  match List.find (fun x => bool_decide (x.1 = (T, R))) tbl with Some x => Some (Entry (bgty T) (bgty R) x.2) | None => look m (Some (bgty T)) (Some (bgty R)) end.
Proof.
  assert (Inj : forall a b, bgty a = bgty b -> a = b).
  { intros a b [=E]. destruct a as [t| | | |]; destruct b as [t'| | | |]; try destruct t; try destruct t'; cbn in E; congruence. }
  induction tbl as [|[[T0 R0] f0] tbl IH]; intros m T R N; [reflexivity|]. cbn [map fst] in N. apply NoDup_cons in N as [N1 N2].
  cbn [foldl List.find fst snd]. rewrite IH by exact N2. destruct (decide ((T0, R0) = (T, R))) as [[= -> ->]|Ne].
  - rewrite bool_decide_true by reflexivity. destruct (List.find _ tbl) as [[p g]|] eqn:F.
    + apply List.find_some in F as [F1 F2]. apply bool_decide_eq_true in F2. cbn in F2. subst p. exfalso. apply N1. apply elem_of_list_In. exact (in_map fst _ _ F1).
    + rewrite look_register. rewrite decide_True by (split; reflexivity). reflexivity.
  - rewrite bool_decide_false by exact Ne. destruct (List.find _ tbl); [reflexivity|]. rewrite look_register. rewrite decide_False; [reflexivity|].
    intros [E1 E2]. cbn in E1, E2. injection E1 as E1. injection E2 as E2. apply Ne. f_equal; apply Inj; unfold bgty; congruence.
Qed.
Lemma table_nodup : NoDup (map fst (init_table ff pf oob)).
Proof.
  assert (E : map fst (init_table ff pf oob) = map fst (init_table (fun _ => []) (fun _ => Floats.SpecFloat.S754_nan) (fun _ _ => 0))) by reflexivity.
  rewrite E. apply (bool_decide_unpack _). vm_compute. exact I.
Qed.
Lemma convert_table T R v : convert ff pf oob T R v = match List.find (fun x => bool_decide (x.1 = (T, R))) (init_table ff pf oob) with Some x => Some (x.2 v) | None => None end.
Proof.
  unfold convert. rewrite into_look. change (key (bgty R)) with (Some (bgty R)). unfold builtin. rewrite look_table by apply table_nodup.
  destruct (List.find _ _); [|reflexivity]. cbn [e_from e_to e_fn]. rewrite !decide_True by reflexivity. reflexivity.
Qed.
Ltac tbl := intros; rewrite convert_table; reflexivity.
Lemma convert_num T R v : convert ff pf oob (BNum T) (BNum R) v = Some (conv_num oob T R v).
Proof. destruct T; destruct R; tbl. Qed.
Lemma convert_str_num R v : convert ff pf oob BStr (BNum R) v = Some (conv_from_string pf R v).
Proof. destruct R; tbl. Qed.
Lemma convert_num_str T v : convert ff pf oob (BNum T) BStr v = Some (conv_to_string ff T v).
Proof. destruct T; tbl. Qed.
Lemma convert_bool_num R v : convert ff pf oob BBool (BNum R) v = Some (conv_from_bool R v).
Proof. destruct R; tbl. Qed.
Lemma convert_num_bool T v : convert ff pf oob (BNum T) BBool v = Some (conv_to_bool T v).
Proof. destruct T; tbl. Qed.
Lemma convert_others : 
  (forall b, convert ff pf oob BBool BStr (VBool b) = Some (VStr (bool_to_string b))) /\ (forall s, convert ff pf oob BStr BBool (VStr s) = Some (VBool (string_to_bool s))) /\
  (forall s, convert ff pf oob BStr BBytes (VStr s) = Some (VBytes s)) /\ (forall b, convert ff pf oob BBytes BStr (VBytes b) = Some (VStr b)) /\
  (forall s, convert ff pf oob BStr BRunes (VStr s) = Some (VRunes (string_to_runes s))) /\ (forall r, convert ff pf oob BRunes BStr (VRunes r) = Some (VStr (runes_to_string r))).
Proof. repeat split; tbl. Qed.
Lemma convert_refl T v : (forall t, T <> BNum t) -> convert ff pf oob T T v = Some v.
Proof. intros H. destruct T as [t| | | |]; [congruence|tbl|tbl|tbl|tbl]. Qed.
(** the pairs that have a converter *)
Definition supported (T R : bty) : bool :=
  match T, R with
  | BNum _, (BNum _ | BStr | BBool) | (BStr | BBool), BNum _ => true
  | (BStr | BBool), (BStr | BBool) => true
  | BStr, (BBytes | BRunes) | (BBytes | BRunes), BStr => true
  | BBytes, BBytes | BRunes, BRunes => true
  | _, _ => false
  end.
Lemma convert_supported T R v : (match convert ff pf oob T R v with Some _ => true | None => false end) = supported T R.
Proof. rewrite convert_table. destruct T as [t| | | |]; destruct R as [t'| | | |]; try destruct t; try destruct t'; reflexivity. Qed.
End table.
Lemma nty_good T t : nty_ity T = Some t -> good_ity t /\ (bits t <= 64).
Proof. destruct T; intros [= <-]; cbn; unfold good_ity; cbn; lia. Qed.
