From Verif Require Import Base ConvModel.
Local Open Scope Z.
Ltac zm := Z.div_mod_to_equations; lia.

(** a Unicode scalar value *)
Definition scalar (r : Z) : Prop := 0 <= r <= 55295 \/ 57344 <= r <= 1114111.
Definition is_byte (c : Z) : Prop := 0 <= c <= 255.
Lemma surrogate_spec r : surrogate r = true <-> 55296 <= r <= 57343.
Proof. unfold surrogate. rewrite andb_true_iff, !Z.leb_le. tauto. Qed.
Lemma scalar_dec r : scalar r \/ ~ scalar r.
Proof. unfold scalar. destruct (decide (0 <= r <= 55295)); [left; tauto|]. destruct (decide (57344 <= r <= 1114111)); [left; tauto|right; tauto]. Qed.

(** the four shapes of an encoding *)
Lemma encode_cases r : scalar r ->
  (r <= 127 /\ encode_rune r = [r]) \/
  (127 < r <= 2047 /\ encode_rune r = [192 + r / 64; 128 + r mod 64]) \/
  (2047 < r <= 65535 /\ encode_rune r = [224 + r / 4096; 128 + r / 64 mod 64; 128 + r mod 64]) \/
  (65535 < r /\ encode_rune r = [240 + r / 262144; 128 + r / 4096 mod 64; 128 + r / 64 mod 64; 128 + r mod 64]).
Proof.
  intros H. unfold scalar in H. unfold encode_rune. rewrite (Z.mod_small r) by lia. cbv zeta.
  destruct (Z.leb_spec r 127); [left; split; [lia|reflexivity]|]. destruct (Z.leb_spec r 2047); [right; left; split; [lia|reflexivity]|].
  unfold max_rune. destruct (Z.ltb_spec 1114111 r); [lia|]. destruct (surrogate r) eqn:S; [apply surrogate_spec in S; lia|]. cbn [orb].
  destruct (Z.leb_spec r 65535); [right; right; left; split; [lia|reflexivity]|right; right; right; split; [lia|reflexivity]].
Qed.
Lemma encode_bad r : - 2^31 <= r < 2^31 -> ~ scalar r -> encode_rune r = encode_rune rune_error.
Proof.
  intros Hr H. unfold scalar in H. change (encode_rune rune_error) with [239; 191; 189]. unfold encode_rune. cbv zeta.
  assert (E : (0 <= r /\ r mod 2^32 = r) \/ (r < 0 /\ r mod 2^32 = r + 2^32)) by (destruct (decide (0 <= r)); [left; split; [lia|]; apply Z.mod_small; lia|right; split; [lia|]; rewrite <- (Z.mod_add r 1) by lia; apply Z.mod_small; lia]).
  destruct (Z.leb_spec (r mod 2^32) 127); [lia|]. destruct (Z.leb_spec (r mod 2^32) 2047); [lia|].
  assert (B : (max_rune <? r mod 2^32) || surrogate (r mod 2^32) = true).
  { apply orb_true_iff. rewrite surrogate_spec, Z.ltb_lt. unfold max_rune. lia. }
  rewrite B. reflexivity.
Qed.
Lemma encode_bytes r : - 2^31 <= r < 2^31 -> Forall is_byte (encode_rune r).
Proof.
  intros Hr. assert (G : forall r, scalar r -> Forall is_byte (encode_rune r)).
  { clear. intros r H. pose proof H as H'. unfold scalar in H'. destruct (encode_cases r H) as [[B ->]|[[B ->]|[[B ->]|[B ->]]]]; repeat constructor; unfold is_byte; zm. }
  destruct (scalar_dec r) as [S|S]; [apply G; exact S|]. rewrite encode_bad by assumption. apply G. right. unfold rune_error. lia.
Qed.
Lemma encode_nonempty r : scalar r -> (1 <= length (encode_rune r))%nat.
Proof. intros H. destruct (encode_cases r H) as [[_ ->]|[[_ ->]|[[_ ->]|[_ ->]]]]; cbn; lia. Qed.
Ltac bb := repeat match goal with
  | |- context [Z.leb ?a ?b] => destruct (Z.leb_spec a b); try (exfalso; zm)
  | |- context [Z.ltb ?a ?b] => destruct (Z.ltb_spec a b); try (exfalso; zm) end.
Lemma decode_encode r t : scalar r -> decode_rune (encode_rune r ++ t) = (r, length (encode_rune r)).
Proof.
  intros H. pose proof H as H'. unfold scalar in H'. destruct (encode_cases r H) as [[B ->]|[[B ->]|[[B ->]|[B ->]]]]; cbn [app decode_rune length].
  - destruct (Z.ltb_spec r 128); [reflexivity|lia].
  - destruct (Z.ltb_spec (192 + r / 64) 128); [zm|]. destruct (Z.leb_spec 192 (192 + r / 64)); [|zm]. destruct (Z.ltb_spec (192 + r / 64) 224); [|zm]. cbn [andb].
    assert (E : (192 + r / 64) mod 32 * 64 + (128 + r mod 64) mod 64 = r) by zm. rewrite E. unfold cont. bb. reflexivity.
  - destruct (Z.ltb_spec (224 + r / 4096) 128); [zm|]. destruct (Z.leb_spec 192 (224 + r / 4096)); [|zm]. destruct (Z.ltb_spec (224 + r / 4096) 224); [zm|].
    destruct (Z.leb_spec 224 (224 + r / 4096)); [|zm]. destruct (Z.ltb_spec (224 + r / 4096) 240); [|zm]. cbn [andb].
    assert (E : (224 + r / 4096) mod 16 * 4096 + (128 + r / 64 mod 64) mod 64 * 64 + (128 + r mod 64) mod 64 = r) by zm. rewrite E.
    destruct (surrogate r) eqn:S; [apply surrogate_spec in S; lia|]. unfold cont. bb. reflexivity.
  - destruct (Z.ltb_spec (240 + r / 262144) 128); [zm|]. destruct (Z.leb_spec 192 (240 + r / 262144)); [|zm]. destruct (Z.ltb_spec (240 + r / 262144) 224); [zm|].
    destruct (Z.leb_spec 224 (240 + r / 262144)); [|zm]. destruct (Z.ltb_spec (240 + r / 262144) 240); [zm|]. destruct (Z.leb_spec 240 (240 + r / 262144)); [|zm]. destruct (Z.ltb_spec (240 + r / 262144) 248); [|zm]. cbn [andb].
    assert (E : (240 + r / 262144) mod 8 * 262144 + (128 + r / 4096 mod 64) mod 64 * 4096 + (128 + r / 64 mod 64) mod 64 * 64 + (128 + r mod 64) mod 64 = r) by zm. rewrite E.
    unfold max_rune, cont. bb. reflexivity.
Qed.
(** what is decoded is an encoding that stands there, or the replacement for one byte *)
Lemma decode_rune_sound s : s <> [] -> Forall is_byte s -> decode_rune s = (rune_error, 1%nat) \/
  exists r t, decode_rune s = (r, length (encode_rune r)) /\ s = encode_rune r ++ t /\ scalar r.
Proof.
  intros N Hb. destruct s as [|a s]; [congruence|]. apply Forall_cons in Hb as [Ha Hb]. unfold is_byte in Ha. cbn [decode_rune].
  assert (G : forall r l t, l = encode_rune r -> scalar r -> l ++ t = a :: s -> exists r0 t0, (r, length l) = (r0, length (encode_rune r0)) /\ a :: s = encode_rune r0 ++ t0 /\ scalar r0).
  { intros r l t -> Hr E. exists r, t. split; [reflexivity|]. split; [symmetry; exact E|exact Hr]. }
  destruct (Z.ltb_spec a 128).
  { right. assert (Hs : scalar a) by (left; lia). apply (G a [a] s); [|exact Hs|reflexivity]. destruct (encode_cases a Hs) as [[_ ->]|[[? _]|[[? _]|[? _]]]]; [reflexivity|lia|lia|lia]. }
  destruct ((192 <=? a) && (a <? 224)) eqn:C1.
  { apply andb_true_iff in C1 as [C1 C2]. apply Z.leb_le in C1. apply Z.ltb_lt in C2. destruct s as [|b s]; [left; reflexivity|].
    destruct (cont b && (127 <? a mod 32 * 64 + b mod 64)) eqn:C3; [|left; reflexivity]. right.
    apply andb_true_iff in C3 as [C3 C4]. unfold cont in C3. apply andb_true_iff in C3 as [C3 C5]. apply Z.leb_le in C3, C5. apply Z.ltb_lt in C4.
    assert (Hs : scalar (a mod 32 * 64 + b mod 64)) by (left; zm).
    apply (G _ [a; b] s); [|exact Hs|reflexivity]. destruct (encode_cases _ Hs) as [[? _]|[[_ ->]|[[? _]|[? _]]]]; [zm| |zm|zm].
    f_equal; [zm|]. f_equal. zm. }
  destruct ((224 <=? a) && (a <? 240)) eqn:C2.
  { apply andb_true_iff in C2 as [D1 D2]. apply Z.leb_le in D1. apply Z.ltb_lt in D2. destruct s as [|b [|c s]]; [left; reflexivity|left; reflexivity|].
    destruct (cont b && cont c && (2047 <? a mod 16 * 4096 + b mod 64 * 64 + c mod 64) && negb (surrogate (a mod 16 * 4096 + b mod 64 * 64 + c mod 64))) eqn:C3; [|left; reflexivity]. right.
    rewrite !andb_true_iff in C3. destruct C3 as [[[B C] C4] C5]. unfold cont in B, C. rewrite andb_true_iff, !Z.leb_le in B, C. apply Z.ltb_lt in C4. apply negb_true_iff in C5.
    set (r := a mod 16 * 4096 + b mod 64 * 64 + c mod 64) in *.
    assert (S : ~ (55296 <= r <= 57343)) by (intros S; apply surrogate_spec in S; congruence).
    assert (Hr : r <= 65535) by (unfold r; zm).
    assert (Hs : scalar r) by (unfold scalar; lia).
    apply (G _ [a; b; c] s); [|exact Hs|reflexivity]. destruct (encode_cases _ Hs) as [[? _]|[[? _]|[[_ ->]|[? _]]]]; [lia|lia| |lia].
    unfold r. f_equal; [zm|]. f_equal; [zm|]. f_equal. zm. }
  destruct ((240 <=? a) && (a <? 248)) eqn:C3; [|left; reflexivity].
  apply andb_true_iff in C3 as [D1 D2]. apply Z.leb_le in D1. apply Z.ltb_lt in D2. destruct s as [|b [|c [|d s]]]; try (left; reflexivity).
  set (r := a mod 8 * 262144 + b mod 64 * 4096 + c mod 64 * 64 + d mod 64) in *.
  destruct (cont b && cont c && cont d && (65535 <? r) && (r <=? max_rune)) eqn:C4; [|left; reflexivity]. right.
  rewrite !andb_true_iff in C4. destruct C4 as [[[[B C] D] C4] C5]. unfold cont in B, C, D. rewrite andb_true_iff, !Z.leb_le in B, C, D. apply Z.ltb_lt in C4. apply Z.leb_le in C5. unfold max_rune in C5.
  assert (Hs : scalar r) by (unfold scalar; lia).
  apply (G _ [a; b; c; d] s); [|exact Hs|reflexivity]. destruct (encode_cases _ Hs) as [[? _]|[[? _]|[[? _]|[_ ->]]]]; [lia|lia|lia|].
  unfold r. f_equal; [zm|]. f_equal; [zm|]. f_equal; [zm|]. f_equal. zm.
Qed.
Lemma decode_nil f : decode f [] = [].
Proof. destruct f; reflexivity. Qed.
Lemma decode_pos (s : list Z) : s <> [] -> Forall is_byte s -> (1 <= (decode_rune s).2)%nat.
Proof. intros N H. destruct (decode_rune_sound s N H) as [->|(r & t & -> & _ & S)]; [cbn; lia|apply encode_nonempty; exact S]. Qed.
Lemma decode_fuel f : forall s, Forall is_byte s -> (length s <= f)%nat -> decode f s = string_to_runes s.
Proof.
  assert (G : forall f g s, Forall is_byte s -> (length s <= f)%nat -> (length s <= g)%nat -> decode f s = decode g s).
  { clear. induction f as [|f IH]; intros g s Hb Hf Hg.
    - destruct s; [|cbn in Hf; lia]. rewrite !decode_nil. reflexivity.
    - destruct s as [|a s]; [rewrite !decode_nil; reflexivity|]. destruct g as [|g]; [cbn in Hg; lia|]. cbn [decode].
      pose proof (decode_pos (a :: s) ltac:(discriminate) Hb) as P. destruct (decode_rune (a :: s)) as [r n]. cbn [snd] in P. f_equal.
      assert (L : length (drop n (a :: s)) = (length (a :: s) - n)%nat) by apply drop_length. cbn [length] in *.
      apply IH; [apply Forall_drop; exact Hb|lia|lia]. }
  intros s Hb Hf. apply G; [exact Hb|exact Hf|lia].
Qed.
Lemma decode_encode_cons r t : scalar r -> Forall is_byte t -> string_to_runes (encode_rune r ++ t) = r :: string_to_runes t.
Proof.
  intros H Ht. unfold string_to_runes at 1. assert (Hl : Forall is_byte (encode_rune r)) by (apply encode_bytes; unfold scalar in H; lia).
  pose proof (encode_nonempty r H) as N. pose proof (decode_encode r t H) as D. rewrite app_length.
  destruct (encode_rune r) as [|a l]; [cbn in N; lia|]. cbn [length app Nat.add] in *. cbn [decode]. rewrite D.
  f_equal. change (a :: l ++ t) with ((a :: l) ++ t). change (S (length l)) with (length (a :: l)). rewrite drop_app. apply decode_fuel; [exact Ht|lia].
Qed.
Lemma decode_bad s a t : s = a :: t -> decode_rune s = (rune_error, 1%nat) -> Forall is_byte s -> string_to_runes s = rune_error :: string_to_runes t.
Proof.
  intros -> D Hb. unfold string_to_runes at 1. cbn [length decode]. rewrite D. reflexivity.
Qed.
Lemma runes_bytes rs : Forall (fun r => - 2^31 <= r < 2^31) rs -> Forall is_byte (runes_to_string rs).
Proof. induction 1 as [|r rs Hr _ IH]; cbn [runes_to_string flat_map]; [constructor|]. apply Forall_app. split; [apply encode_bytes; exact Hr|exact IH]. Qed.
Lemma scalar_i32 r : scalar r -> - 2^31 <= r < 2^31.
Proof. unfold scalar. lia. Qed.
Lemma runes_roundtrip rs : Forall scalar rs -> string_to_runes (runes_to_string rs) = rs.
Proof.
  induction 1 as [|r rs Hr H IH]; [reflexivity|]. cbn [runes_to_string flat_map]. fold (runes_to_string rs). rewrite decode_encode_cons; [rewrite IH; reflexivity|exact Hr|].
  apply runes_bytes. eapply Forall_impl; [exact H|exact scalar_i32].
Qed.
(** a rune, made a scalar value *)
Definition to_scalar (r : Z) : Z := if ((0 <=? r) && (r <=? 55295)) || ((57344 <=? r) && (r <=? 1114111)) then r else rune_error.
Lemma to_scalar_spec r : (scalar r -> to_scalar r = r) /\ (~ scalar r -> to_scalar r = rune_error).
Proof.
  unfold to_scalar, scalar. destruct (((0 <=? r) && (r <=? 55295)) || ((57344 <=? r) && (r <=? 1114111))) eqn:E.
  - split; [reflexivity|]. intros N. exfalso. apply N. rewrite orb_true_iff, !andb_true_iff, !Z.leb_le in E. tauto.
  - split; [|reflexivity]. intros N. exfalso. rewrite <- not_true_iff_false, orb_true_iff, !andb_true_iff, !Z.leb_le in E. tauto.
Qed.
Lemma to_scalar_scalar r : scalar (to_scalar r).
Proof. destruct (scalar_dec r) as [H|H]; [rewrite (proj1 (to_scalar_spec r) H); exact H|rewrite (proj2 (to_scalar_spec r) H); right; unfold rune_error; lia]. Qed.
Lemma runes_norm rs : Forall (fun r => - 2^31 <= r < 2^31) rs -> runes_to_string rs = runes_to_string (map to_scalar rs).
Proof.
  induction 1 as [|r rs Hr _ IH]; [reflexivity|]. cbn [runes_to_string flat_map map]. fold (runes_to_string rs) (runes_to_string (map to_scalar rs)). rewrite IH. f_equal.
  destruct (scalar_dec r) as [S|S]; [rewrite (proj1 (to_scalar_spec r) S); reflexivity|]. rewrite (proj2 (to_scalar_spec r) S). apply encode_bad; assumption.
Qed.
Lemma string_to_runes_scalar s : Forall is_byte s -> Forall scalar (string_to_runes s).
Proof.
  intros Hb. remember (length s) as n eqn:E. assert (L : (length s <= n)%nat) by lia. clear E. revert s Hb L.
  induction n as [|n IH]; intros s Hb L; (destruct s as [|a s]; [constructor|]); [cbn in L; lia|].
  destruct (decode_rune_sound (a :: s) ltac:(discriminate) Hb) as [D|(r & t & D & E & S)].
  - rewrite (decode_bad _ a s eq_refl D Hb). constructor; [right; unfold rune_error; lia|]. apply IH; [inversion Hb; assumption|cbn in L; lia].
  - rewrite E. rewrite E in Hb, L. apply Forall_app in Hb as [_ Hb]. rewrite decode_encode_cons by assumption. constructor; [exact S|]. apply IH; [exact Hb|].
    rewrite app_length in L. pose proof (encode_nonempty r S). lia.
Qed.
