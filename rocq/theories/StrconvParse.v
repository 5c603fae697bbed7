(** What parse_float reads.  Lemmas for StrconvProps.v. *)
From Verif Require Import Base ConvModel ConvProofs ConvProofs2 StrconvModel.
From Coq Require Import Floats.SpecFloat ZArith.
Local Open Scope Z.

Lemma lower_or c : lower c = if Z.testbit c 5 then c else c + 32.
Proof.
  unfold lower. destruct (Z.testbit c 5) eqn:E.
  - apply Z.bits_inj'. intros n Hn. rewrite Z.lor_spec. change 32 with (2^5). rewrite Z.pow2_bits_eqb by lia. destruct (Z.eqb_spec 5 n); [subst; rewrite E; reflexivity|apply orb_false_r].
  - rewrite Z.add_nocarry_lxor.
    + apply Z.bits_inj'. intros n Hn. rewrite Z.lor_spec, Z.lxor_spec. change 32 with (2^5). rewrite Z.pow2_bits_eqb by lia. destruct (Z.eqb_spec 5 n); [subst; rewrite E; reflexivity|]. rewrite orb_false_r, xorb_false_r. reflexivity.
    + apply Z.bits_inj'. intros n Hn. rewrite Z.land_spec, Z.bits_0. change 32 with (2^5). rewrite Z.pow2_bits_eqb by lia. destruct (Z.eqb_spec 5 n); [subst; rewrite E; reflexivity|apply andb_false_r].
Qed.
Lemma lower_letter c v : 97 <= v <= 122 -> lower c = v <-> c = v \/ c = v - 32.
Proof.
  intros Hv. rewrite lower_or. assert (B : Z.testbit v 5 = true /\ Z.testbit (v - 32) 5 = false).
  { assert (G : forall n : nat, (n < 26)%nat -> Z.testbit (97 + Z.of_nat n) 5 = true /\ Z.testbit (97 + Z.of_nat n - 32) 5 = false) by (intros n Hn; do 26 (destruct n as [|n]; [split; reflexivity|]); lia).
    specialize (G (Z.to_nat (v - 97)) ltac:(lia)). replace (97 + Z.of_nat (Z.to_nat (v - 97))) with v in G by lia. exact G. }
  destruct B as [B1 B2]. split.
  - destruct (Z.testbit c 5); lia.
  - intros [->| ->]; [rewrite B1; reflexivity|rewrite B2; lia].
Qed.
Lemma hex_letter_iff c : hex_letter c = true <-> 97 <= c <= 102 \/ 65 <= c <= 70.
Proof.
  unfold hex_letter. rewrite andb_true_iff, !Z.leb_le. split.
  - intros H. destruct (lower_letter c (lower c) ltac:(lia)) as [L _]. specialize (L eq_refl). lia.
  - intros [H|H].
    + destruct (lower_letter c c ltac:(lia)) as [_ L]. rewrite L by (left; reflexivity). lia.
    + destruct (lower_letter c (c + 32) ltac:(lia)) as [_ L]. rewrite L by (right; lia). lia.
Qed.
Lemma dec_digit_iff c : dec_digit c = true <-> is_digit c.
Proof. unfold dec_digit, is_digit. rewrite andb_true_iff, !Z.leb_le. tauto. Qed.

(** *** digits in base ten or sixteen *)
Definition isd (hex : bool) (c : Z) : bool := dec_digit c || hex && hex_letter c.
Definition dv (c : Z) : Z := if dec_digit c then c - 48 else lower c - 87.
Definition num (hex : bool) (n : Z) (ds : list Z) : Z := foldl (fun n c => n * (if hex then 16 else 10) + dv c) n ds.
Definition all_d (hex : bool) (ds : list Z) : Prop := Forall (fun c => isd hex c = true) ds.
Lemma isd_iff hex c : isd hex c = true <-> is_digit c \/ hex = true /\ (97 <= c <= 102 \/ 65 <= c <= 70).
Proof. unfold isd. rewrite orb_true_iff, andb_true_iff, dec_digit_iff, hex_letter_iff. tauto. Qed.
Lemma num_dec ds : Forall is_digit ds -> forall n, num false n ds = dec_from n ds.
Proof.
  induction 1 as [|c ds Hc H IH]; intros n; [reflexivity|]. cbn [num dec_from foldl]. assert (E : dv c = c - 48) by (unfold dv; rewrite (proj2 (dec_digit_iff c) Hc); reflexivity).
  rewrite E. rewrite <- IH. unfold num. f_equal. lia.
Qed.
Lemma num_nonneg hex ds : all_d hex ds -> forall n, 0 <= n -> 0 <= num hex n ds.
Proof.
  induction 1 as [|c ds Hc H IH]; intros n Hn; [exact Hn|]. cbn [num foldl]. apply IH. assert (0 <= dv c); [|destruct hex; lia].
  apply isd_iff in Hc. unfold dv. destruct (dec_digit c) eqn:E; [apply dec_digit_iff in E; unfold is_digit in E; lia|]. destruct Hc as [Hc|[_ Hc]]; [apply dec_digit_iff in Hc; congruence|].
  destruct Hc as [Hc|Hc]; [rewrite (proj2 (lower_letter c c ltac:(lia))) by auto|rewrite (proj2 (lower_letter c (c + 32) ltac:(lia))) by lia]; lia.
Qed.
Lemma all_d_dec ds : all_d false ds <-> Forall is_digit ds.
Proof. unfold all_d. apply Forall_iff. intros c. rewrite isd_iff. intuition congruence. Qed.

Lemma scan_digits hex ds r : all_d hex ds -> forall a, 0 <= nd a -> (nd a = 0 -> mt a = 0) ->
  exists a', scan hex (ds ++ r) a = scan hex r a' /\ mt a' = num hex (mt a) ds /\ dp a' - nd a' = dp a - nd a - Z.of_nat (length ds) /\ sawdot a' = sawdot a /\
    sawdigits a' = (sawdigits a || match ds with [] => false | _ => true end) /\ under a' = under a /\ 0 <= nd a' /\ (nd a' = 0 -> mt a' = 0).
Proof.
  induction 1 as [|c ds Hc H IH]; intros a Ha Hz.
  - exists a. cbn [app num foldl length]. rewrite orb_false_r. repeat split; auto; lia.
  - assert (N1 : (c =? 95) = false /\ (c =? 46) = false). { apply isd_iff in Hc. unfold is_digit in Hc. split; apply Z.eqb_neq; lia. } destruct N1 as [N1 N2].
    cbn [app scan]. rewrite N1, N2.
    assert (G : forall a1, 0 <= nd a1 -> (nd a1 = 0 -> mt a1 = 0) -> mt a1 = mt a * (if hex then 16 else 10) + dv c -> dp a1 - nd a1 = dp a - nd a - 1 -> sawdot a1 = sawdot a -> sawdigits a1 = true -> under a1 = under a ->
      exists a', scan hex (ds ++ r) a1 = scan hex r a' /\ mt a' = num hex (mt a) (c :: ds) /\ dp a' - nd a' = dp a - nd a - Z.of_nat (length (c :: ds)) /\ sawdot a' = sawdot a /\
        sawdigits a' = (sawdigits a || true) /\ under a' = under a /\ 0 <= nd a' /\ (nd a' = 0 -> mt a' = 0)).
    { intros a1 A1 A2 A3 A4 A5 A6 A7. destruct (IH a1 A1 A2) as (a' & B1 & B2 & B3 & B4 & B5 & B6 & B7 & B8). exists a'. split; [exact B1|]. split; [rewrite B2, A3; reflexivity|]. split; [cbn [length]; lia|].
      split; [congruence|]. split; [rewrite B5, A6, orb_true_r; reflexivity|]. split; [congruence|]. split; assumption. }
    destruct (dec_digit c) eqn:Ec.
    + assert (Ev : dv c = c - 48) by (unfold dv; rewrite Ec; reflexivity). apply dec_digit_iff in Ec. unfold is_digit in Ec. destruct ((c =? 48) && (nd a =? 0)) eqn:Ez.
      * apply andb_true_iff in Ez as [E1 E2]. apply Z.eqb_eq in E1, E2. apply G; cbn [mt nd dp sawdot sawdigits under]; auto; [|lia]. rewrite (Hz E2), Ev. destruct hex; lia.
      * apply G; cbn [mt nd dp sawdot sawdigits under]; auto; lia.
    + assert (Hx : hex = true /\ hex_letter c = true). { unfold isd in Hc. rewrite Ec in Hc. apply andb_true_iff in Hc. exact Hc. } destruct Hx as [-> Hx]. rewrite Hx. cbn [andb].
      assert (Ev : dv c = lower c - 97 + 10) by (unfold dv; rewrite Ec; lia). apply G; cbn [mt nd dp sawdot sawdigits under]; auto; lia.
Qed.
Lemma scan_stop hex c r a : isd hex c = false -> c <> 95 -> (c <> 46 \/ sawdot a = true) -> scan hex (c :: r) a = (a, c :: r).
Proof.
  intros H1 H2 H3. cbn [scan]. apply Z.eqb_neq in H2. rewrite H2. unfold isd in H1. apply orb_false_iff in H1 as [H1 H1']. destruct (Z.eqb_spec c 46) as [->|N].
  - destruct H3 as [H3|H3]; [congruence|]. rewrite H3. reflexivity.
  - rewrite H1, H1'. reflexivity.
Qed.
Lemma split_d hex (s : list Z) : exists ds r, s = ds ++ r /\ all_d hex ds /\ (r = [] \/ exists c t, r = c :: t /\ isd hex c = false).
Proof.
  induction s as [|c s IH]; [exists [], []; repeat split; auto; constructor|]. destruct (isd hex c) eqn:E.
  - destruct IH as (ds & r & -> & H1 & H2). exists (c :: ds), r. split; [reflexivity|]. split; [constructor; assumption|exact H2].
  - exists [], (c :: s). split; [reflexivity|]. split; [constructor|right; eauto].
Qed.

(** *** the exponent *)
Fixpoint exp_from (e : Z) (ds : list Z) : Z := match ds with [] => e | c :: r => exp_from (if e <? 10000 then e * 10 + (c - 48) else e) r end.
Lemma scan_exp_digits ds r : Forall is_digit ds -> forall e u, scan_exp (ds ++ r) e u = scan_exp r (exp_from e ds) u.
Proof.
  induction 1 as [|c ds Hc H IH]; intros e u; [reflexivity|]. cbn [app scan_exp exp_from]. rewrite (proj2 (dec_digit_iff c) Hc). unfold is_digit in Hc. destruct (Z.eqb_spec c 95); [lia|]. apply IH.
Qed.
Lemma scan_exp_stop c r e u : dec_digit c = false -> c <> 95 -> scan_exp (c :: r) e u = (e, u, c :: r).
Proof. intros H N. cbn [scan_exp]. apply Z.eqb_neq in N. rewrite N, H. reflexivity. Qed.
Lemma exp_from_big ds : Forall is_digit ds -> forall e, 10000 <= e -> exp_from e ds = e.
Proof. induction 1 as [|c ds Hc H IH]; intros e He; [reflexivity|]. cbn [exp_from]. destruct (Z.ltb_spec e 10000); [lia|]. apply IH. exact He. Qed.
Lemma exp_from_small ds : Forall is_digit ds -> forall e, 0 <= e -> dec_from e ds < 100000 -> exp_from e ds = dec_from e ds.
Proof.
  induction 1 as [|c ds Hc H IH]; intros e He Hs; [reflexivity|]. cbn [exp_from]. change (dec_from e (c :: ds)) with (dec_from (10 * e + (c - 48)) ds) in *. unfold is_digit in Hc.
  pose proof (dec_from_le ds (10 * e + (c - 48)) ltac:(lia) H). destruct (Z.ltb_spec e 10000).
  - replace (e * 10 + (c - 48)) with (10 * e + (c - 48)) by lia. apply IH; lia.
  - lia.
Qed.
Lemma exp_from_range ds : Forall is_digit ds -> forall e, 0 <= e < 100000 -> 0 <= exp_from e ds < 100000 /\ (10000 <= dec_from e ds -> 10000 <= exp_from e ds).
Proof.
  induction 1 as [|c ds Hc H IH]; intros e He; [split; [exact He|intros E; exact E]|]. cbn [exp_from]. change (dec_from e (c :: ds)) with (dec_from (10 * e + (c - 48)) ds). unfold is_digit in Hc. destruct (Z.ltb_spec e 10000).
  - replace (e * 10 + (c - 48)) with (10 * e + (c - 48)) by lia. apply IH. lia.
  - rewrite exp_from_big by assumption. lia.
Qed.
(** an exponent: a sign and digits *)
Definition exp_val (sgn ds : list Z) : Z := sign_of sgn * exp_from 0 ds.
Lemma split_sign_spec sgn t : is_sign sgn -> (sgn = [] -> forall c r, t = c :: r -> c <> 43 /\ c <> 45) -> split_sign (sgn ++ t) = (match sgn with [c] => c =? 45 | _ => false end, t).
Proof.
  intros [->|[->| ->]] H; [|reflexivity|reflexivity]. destruct t as [|c r]; [reflexivity|]. cbn [app split_sign]. destruct (H eq_refl c r eq_refl) as [N1 N2].
  apply Z.eqb_neq in N1, N2. rewrite N1, N2. reflexivity.
Qed.
Lemma split_sign_form (s : list Z) : exists sgn t, s = sgn ++ t /\ is_sign sgn /\ (sgn = [] -> forall c r, t = c :: r -> c <> 43 /\ c <> 45).
Proof.
  destruct s as [|c r]; [exists [], []; repeat split; [left; reflexivity|discriminate|discriminate]|].
  destruct (Z.eq_dec c 43) as [->|N1]; [exists [43], r; repeat split; [right; left; reflexivity|discriminate|discriminate]|].
  destruct (Z.eq_dec c 45) as [->|N2]; [exists [45], r; repeat split; [right; right; reflexivity|discriminate|discriminate]|].
  exists [], (c :: r). split; [reflexivity|]. split; [left; reflexivity|]. intros _ ? ? [= <- <-]. auto.
Qed.
Lemma digits_nosign ds r : ds <> [] -> Forall is_digit ds -> forall c t, ds ++ r = c :: t -> c <> 43 /\ c <> 45.
Proof. intros N H c t E. destruct ds as [|x ds]; [congruence|]. injection E as <- _. apply Forall_cons in H as [H _]. unfold is_digit in H. lia. Qed.
Lemma read_exp_digits sgn ds r u : is_sign sgn -> ds <> [] -> Forall is_digit ds -> (r = [] \/ exists c t, r = c :: t /\ dec_digit c = false /\ c <> 95) ->
  read_exp (sgn ++ ds ++ r) u = Some (exp_val sgn ds, u, r).
Proof.
  intros Hs Hn Hd Hr. unfold read_exp. rewrite (split_sign_spec sgn (ds ++ r) Hs) by (intros _; apply digits_nosign; assumption).
  assert (E : scan_exp (ds ++ r) 0 u = (exp_from 0 ds, u, r)). { rewrite scan_exp_digits by exact Hd. destruct Hr as [->|(c & t & -> & H1 & H2)]; [reflexivity|apply scan_exp_stop; assumption]. }
  destruct ds as [|x ds]; [congruence|]. cbn [app] in *. assert (Hx : dec_digit x = true) by (apply dec_digit_iff; apply Forall_cons in Hd as [Hd _]; exact Hd). rewrite Hx, E. unfold exp_val.
  destruct Hs as [->|[->| ->]]; cbn [sign_of]; try reflexivity; do 3 f_equal; destruct (exp_from 0 (x :: ds)); reflexivity.
Qed.
Lemma read_exp_none s u : (forall sgn ds r, s = sgn ++ ds ++ r -> is_sign sgn -> Forall is_digit ds -> ds <> [] -> False) -> read_exp s u = None.
Proof.
  intros H. unfold read_exp. destruct (split_sign_form s) as (sgn & t & -> & Hs & Ht). rewrite (split_sign_spec sgn t Hs Ht). destruct t as [|c t]; [reflexivity|]. destruct (dec_digit c) eqn:E; [|reflexivity].
  exfalso. apply (H sgn [c] t); [reflexivity|exact Hs|constructor; [apply dec_digit_iff; exact E|constructor]|discriminate].
Qed.

(** *** numbers *)
Definition e_char (hex : bool) (c : Z) : bool := lower c =? (if hex then 112 else 101).
Lemma e_char_iff hex c : e_char hex c = true <-> c = (if hex then 112 else 101) \/ c = (if hex then 80 else 69).
Proof. unfold e_char. rewrite Z.eqb_eq. destruct hex; rewrite lower_letter by lia; simpl; tauto. Qed.
Lemma e_char_nd hex c : e_char hex c = true -> isd hex c = false /\ c <> 95 /\ c <> 46.
Proof. rewrite e_char_iff. intros H. split; [|destruct hex; cbn match in H; lia]. destruct (isd hex c) eqn:E; [|reflexivity]. apply isd_iff in E. unfold is_digit in E. destruct hex; cbn match in H; destruct E as [E|[E1 E2]]; try congruence; lia. Qed.
(** digits with an optional point: what scan makes of it *)
Definition body (ip : list Z) (fp : option (list Z)) : list Z := ip ++ match fp with Some f => 46 :: f | None => [] end.
Definition frac (fp : option (list Z)) : list Z := match fp with Some f => f | None => [] end.
Lemma scan_body hex ip fp r : all_d hex ip -> all_d hex (frac fp) ->
  (r = [] \/ exists c t, r = c :: t /\ isd hex c = false /\ c <> 95 /\ (c <> 46 \/ fp <> None)) ->
  exists a, scan hex (body ip fp ++ r) (Mant 0 0 0 false false false) = (a, r) /\ mt a = num hex 0 (ip ++ frac fp) /\
    (if sawdot a then dp a else nd a) - nd a = - Z.of_nat (length (frac fp)) /\ sawdigits a = (match ip ++ frac fp with [] => false | _ => true end) /\ under a = false.
Proof.
  intros Hi Hf Hr. destruct (scan_digits hex ip (match fp with Some f => 46 :: f | None => [] end ++ r) Hi (Mant 0 0 0 false false false) ltac:(cbn; lia) ltac:(reflexivity)) as (a & A1 & A2 & A3 & A4 & A5 & A6 & A7 & A8).
  unfold body. rewrite <- app_assoc, A1. cbn [mt nd dp sawdot sawdigits under orb] in *. destruct fp as [f|]; cbn [frac] in *.
  - cbn [app scan]. change (46 =? 95) with false. change (46 =? 46) with true. cbn match. rewrite A4.
    destruct (scan_digits hex f r Hf (Mant (mt a) (nd a) (nd a) true (sawdigits a) (under a)) A7 A8) as (b & B1 & B2 & B3 & B4 & B5 & B6 & B7 & B8). cbn [mt nd dp sawdot sawdigits under] in *.
    exists b. split.
    + rewrite B1. destruct Hr as [->|(c & t & -> & H1 & H2 & H3)]; [reflexivity|]. apply scan_stop; [exact H1|exact H2|right; exact B4].
    + split; [rewrite B2, A2; unfold num; rewrite foldl_app; reflexivity|]. rewrite B4. split; [cbn match; lia|]. split; [|congruence]. rewrite B5, A5. destruct ip, f; reflexivity.
  - rewrite app_nil_r. exists a. split.
    + cbn [app]. destruct Hr as [->|(c & t & -> & H1 & H2 & H3)]; [reflexivity|]. apply scan_stop; [exact H1|exact H2|left; destruct H3; congruence].
    + split; [exact A2|]. rewrite A4. split; [cbn match; cbn [length]; lia|]. split; [exact A5|exact A6].
Qed.
(** the prefix *)
Definition pre (hex : option Z) : list Z := match hex with Some x => [48; x] | None => [] end.
Definition is_hex (hex : option Z) : bool := match hex with Some _ => true | None => false end.
Definition x_char (c : Z) : Prop := c = 120 \/ c = 88.
Lemma split_prefix_spec hex t : match hex with Some x => x_char x /\ t <> [] | None => forall z c y r, t = z :: c :: y :: r -> z <> 48 \/ ~ x_char c end -> split_prefix (pre hex ++ t) = (is_hex hex, t).
Proof.
  destruct hex as [x|]; cbn [pre app is_hex].
  - intros [Hx Ht]. destruct t as [|y r]; [congruence|]. cbn [split_prefix]. rewrite Z.eqb_refl. assert (E : lower x = 120) by (apply lower_letter; [lia|destruct Hx; [left|right]; lia]). rewrite E. reflexivity.
  - intros H. destruct t as [|z [|c [|y r]]]; try reflexivity. cbn [split_prefix]. destruct ((z =? 48) && (lower c =? 120)) eqn:E; [|reflexivity]. exfalso.
    apply andb_true_iff in E as [E1 E2]. apply Z.eqb_eq in E1, E2. apply lower_letter in E2; [|lia]. destruct (H z c y r eq_refl) as [N|N]; [congruence|]. apply N. unfold x_char. lia.
Qed.
Definition expo (e : option (Z * list Z * list Z)) : list Z := match e with Some (c, sgn, ds) => c :: sgn ++ ds | None => [] end.
Definition expo_val (e : option (Z * list Z * list Z)) : Z := match e with Some (_, sgn, ds) => exp_val sgn ds | None => 0 end.
Definition expo_ok (hex : bool) (e : option (Z * list Z * list Z)) : Prop :=
  match e with Some (c, sgn, ds) => e_char hex c = true /\ is_sign sgn /\ ds <> [] /\ Forall is_digit ds | None => hex = false end.
Definition sgn_neg (sgn : list Z) : bool := match sgn with [c] => c =? 45 | _ => false end.
Lemma body_form hex ip fp r : all_d hex ip -> ip ++ frac fp <> [] -> forall c t, body ip fp ++ r = c :: t -> isd hex c = true \/ c = 46.
Proof.
  intros Hi Hn c t E. unfold body in E. destruct ip as [|x ip].
  - destruct fp as [f|]; [|contradiction (Hn eq_refl)]. injection E as <- _. right. reflexivity.
  - injection E as <- _. left. apply Forall_cons in Hi as [Hi _]. exact Hi.
Qed.
Lemma read_number sgn hex ip fp e r : is_sign sgn -> all_d (is_hex hex) ip -> all_d (is_hex hex) (frac fp) -> ip ++ frac fp <> [] -> match hex with Some x => x_char x | None => True end ->
  expo_ok (is_hex hex) e ->
  (r = [] \/ exists c t, r = c :: t /\ isd (is_hex hex) c = false /\ c <> 95 /\ (c <> 46 \/ fp <> None \/ e <> None) /\ (e = None -> e_char false c = false) /\ (hex = None -> ~ x_char c)) ->
  read_float (sgn ++ pre hex ++ body ip fp ++ expo e ++ r) =
    Some (Number (sgn_neg sgn) (is_hex hex) (num (is_hex hex) 0 (ip ++ frac fp)) (expo_val e - (if is_hex hex then 4 else 1) * Z.of_nat (length (frac fp))) r).
Proof.
  intros Hs Hi Hf Hn Hx He Hr. unfold read_float.
  assert (Hbody : forall c t, body ip fp ++ expo e ++ r = c :: t -> isd (is_hex hex) c = true \/ c = 46) by (intros c t; apply body_form; assumption).
  rewrite split_sign_spec; [|exact Hs|].
  2:{ intros _ c t E. destruct hex as [x|]; cbn [pre app] in E; [injection E as <- _; lia|]. apply Hbody in E as [E|E]; [|lia]. apply isd_iff in E. unfold is_digit in E. cbn [is_hex] in E. destruct E as [E|[E _]]; [lia|discriminate]. }
  rewrite split_prefix_spec.
  2:{ destruct hex as [x|].
      - split; [exact Hx|]. intros E. destruct ip; [|discriminate]. destruct fp; [discriminate|]. apply Hn. reflexivity.
      - intros z c y t E. right. intros Xc. cbn [is_hex] in *.
        (* the second character *)
        assert (G : isd false c = true \/ c = 46 \/ e_char false c = true \/ (e = None /\ exists t', r = c :: t')).
        { unfold body in E. destruct ip as [|i1 [|i2 ip]].
          - destruct fp as [[|f1 f]|]; [contradiction (Hn eq_refl)| |contradiction (Hn eq_refl)]. injection E as _ <- _. left. cbn [frac] in Hf. apply Forall_cons in Hf as [Hf _]. exact Hf.
          - destruct fp as [f|].
            + injection E as _ <- _. auto.
            + cbn [app] in E. destruct e as [[[ec es] ed]|].
              * injection E as _ <- _. destruct He as (He & _). auto.
              * cbn [expo app] in E. injection E as _ E. do 3 right. eauto.
          - injection E as _ <- _. left. apply Forall_cons in Hi as [_ Hi]. apply Forall_cons in Hi as [Hi _]. exact Hi. }
        destruct G as [G|[G|[G|[G1 (t' & G2)]]]].
        + apply isd_iff in G. unfold is_digit, x_char in *. destruct G as [G|[G _]]; [lia|discriminate].
        + unfold x_char in Xc. lia.
        + apply e_char_iff in G. unfold x_char in Xc. lia.
        + destruct Hr as [->|(c' & t'' & -> & _ & _ & _ & _ & Hr)]; [discriminate|]. injection G2 as <- _. apply Hr; [reflexivity|exact Xc]. }
  assert (Hr' : expo e ++ r = [] \/ exists c t, expo e ++ r = c :: t /\ isd (is_hex hex) c = false /\ c <> 95 /\ (c <> 46 \/ fp <> None)).
  { destruct e as [[[c sg] ds]|].
    - right. destruct He as (He & _). apply e_char_nd in He as (E1 & E2 & E3). exists c. eexists. split; [reflexivity|]. auto.
    - cbn [expo app]. destruct Hr as [->|(c & t & -> & H1 & H2 & H3 & _)]; [auto|]. right. exists c, t. split; [reflexivity|]. destruct H3 as [H3|[H3|H3]]; [auto|auto|congruence]. }
  destruct (scan_body (is_hex hex) ip fp (expo e ++ r) Hi Hf Hr') as (a & A1 & A2 & A3 & A4 & A5). rewrite A1.
  assert (Esd : sawdigits a = true) by (rewrite A4; destruct (ip ++ frac fp); [congruence|reflexivity]). rewrite Esd. cbn [negb].
  destruct e as [[[c sg] ds]|]; cbn [expo expo_val expo_ok app] in *.
  - destruct He as (He & Hsg & Hds & Hdd). unfold e_char in He. rewrite He. rewrite <- app_assoc. rewrite (read_exp_digits sg ds r (under a) Hsg Hds Hdd).
    + rewrite A5. cbn [andb]. f_equal. unfold sgn_neg. rewrite A2. f_equal. destruct (is_hex hex); lia.
    + destruct Hr as [->|(c' & t & -> & H1 & H2 & _)]; [auto|]. right. exists c', t. unfold isd in H1. apply orb_false_iff in H1 as [H1 _]. auto.
  - rewrite He in *. destruct Hr as [->|(c & t & -> & H1 & H2 & H3 & H4 & H5)].
    + rewrite A5. cbn [andb]. f_equal. unfold sgn_neg. rewrite A2. f_equal. lia.
    + unfold e_char in H4. rewrite H4 by reflexivity. rewrite A5. cbn [andb]. f_equal. unfold sgn_neg. rewrite A2. f_equal. lia.
Qed.
