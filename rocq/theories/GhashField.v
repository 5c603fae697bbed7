(** The product of GHASH is that of a field: it is bilinear, commutative, associative and
    without zero divisors.  The last needs the polynomial x^128 + x^7 + x^2 + x + 1 to be
    irreducible; it follows from x having order 2^128 - 1. *)
From Verif Require Import Base PassModel AesModel AesCipherModel GhashPrimes.
From Coq Require Import Znumtheory.
Local Open Scope Z.

(** multiplication by x *)
Definition X (v : Z) : Z := if Z.odd v then Z.lxor (v / 2) (225 * 2 ^ 120) else v / 2.
Fixpoint G (n : nat) (x v : Z) : Z := match n with O => 0 | S n => Z.lxor (if Z.testbit x (Z.of_nat n) then v else 0) (G n x (X v)) end.
Definition mul (x y : Z) : Z := G 128 x y.
Definition one : Z := 2 ^ 127.
Definition field (v : Z) : Prop := 0 <= v < 2 ^ 128.

Lemma ghash_mul_G n : forall x v z, ghash_mul n x v z = Z.lxor z (G n x v).
Proof.
  induction n as [|n IH]; intros x v z; cbn [ghash_mul G]; [rewrite Z.lxor_0_r; reflexivity|]. rewrite IH. fold (X v). rewrite <- Z.lxor_assoc. f_equal. destruct (Z.testbit _ _); [reflexivity|]. rewrite Z.lxor_0_r. reflexivity.
Qed.
Lemma ghash_mul_mul x v : ghash_mul 128 x v 0 = mul x v.
Proof. rewrite ghash_mul_G, Z.lxor_0_l. reflexivity. Qed.

(** *** additive maps that commute with X *)
Lemma lxor4 a b c d : Z.lxor (Z.lxor a b) (Z.lxor c d) = Z.lxor (Z.lxor a c) (Z.lxor b d).
Proof. rewrite !Z.lxor_assoc. f_equal. rewrite <- !Z.lxor_assoc. f_equal. apply Z.lxor_comm. Qed.
Lemma X_add v w : X (Z.lxor v w) = Z.lxor (X v) (X w).
Proof.
  unfold X. rewrite <- !Z.bit0_odd, Z.lxor_spec, !Z.bit0_odd. assert (D : Z.lxor v w / 2 = Z.lxor (v / 2) (w / 2)). { rewrite <- !Z.div2_div, !Z.div2_spec. apply Z.shiftr_lxor. } rewrite D.
  destruct (Z.odd v), (Z.odd w); cbn [xorb]; [|rewrite !Z.lxor_assoc; f_equal; apply Z.lxor_comm|rewrite !Z.lxor_assoc; reflexivity|reflexivity].
  rewrite lxor4, Z.lxor_nilpotent, Z.lxor_0_r. reflexivity.
Qed.
Definition oper (T : Z -> Z) : Prop := (forall v w, T (Z.lxor v w) = Z.lxor (T v) (T w)) /\ (forall v, T (X v) = X (T v)).
Lemma oper_0 T : oper T -> T 0 = 0.
Proof. intros [H _]. pose proof (H 0 0) as E. rewrite Z.lxor_0_l in E. rewrite Z.lxor_nilpotent in E. exact E. Qed.
Lemma oper_X : oper X.
Proof. split; [apply X_add|reflexivity]. Qed.
Lemma oper_comp T S : oper T -> oper S -> oper (fun v => T (S v)).
Proof. intros [A1 A2] [B1 B2]. split; intros; [rewrite B1, A1|rewrite B2, A2]; reflexivity. Qed.
Lemma oper_id : oper (fun v => v).
Proof. split; reflexivity. Qed.
Lemma oper_G T n : oper T -> forall x v, T (G n x v) = G n x (T v).
Proof.
  intros HT. pose proof HT as [A1 A2]. induction n as [|n IH]; intros x v; cbn [G]; [apply oper_0, HT|]. rewrite A1, IH, A2. f_equal. destruct (Z.testbit _ _); [reflexivity|apply oper_0, HT].
Qed.
Lemma G_add_r n : forall x v w, G n x (Z.lxor v w) = Z.lxor (G n x v) (G n x w).
Proof. induction n as [|n IH]; intros x v w; cbn [G]; [reflexivity|]. rewrite X_add, IH, lxor4. f_equal. destruct (Z.testbit _ _); reflexivity. Qed.
Lemma G_add_l n : forall x y v, G n (Z.lxor x y) v = Z.lxor (G n x v) (G n y v).
Proof.
  induction n as [|n IH]; intros x y v; cbn [G]; [reflexivity|]. rewrite IH, lxor4. f_equal. rewrite Z.lxor_spec. destruct (Z.testbit x _), (Z.testbit y _); cbn [xorb]; rewrite ?Z.lxor_0_r, ?Z.lxor_0_l; [|reflexivity..]. symmetry. apply Z.lxor_nilpotent.
Qed.
Lemma oper_mul x : oper (mul x).
Proof. split; [apply G_add_r|]. intros v. symmetry. apply (oper_G X). apply oper_X. Qed.
Lemma mul_add_l x y v : mul (Z.lxor x y) v = Z.lxor (mul x v) (mul y v).
Proof. apply G_add_l. Qed.
Lemma mul_add_r x v w : mul x (Z.lxor v w) = Z.lxor (mul x v) (mul x w).
Proof. apply G_add_r. Qed.
Lemma mul_0_r x : mul x 0 = 0.
Proof. apply oper_0, oper_mul. Qed.

(** *** the bounds *)
Lemma lxor_bound n a b : 0 <= n -> 0 <= a < 2 ^ n -> 0 <= b < 2 ^ n -> 0 <= Z.lxor a b < 2 ^ n.
Proof.
  intros Hn Ha Hb. assert (N : 0 <= Z.lxor a b) by (apply Z.lxor_nonneg; lia). split; [exact N|].
  destruct (Z.eq_dec (Z.lxor a b) 0) as [->|NZ]; [lia|]. apply Z.log2_lt_pow2; [lia|].
  pose proof (Z.log2_lxor a b ltac:(lia) ltac:(lia)) as L. assert (B : forall c, 0 <= c < 2 ^ n -> c = 0 \/ Z.log2 c < n).
  { intros c Hc. destruct (Z.eq_dec c 0); [left; assumption|right]. apply Z.log2_lt_pow2; lia. }
  destruct (B a Ha) as [->|La], (B b Hb) as [->|Lb]; try lia.
  - rewrite Z.lxor_0_l in NZ. lia.
  - rewrite Z.lxor_0_l in *. lia.
  - rewrite Z.lxor_0_r in *. lia.
Qed.
Lemma field_lxor a b : field a -> field b -> field (Z.lxor a b).
Proof. apply lxor_bound. lia. Qed.
Lemma field_0 : field 0. Proof. split; reflexivity || lia. Qed.
Lemma field_one : field one. Proof. unfold field, one. lia. Qed.
Lemma field_X v : field v -> field (X v).
Proof.
  intros H. unfold X. assert (D : field (v / 2)). { unfold field in *. split; [apply Z.div_pos; lia|]. apply Z.div_lt_upper_bound; lia. }
  destruct (Z.odd v); [|exact D]. apply field_lxor; [exact D|]. unfold field. lia.
Qed.
Lemma field_G n : forall x v, field v -> field (G n x v).
Proof. induction n as [|n IH]; intros x v H; cbn [G]; [apply field_0|]. apply field_lxor; [destruct (Z.testbit _ _); [exact H|apply field_0]|]. apply IH, field_X, H. Qed.
Lemma field_mul x v : field v -> field (mul x v).
Proof. apply field_G. Qed.

(** *** one, commutativity, associativity *)
Lemma G_one n : forall x, 0 <= x < 2 ^ Z.of_nat n -> G n x (2 ^ (Z.of_nat n - 1)) = x.
Proof.
  induction n as [|n IH]; intros x Hx; cbn [G]; [cbn in Hx; lia|].
  rewrite Nat2Z.inj_succ, Z.pow_succ_r in Hx by lia. replace (Z.of_nat (S n) - 1) with (Z.of_nat n) by lia.
  assert (R : G n x (X (2 ^ Z.of_nat n)) = x mod 2 ^ Z.of_nat n).
  { destruct n as [|n]; [cbn [G]; change (2 ^ Z.of_nat 0) with 1; rewrite Z.mod_1_r; reflexivity|].
    assert (E : X (2 ^ Z.of_nat (S n)) = 2 ^ (Z.of_nat (S n) - 1)).
    { unfold X. replace (Z.of_nat (S n)) with (Z.succ (Z.of_nat n)) by lia. rewrite Z.pow_succ_r by lia. rewrite Z.odd_mul. change (Z.odd 2) with false. cbn [andb]. rewrite Z.mul_comm, Z.div_mul by lia. f_equal. lia. }
    rewrite E. rewrite <- (IH (x mod 2 ^ Z.of_nat (S n))); [|apply Z.mod_pos_bound; lia].
    assert (C : forall m y v, (m <= S n)%nat -> G m y v = G m (y mod 2 ^ Z.of_nat (S n)) v).
    { induction m as [|m IHm]; intros y v Hm; cbn [G]; [reflexivity|]. rewrite Z.mod_pow2_bits_low by lia. rewrite <- IHm by lia. reflexivity. }
    apply C. lia. }
  rewrite R. pose proof (Z.mod_pos_bound x (2 ^ Z.of_nat n) ltac:(lia)) as B. pose proof (Z.div_mod x (2 ^ Z.of_nat n) ltac:(lia)) as Q.
  rewrite Z.testbit_eqb by lia. assert (D : x / 2 ^ Z.of_nat n = 0 \/ x / 2 ^ Z.of_nat n = 1).
  { assert (0 <= x / 2 ^ Z.of_nat n) by (apply Z.div_pos; lia). assert (x / 2 ^ Z.of_nat n < 2) by (apply Z.div_lt_upper_bound; lia). lia. }
  destruct D as [D|D]; rewrite D in *; cbn [Z.eqb].
  - change (0 mod 2 =? 1) with false. cbn iota. rewrite Z.lxor_0_l. lia.
  - change (1 mod 2 =? 1) with true. cbn iota. rewrite <- Z.add_nocarry_lxor; [lia|].
    apply Z.bits_inj'. intros i Hi. rewrite Z.land_spec, Z.bits_0, Z.pow2_bits_eqb by lia. destruct (Z.eqb_spec (Z.of_nat n) i) as [<-|]; [|reflexivity]. cbn [andb]. apply Z.mod_pow2_bits_high. lia.
Qed.
Lemma mul_one_r x : field x -> mul x one = x.
Proof. intros H. apply (G_one 128). exact H. Qed.
(** an additive map that commutes with X is the multiplication by its value at one *)
Lemma oper_char T v : oper T -> field v -> T v = mul v (T one).
Proof. intros HT Hv. rewrite <- (mul_one_r v Hv) at 1. unfold mul. apply (oper_G T). exact HT. Qed.
Lemma mul_comm x y : field x -> field y -> mul x y = mul y x.
Proof. intros Hx Hy. rewrite (oper_char (mul x) y (oper_mul x) Hy), (mul_one_r x Hx). reflexivity. Qed.
Lemma mul_one_l x : field x -> mul one x = x.
Proof. intros H. rewrite mul_comm by (exact H || apply field_one). apply mul_one_r, H. Qed.
Lemma mul_0_l x : mul 0 x = 0.
Proof. unfold mul. assert (E : forall n v, G n 0 v = 0); [|apply E]. induction n as [|n IH]; intros v; cbn [G]; [reflexivity|]. rewrite IH, Z.bits_0. reflexivity. Qed.
Lemma mul_assoc x y z : field x -> field y -> field z -> mul x (mul y z) = mul (mul x y) z.
Proof.
  intros Hx Hy Hz. rewrite (oper_char (fun v => mul x (mul y v)) z); [|apply (oper_comp (mul x) (mul y)); apply oper_mul|exact Hz].
  rewrite mul_one_r by exact Hy. apply mul_comm; [exact Hz|apply field_mul, Hy].
Qed.

(** *** the powers of x *)
Definition iter (n : Z) (v : Z) : Z := Z.iter n X v.
Lemma iter_0 v : iter 0 v = v. Proof. reflexivity. Qed.
Lemma iter_succ n v : 0 <= n -> iter (Z.succ n) v = X (iter n v).
Proof.
  intros H. unfold iter. rewrite !iter_nat_of_Z by lia. rewrite Zabs2Nat.inj_succ by exact H. reflexivity.
Qed.
Lemma iter_add m n v : 0 <= m -> 0 <= n -> iter (m + n) v = iter m (iter n v).
Proof.
  intros Hm Hn. revert m Hm. apply natlike_ind; [reflexivity|]. intros m Hm IH. rewrite Z.add_succ_l, !iter_succ by lia. rewrite IH. reflexivity.
Qed.
Lemma oper_iter n : 0 <= n -> oper (iter n).
Proof.
  revert n. apply natlike_ind; [exact oper_id|]. intros n Hn [IH1 IH2]. split; intros; rewrite !iter_succ by exact Hn; [rewrite IH1; apply X_add|rewrite IH2; reflexivity].
Qed.
Lemma field_iter n v : 0 <= n -> field v -> field (iter n v).
Proof. intros Hn Hv. revert n Hn. apply natlike_ind; [exact Hv|]. intros n Hn IH. rewrite iter_succ by exact Hn. apply field_X, IH. Qed.
Definition pw (n : Z) : Z := iter n one.
Lemma field_pw n : 0 <= n -> field (pw n).
Proof. intros H. apply field_iter; [exact H|apply field_one]. Qed.
Lemma iter_pw n v : 0 <= n -> field v -> iter n v = mul (pw n) v.
Proof. intros Hn Hv. rewrite (oper_char (iter n) v (oper_iter n Hn) Hv). apply mul_comm; [exact Hv|apply field_pw, Hn]. Qed.
Lemma pw_add m n : 0 <= m -> 0 <= n -> pw (m + n) = mul (pw m) (pw n).
Proof. intros Hm Hn. unfold pw at 1. rewrite iter_add by assumption. apply iter_pw; [exact Hm|apply field_pw, Hn]. Qed.
Fixpoint fast (p : positive) : Z :=
  match p with xH => X one | xO p => let y := fast p in mul y y | xI p => let y := fast p in X (mul y y) end.
Lemma fast_pw p : fast p = pw (Zpos p).
Proof.
  induction p as [p IH|p IH|]; cbn [fast]; [| |reflexivity].
  - rewrite IH, <- pw_add by lia. replace (Zpos p~1) with (Z.succ (Zpos p + Zpos p)) by lia. unfold pw. rewrite iter_succ by lia. reflexivity.
  - rewrite IH, <- pw_add by lia. f_equal. lia.
Qed.
Definition order : Z := 2 ^ 128 - 1.
Lemma pw_order : pw order = one.
Proof. unfold order. change (2 ^ 128 - 1) with (Zpos 340282366920938463463374607431768211455). rewrite <- fast_pw. vm_compute. reflexivity. Qed.
Lemma pw_factor q : In q factors -> pw (order / q) <> one.
Proof.
  intros H E. assert (A : forallb (fun q => match order / q with Zpos p => negb (fast p =? one) | _ => false end) factors = true) by (vm_compute; reflexivity).
  rewrite forallb_forall in A. specialize (A q H). destruct (order / q) as [|p|p]; try discriminate A. rewrite fast_pw in A. apply negb_true_iff, Z.eqb_neq in A. exact (A E).
Qed.
Lemma pw_mult n k : 0 <= n -> 0 <= k -> pw n = one -> pw (k * n) = one.
Proof.
  intros Hn Hk E. revert k Hk. apply natlike_ind; [reflexivity|]. intros k Hk IH. rewrite Z.mul_succ_l, pw_add, IH, E by nia. apply mul_one_l, field_one.
Qed.
(** [order] is a number whose digits are never needed below *)
Definition N : Z := order. Opaque order N.
Lemma N_pos : 1 < N. Proof. Transparent order N. unfold N, order. Opaque order N. lia. Qed.
Lemma N_field : N = 2 ^ 128 - 1. Proof. Transparent order N. reflexivity. Opaque order N. Qed.
Lemma pw_N : pw N = one. Proof. exact pw_order. Qed.
Lemma pw_proper d : 0 < d < N -> (d | N) -> pw d <> one.
Proof.
  intros Hd [e E] P.
  assert (He : 1 < e) by nia.
  assert (D : exists q, In q factors /\ (q | e)).
  { assert (A : forall l, (forall q, In q l -> prime q) -> (exists q, In q l /\ (q | e)) \/ rel_prime e (prodZ l)).
    { induction l as [|q l IH]; intros Hl; [right; unfold prodZ; cbn [foldr]; apply rel_prime_sym, rel_prime_1|].
      destruct (Zdivide_dec q e) as [Q|Q]; [left; exists q; split; [left; reflexivity|exact Q]|].
      destruct IH as [(q' & I & Q')|R]; [intros q' I; apply Hl; right; exact I|left; exists q'; split; [right; exact I|exact Q']|right].
      unfold prodZ. cbn [foldr]. apply rel_prime_mult; [|exact R]. apply rel_prime_sym, prime_rel_prime; [apply Hl; left; reflexivity|exact Q]. }
    destruct (A factors factors_prime) as [Y|R]; [exact Y|exfalso]. rewrite factors_product, <- N_field in R.
    assert (De : (e | N)) by (exists d; lia). destruct R as [_ _ R]. specialize (R e (Z.divide_refl e) De). apply Z.divide_1_r_nonneg in R; lia. }
  destruct D as (q & I & [k Q]). apply (pw_factor q I). pose proof (prime_ge_2 q (factors_prime q I)).
  assert (EN : order / q = k * d). { change order with N. rewrite E, Q. replace (k * q * d) with (k * d * q) by ring. apply Z.div_mul. lia. }
  rewrite EN. apply pw_mult; [lia|nia|exact P].
Qed.
Lemma pw_period i : 0 < i < N -> pw i <> one.
Proof.
  intros Hi P. pose proof N_pos as NP. destruct (Zis_gcd_bezout i N (Z.gcd i N) (Zgcd_is_gcd i N)) as [u v B].
  set (d := Z.gcd i N) in *. assert (Dp : 0 < d). { pose proof (Z.gcd_nonneg i N). destruct (Z.eq_dec (Z.gcd i N) 0) as [Z0|]; [apply Z.gcd_eq_0_l in Z0; lia|unfold d; lia]. }
  assert (Dl : d <= i) by (apply Z.divide_pos_le; [lia|apply Z.gcd_divide_l]).
  apply (pw_proper d); [lia|apply Z.gcd_divide_r|].
  assert (Pu : pw ((u mod N) * i) = one). { apply pw_mult; [lia|apply Z.mod_pos_bound; lia|exact P]. }
  assert (M : ((u mod N) * i) mod N = d).
  { rewrite Z.mul_mod_idemp_l by lia. replace (u * i) with (d + (- v) * N) by lia. rewrite Z.mod_add by lia. apply Z.mod_small. lia. }
  pose proof (Z.mod_pos_bound u N ltac:(lia)) as UB. set (w := (u mod N) * i) in *. assert (0 <= w) by (unfold w; nia). clearbody w.
  pose proof (Z.div_mod w N ltac:(lia)) as Q. rewrite M in Q. assert (0 <= w / N) by (apply Z.div_pos; lia).
  rewrite Q, Z.mul_comm, pw_add, pw_mult, mul_one_l in Pu by (try apply pw_N; try apply field_pw; nia). exact Pu.
Qed.
Lemma iter_N v : field v -> iter N v = v.
Proof. intros H. rewrite iter_pw by (exact H || pose proof N_pos; lia). rewrite pw_N. apply mul_one_l, H. Qed.
Lemma iter_inj n v w : 0 <= n <= N -> field v -> field w -> iter n v = iter n w -> v = w.
Proof.
  intros Hn Hv Hw E. rewrite <- (iter_N v Hv), <- (iter_N w Hw). replace N with ((N - n) + n) by lia. rewrite !iter_add by lia. rewrite E. reflexivity.
Qed.
Lemma pw_inj i j : 0 <= i < N -> 0 <= j < N -> pw i = pw j -> i = j.
Proof.
  assert (A : forall i j, 0 <= i < j -> j < N -> pw i = pw j -> False).
  { intros a b Ha Hb E. apply (pw_period (b - a)); [lia|]. symmetry. apply (iter_inj a); [lia|apply field_one|apply field_pw; lia|].
    unfold pw at 1. rewrite <- iter_add by lia. replace (a + (b - a)) with b by ring. exact E. }
  intros Hi Hj E. destruct (Z.lt_total i j) as [L|[L|L]]; [|exact L|]; exfalso; [apply (A i j)|apply (A j i)]; auto; lia.
Qed.
Lemma pw_nonzero i : 0 <= i <= N -> pw i <> 0.
Proof.
  intros Hi E. assert (Z0 : iter i 0 = 0) by (apply oper_0, oper_iter; lia). assert (one = 0); [|unfold one in *; lia].
  apply (iter_inj i); [lia|apply field_one|apply field_0|]. rewrite Z0. exact E.
Qed.
(** every element but 0 is a power of x *)
Lemma pw_surj a : field a -> a <> 0 -> exists i, 0 <= i < N /\ a = pw i.
Proof.
  intros Ha Na. pose proof N_pos as NP.
  set (l := map (fun n => pw (Z.of_nat n)) (seq 0 (Z.to_nat N))). set (l' := map Z.of_nat (seq 1 (Z.to_nat N))).
  assert (I : incl l' l).
  { apply NoDup_length_incl.
    - unfold l. assert (J : forall m k, (k + m <= Z.to_nat N)%nat -> List.NoDup (map (fun n => pw (Z.of_nat n)) (seq k m))).
      { induction m as [|m IH]; intros k Hk; cbn [seq map]; constructor; [|apply IH; lia].
        intros H. apply in_map_iff in H as (n & E & H). apply in_seq in H. apply pw_inj in E; lia. }
      apply J. lia.
    - unfold l, l'. rewrite !map_length, !seq_length. lia.
    - intros x Hx. unfold l in Hx. apply in_map_iff in Hx as (n & <- & H). apply in_seq in H. pose proof (field_pw (Z.of_nat n) ltac:(lia)) as F. pose proof (pw_nonzero (Z.of_nat n) ltac:(lia)) as NZ.
      unfold field in F. unfold l'. apply in_map_iff. exists (Z.to_nat (pw (Z.of_nat n))). split; [lia|]. apply in_seq. pose proof N_field. lia. }
  assert (A : In a l). { apply I. unfold l'. apply in_map_iff. exists (Z.to_nat a). unfold field in Ha. pose proof N_field. split; [lia|]. apply in_seq. lia. }
  unfold l in A. apply in_map_iff in A as (n & E & H). apply in_seq in H. exists (Z.of_nat n). split; [lia|]. symmetry. exact E.
Qed.
Lemma mul_zero a b : field a -> field b -> mul a b = 0 -> a = 0 \/ b = 0.
Proof.
  intros Ha Hb E. destruct (Z.eq_dec a 0) as [|Na]; [left; assumption|right].
  destruct (pw_surj a Ha Na) as (i & Hi & ->). rewrite <- iter_pw in E by (lia || exact Hb).
  apply (iter_inj i); [lia|exact Hb|apply field_0|]. rewrite E. symmetry. apply oper_0, oper_iter. lia.
Qed.
Lemma lxor_eq0 a b : Z.lxor a b = 0 <-> a = b.
Proof. split; [apply Z.lxor_eq|intros ->; apply Z.lxor_nilpotent]. Qed.

(** *** a polynomial has no more zeros than its degree *)
Definition peval (h : Z) (cs : list Z) (y : Z) : Z := foldl (fun y c => Z.lxor (mul y h) c) y cs.
Fixpoint scan (f : Z -> Z -> Z) (y : Z) (cs : list Z) : list Z := match cs with [] => [] | c :: cs => y :: scan f (f y c) cs end.
Definition quot (a y : Z) (cs : list Z) : list Z := scan (fun y c => Z.lxor (mul y a) c) y cs.
Lemma quot_cons a y c cs : quot a y (c :: cs) = y :: quot a (Z.lxor (mul y a) c) cs.
Proof. reflexivity. Qed.
Global Opaque quot mul.
Lemma quot_length a cs : forall y, length (quot a y cs) = length cs.
Proof. induction cs as [|c cs IH]; intros y; [reflexivity|]. rewrite quot_cons. cbn [length]. rewrite IH. reflexivity. Qed.
Lemma quot_field a cs : field a -> Forall field cs -> forall y, field y -> Forall field (quot a y cs).
Proof. intros Ha. induction 1 as [|c cs Hc _ IH]; intros y Hy; [constructor|]; rewrite quot_cons; constructor; [exact Hy|]. apply IH. apply field_lxor; [apply field_mul, Ha|exact Hc]. Qed.
Lemma peval_field h cs : field h -> Forall field cs -> forall y, field y -> field (peval h cs y).
Proof. intros Hh. induction 1 as [|c cs Hc _ IH]; intros y Hy; [exact Hy|]. unfold peval in *. cbn [foldl]. apply IH. apply field_lxor; [apply field_mul, Hh|exact Hc]. Qed.
Lemma peval_quot a h cs : field a -> field h -> Forall field cs -> forall y z, field y -> field z ->
  peval h cs (Z.lxor y (mul (Z.lxor h a) z)) = Z.lxor (peval a cs y) (mul (Z.lxor h a) (peval h (quot a y cs) z)).
Proof.
  intros Ha Hh. induction 1 as [|c cs Hc _ IH]; intros y z Hy Hz; [reflexivity|]. unfold peval in *. rewrite quot_cons. cbn [foldl].
  assert (Hha : field (Z.lxor h a)) by (apply field_lxor; assumption). assert (Ey : field (Z.lxor (mul y a) c)) by (apply field_lxor; [apply field_mul, Ha|exact Hc]). assert (Ez : field (Z.lxor (mul z h) y)) by (apply field_lxor; [apply field_mul, Hh|exact Hy]).
  rewrite <- (IH _ _ Ey Ez). f_equal.
  (* (y + (h+a) z) h + c = (y a + c) + (h+a) (z h + y) *)
  rewrite mul_add_l, mul_add_r, <- mul_assoc by assumption. rewrite (mul_add_l h a y), (mul_comm h y), (mul_comm a y) by assumption.
  set (p := mul y h). set (q := mul y a). set (r := mul (Z.lxor h a) (mul z h)).
  rewrite (Z.lxor_comm r), !Z.lxor_assoc. rewrite (Z.lxor_comm c (Z.lxor p _)). rewrite !Z.lxor_assoc. rewrite <- (Z.lxor_assoc q p). rewrite (Z.lxor_comm q p). rewrite Z.lxor_assoc. f_equal. rewrite <- (Z.lxor_assoc q q), Z.lxor_nilpotent, Z.lxor_0_l. reflexivity.
Qed.
(** all zeros, when the partial sums are *)
Lemma quot_zero a cs : forall y, peval a cs y = 0 -> Forall (eq 0) (quot a y cs) -> y = 0 -> Forall (eq 0) cs.
Proof.
  induction cs as [|c cs IH]; intros y E Q ->; constructor.
  - unfold peval in E. cbn [foldl] in E. rewrite mul_0_l, Z.lxor_0_l in E. rewrite quot_cons in Q. rewrite mul_0_l, Z.lxor_0_l in Q. apply Forall_cons_1 in Q as [_ Q]. destruct cs as [|c' cs]; [cbn [foldl] in E; congruence|]. rewrite quot_cons in Q. apply Forall_cons_1 in Q as [Q _]. exact Q.
  - unfold peval in E. cbn [foldl] in E. rewrite quot_cons in Q. rewrite mul_0_l, Z.lxor_0_l in E, Q. apply Forall_cons_1 in Q as [_ Q]. apply (IH c); [exact E|exact Q|].
    destruct cs as [|c' cs]; [exact E|]. rewrite quot_cons in Q. apply Forall_cons_1 in Q as [Q _]. congruence.
Qed.
Lemma roots_bound n : forall cs hs, length cs = n -> Forall field cs -> ~ Forall (eq 0) cs -> Forall field hs -> List.NoDup hs ->
  (forall h, In h hs -> peval h cs 0 = 0) -> (length hs < n)%nat.
Proof.
  induction n as [|n IH]; intros cs hs L Fc Nz Fh Nd R.
  { destruct cs; [|discriminate L]. exfalso. apply Nz. constructor. }
  destruct hs as [|a hs]; [cbn; lia|]. cbn [length]. apply Forall_cons_1 in Fh as [Ha Fh]. apply List.NoDup_cons_iff in Nd as [Ni Nd].
  destruct cs as [|c cs]; [discriminate L|]. injection L as L.
  assert (Ea : peval a (c :: cs) 0 = 0) by (apply R; left; reflexivity).
  assert (Q : quot a 0 (c :: cs) = 0 :: quot a c cs). { rewrite quot_cons, mul_0_l, Z.lxor_0_l. reflexivity. }
  assert (Fc' := Fc). apply Forall_cons_1 in Fc' as [Hc Fcs].
  assert (length hs < n)%nat; [|lia]. apply (IH (quot a c cs)).
  - rewrite quot_length. exact L.
  - apply quot_field; assumption.
  - intros A. apply Nz. apply (quot_zero a (c :: cs) 0 Ea); [|reflexivity]. rewrite Q. constructor; [reflexivity|exact A].
  - exact Fh.
  - exact Nd.
  - intros h Hh. assert (Fhh : field h) by (rewrite Forall_forall in Fh; apply Fh, elem_of_list_In, Hh).
    pose proof (peval_quot a h (c :: cs) Ha Fhh Fc 0 0 field_0 field_0) as P. rewrite mul_0_r, Z.lxor_0_l, Ea, Z.lxor_0_l, Q in P.
    rewrite (R h) in P by (right; exact Hh). symmetry in P. apply mul_zero in P as [P|P].
    + exfalso. apply Z.lxor_eq in P. subst. exact (Ni Hh).
    + unfold peval in *. cbn [foldl] in P. rewrite mul_0_l, Z.lxor_0_l in P. exact P.
    + apply field_lxor; assumption.
    + apply peval_field; [exact Fhh| |apply field_0]. constructor; [apply field_0|apply quot_field; assumption].
Qed.
