(** The prime factors of 2^128 - 1.  The large one is checked by trial division by the
    numbers 128 k + 1 only: by Fermat's little theorem the prime divisors of 2^64 + 1 have
    this form. *)
From Verif Require Import Base.
From Coq Require Import Znumtheory Permutation.
Local Open Scope Z.

(** *** Fermat's little theorem for the base 2 *)
Definition prodZ (l : list Z) : Z := foldr Z.mul 1 l.
Lemma prodZ_perm l l' : Permutation l l' -> prodZ l = prodZ l'.
Proof. induction 1; cbn [prodZ foldr] in *; unfold prodZ in *; cbn [foldr]; lia. Qed.
Lemma prodZ_mod p (f : Z -> Z) (l : list Z) : 0 < p -> prodZ (map (fun i => f i mod p) l) mod p = prodZ (map f l) mod p.
Proof. intros Hp. induction l as [|a l IH]; [reflexivity|]. unfold prodZ in *. cbn [map foldr]. rewrite Z.mul_mod, IH, Z.mod_mod, <- Z.mul_mod by lia. reflexivity. Qed.
Lemma prodZ_scale a l : prodZ (map (fun i => a * i) l) = a ^ Z.of_nat (length l) * prodZ l.
Proof.
  induction l as [|x l IH]; [reflexivity|]. unfold prodZ in *. cbn [map foldr length]. rewrite IH. rewrite Nat2Z.inj_succ, Z.pow_succ_r by lia. ring.
Qed.
Lemma prodZ_prime p l : prime p -> (forall x, In x l -> 0 < x < p) -> ~ (p | prodZ l).
Proof.
  intros Hp. induction l as [|x l IH]; intros H D.
  - pose proof (prime_ge_2 p Hp). apply Z.divide_1_r_nonneg in D; lia.
  - unfold prodZ in D. cbn [foldr] in D. apply prime_mult in D as [D|D]; [|apply IH; [intros y Hy; apply H; right; exact Hy|exact D]|exact Hp].
    pose proof (H x ltac:(left; reflexivity)). apply Z.divide_pos_le in D; lia.
Qed.
Lemma fermat p a : prime p -> ~ (p | a) -> a ^ (p - 1) mod p = 1.
Proof.
  intros Hp Ha. pose proof (prime_ge_2 p Hp) as P2.
  set (l := map Z.of_nat (seq 1 (Z.to_nat (p - 1)))).
  assert (Hl : forall x, In x l <-> 0 < x < p).
  { intros x. unfold l. rewrite in_map_iff. split.
    - intros (n & <- & H). apply in_seq in H. lia.
    - intros H. exists (Z.to_nat x). split; [lia|]. apply in_seq. lia. }
  assert (Nl : List.NoDup l).
  { unfold l. apply FinFun.Injective_map_NoDup; [intros x y; lia|apply seq_NoDup]. }
  assert (Ll : length l = Z.to_nat (p - 1)) by (unfold l; rewrite map_length, seq_length; reflexivity).
  set (l' := map (fun i => (a * i) mod p) l).
  assert (Nl' : List.NoDup l').
  { unfold l'. assert (I : forall x y, In x l -> In y l -> (a * x) mod p = (a * y) mod p -> x = y).
    { intros x y Hx Hy E. apply Hl in Hx, Hy. assert (D : (p | a * (x - y))).
      { apply Z.mod_divide; [lia|]. replace (a * (x - y)) with (a * x - a * y) by ring. rewrite Zminus_mod, E, Z.sub_diag. apply Z.mod_0_l. lia. }
      apply prime_mult in D as [D|D]; [contradiction| |exact Hp].
      destruct (Z.eq_dec x y) as [|N]; [assumption|]. apply Z.divide_abs_r in D. apply Z.divide_pos_le in D; lia. }
    clear -I Nl. induction Nl as [|x l Hx Nl IH]; cbn [map]; constructor.
    - intros H. apply in_map_iff in H as (y & E & Hy). apply Hx. rewrite <- (I y x); [exact Hy|right; exact Hy|left; reflexivity|exact E].
    - apply IH. intros y z Hy Hz. apply I; right; assumption. }
  assert (P : Permutation l' l).
  { apply NoDup_Permutation_bis; [exact Nl'|unfold l'; rewrite map_length; reflexivity|].
    intros x Hx. unfold l' in Hx. apply in_map_iff in Hx as (y & <- & Hy). apply Hl in Hy. apply Hl. pose proof (Z.mod_pos_bound (a * y) p ltac:(lia)) as B.
    destruct (Z.eq_dec ((a * y) mod p) 0) as [E|]; [|lia]. apply Z.mod_divide in E; [|lia]. apply prime_mult in E as [E|E]; [contradiction| |exact Hp]. apply Z.divide_pos_le in E; lia. }
  apply prodZ_perm in P. pose proof (prodZ_mod p (fun i => a * i) l ltac:(lia)) as M. cbn beta in M. unfold l' in P. rewrite P, prodZ_scale, Ll, Z2Nat.id in M by lia.
  assert (D : (p | (a ^ (p - 1) - 1) * prodZ l)).
  { apply Z.mod_divide; [lia|]. replace ((a ^ (p - 1) - 1) * prodZ l) with (a ^ (p - 1) * prodZ l - prodZ l) by ring. rewrite Zminus_mod, <- M, Z.sub_diag. apply Z.mod_0_l. lia. }
  apply prime_mult in D as [D|D]; [| |exact Hp].
  - destruct D as [k D]. replace (a ^ (p - 1)) with (1 + k * p) by lia. rewrite Z.mod_add by lia. apply Z.mod_1_l. lia.
  - exfalso. apply (prodZ_prime p l Hp); [|exact D]. intros x Hx. apply Hl, Hx.
Qed.

(** *** every number that is not prime has a prime divisor up to its square root *)
Lemma least_divisor n : 1 < n -> exists p, prime p /\ (p | n) /\ (p = n \/ p * p <= n).
Proof.
  intros Hn.
  assert (L : forall k : nat, (forall d, 1 < d <= 1 + Z.of_nat k -> ~ (d | n)) \/ exists p, 1 < p /\ (p | n) /\ forall d, 1 < d < p -> ~ (d | n)).
  { induction k as [|k [IH|IH]]; [left; lia| |right; exact IH].
    destruct (Zdivide_dec (2 + Z.of_nat k) n) as [D|D].
    - right. exists (2 + Z.of_nat k). split; [lia|]. split; [exact D|]. intros d Hd. apply IH. lia.
    - left. intros d Hd. destruct (Z.eq_dec d (2 + Z.of_nat k)) as [->|]; [exact D|]. apply IH. lia. }
  destruct (L (Z.to_nat n)) as [H|(p & P1 & Pn & Pm)].
  { exfalso. apply (H n); [lia|apply Z.divide_refl]. }
  exists p. split; [|split; [exact Pn|]].
  - apply prime_alt. split; [lia|]. intros d Hd D. apply (Pm d Hd). eapply Z.divide_trans; [exact D|exact Pn].
  - destruct Pn as [q E]. destruct (Z.eq_dec q 1) as [->|Nq]; [left; lia|right].
    assert (0 < q) by nia. destruct (Z_lt_le_dec q p) as [Hq|Hq]; [|nia].
    exfalso. apply (Pm q); [lia|]. exists p. lia.
Qed.
Fixpoint trial (fuel : nat) (n d step : Z) : bool := match fuel with O => true | S f => negb (n mod d =? 0) && trial f n (d + step) step end.
Lemma trial_spec fuel : forall n d step, trial fuel n d step = true -> forall i : nat, (i < fuel)%nat -> d + Z.of_nat i * step <> 0 -> ~ (d + Z.of_nat i * step | n).
Proof.
  induction fuel as [|f IH]; intros n d step H i Hi N D; [lia|]. cbn [trial] in H. apply andb_true_iff in H as [H1 H2]. destruct i as [|i].
  - rewrite Z.mul_0_l, Z.add_0_r in *. apply negb_true_iff, Z.eqb_neq in H1. apply H1. apply Z.mod_divide; assumption.
  - apply (IH _ _ _ H2 i); [lia| |]; replace (d + step + Z.of_nat i * step) with (d + Z.of_nat (S i) * step) by lia; assumption.
Qed.
Lemma prime_by_trial n k : 1 < n -> (n < (2 + Z.of_nat k) * (2 + Z.of_nat k)) -> trial k n 2 1 = true -> prime n.
Proof.
  intros Hn Hk T. destruct (least_divisor n Hn) as (p & Pp & Pn & [->|Ps]); [exact Pp|]. exfalso. pose proof (prime_ge_2 p Pp).
  assert (p < 2 + Z.of_nat k) by nia. apply (trial_spec _ _ _ _ T (Z.to_nat (p - 2))); try lia. replace (2 + Z.of_nat (Z.to_nat (p - 2)) * 1) with p by lia. exact Pn.
Qed.

(** *** the prime divisors of 2^64 + 1 *)
Lemma pow_mod_one a p i : 1 < p -> 0 <= i -> a mod p = 1 -> a ^ i mod p = 1.
Proof. intros Hp Hi H. revert i Hi. apply natlike_ind; [apply Z.mod_1_l; lia|]. intros i Hi IH. rewrite Z.pow_succ_r by exact Hi. rewrite Z.mul_mod, H, IH by lia. apply Z.mod_1_l. lia. Qed.
Lemma fermat_divisor p : prime p -> (p | 2 ^ 64 + 1) -> p mod 128 = 1.
Proof.
  intros Hp D. pose proof (prime_ge_2 p Hp) as P2.
  assert (N2 : p <> 2). { intros ->. destruct D as [q D]. lia. }
  assert (O2 : ~ (p | 2)). { intros G. apply Z.divide_pos_le in G; lia. }
  pose proof (fermat p 2 Hp O2) as F.
  assert (H : 2 ^ 64 mod p = p - 1).
  { destruct D as [q D]. replace (2 ^ 64) with (p - 1 + (q - 1) * p) by (rewrite Z.mul_sub_distr_r, <- D; ring). rewrite Z.mod_add by lia. apply Z.mod_small. lia. }
  assert (H2 : 2 ^ 128 mod p = 1).
  { change (2 ^ 128) with (2 ^ 64 * 2 ^ 64). rewrite Z.mul_mod, H by lia. replace ((p - 1) * (p - 1)) with (1 + (p - 2) * p) by ring. rewrite Z.mod_add by lia. apply Z.mod_1_l. lia. }
  (* the set of exponents e with 2^e = 1 is closed under remainders *)
  assert (R : forall a b, 0 <= a -> 0 < b -> 2 ^ a mod p = 1 -> 2 ^ b mod p = 1 -> 2 ^ (a mod b) mod p = 1).
  { intros a b Ha Hb Ea Eb. pose proof (Z.mod_pos_bound a b Hb). pose proof (Z.div_pos a b Ha Hb).
    rewrite (Z.div_mod a b), Z.pow_add_r, Z.pow_mul_r, Z.mul_mod in Ea by lia. rewrite (pow_mod_one (2 ^ b)), Z.mul_1_l, Z.mod_mod in Ea by lia. exact Ea. }
  (* gcd (p - 1, 128), step by step *)
  pose proof (R (p - 1) 128 ltac:(lia) ltac:(lia) F H2) as E. pose proof (Z.mod_pos_bound (p - 1) 128 ltac:(lia)) as B.
  destruct (Z.eq_dec ((p - 1) mod 128) 0) as [Z0|NZ].
  { replace p with (1 + (p - 1)) by ring. rewrite Z.add_mod, Z0 by lia. reflexivity. }
  exfalso. set (e := (p - 1) mod 128) in *. clearbody e.
  assert (C : forall x, 0 < x < 128 -> 2 ^ x mod p = 1 -> exists i, 0 <= i /\ exists m, 0 <= m /\ x * m = 64 + 128 * i).
  { intros x Hx _. assert (G : exists s y, 0 <= s <= 6 /\ x = 2 ^ s * (2 * y + 1) /\ 0 <= y).
    { clear -Hx. assert (forall n : nat, forall x, 0 < x < 2 ^ Z.of_nat n -> exists s y, 0 <= s <= Z.of_nat n - 1 /\ x = 2 ^ s * (2 * y + 1) /\ 0 <= y) as G.
      { induction n as [|n IH]; intros z Hz; [cbn in Hz; lia|]. destruct (Z.odd z) eqn:O.
        - exists 0, (z / 2). rewrite Z.pow_0_r, Z.mul_1_l. pose proof (Zdiv2_odd_eqn z) as Q. rewrite O, Z.div2_div in Q. pose proof (Z.div_pos z 2). lia.
        - pose proof (Zdiv2_odd_eqn z) as Q. rewrite O, Z.div2_div in Q. rewrite Nat2Z.inj_succ, Z.pow_succ_r in Hz by lia. destruct (IH (z / 2)) as (s & y & Hs & Hy & Py); [lia|].
          exists (s + 1), y. rewrite Z.pow_add_r, Z.pow_1_r by lia. lia. }
      destruct (G 7%nat x) as (s & y & A & A2 & A3); [change (2 ^ Z.of_nat 7) with 128; lia|]. exists s, y. split; [lia|]. split; [exact A2|exact A3]. }
    destruct G as (s & y & Hs & -> & Hy). exists y. split; [exact Hy|]. exists (2 ^ (6 - s)). split; [lia|].
    replace (2 ^ s * (2 * y + 1) * 2 ^ (6 - s)) with (2 ^ s * 2 ^ (6 - s) * (2 * y + 1)) by ring. rewrite <- Z.pow_add_r by lia. replace (s + (6 - s)) with 6 by ring. lia. }
  destruct (C e ltac:(lia) E) as (i & Hi & m & Hm & Q).
  assert (X : 2 ^ (64 + 128 * i) mod p = 1). { rewrite <- Q, Z.pow_mul_r by lia. apply pow_mod_one; [lia|exact Hm|exact E]. }
  rewrite Z.pow_add_r, Z.pow_mul_r, Z.mul_mod in X by lia. rewrite (pow_mod_one (2 ^ 128)), Z.mul_1_r, Z.mod_mod in X by lia. lia.
Qed.
Definition big_prime : Z := 67280421310721.
Lemma big_prime_prime : prime big_prime.
Proof.
  destruct (least_divisor big_prime ltac:(unfold big_prime; lia)) as (p & Pp & Pn & [E|Ps]); [rewrite <- E; exact Pp|]. exfalso.
  assert (D : (p | 2 ^ 64 + 1)). { eapply Z.divide_trans; [exact Pn|]. exists 274177. reflexivity. }
  pose proof (fermat_divisor p Pp D) as M. pose proof (prime_ge_2 p Pp). assert (p < 8202465) by (unfold big_prime in Ps; nia).
  assert (T : trial (Z.to_nat 64082) big_prime 129 128 = true) by (vm_compute; reflexivity).
  pose proof (Z.div_mod p 128 ltac:(lia)) as Q. rewrite M in Q. assert (1 <= p / 128 <= 64081) by lia.
  apply (trial_spec _ _ _ _ T (Z.to_nat (p / 128 - 1))); try lia. replace (129 + Z.of_nat (Z.to_nat (p / 128 - 1)) * 128) with p by lia. exact Pn.
Qed.
Definition factors : list Z := [3; 5; 17; 257; 641; 65537; 274177; 6700417; big_prime].
Lemma factors_product : prodZ factors = 2 ^ 128 - 1.
Proof. reflexivity. Qed.
Lemma factors_prime q : In q factors -> prime q.
Proof.
  intros H. cbn [factors In] in H.
  repeat (destruct H as [<-|H]; [first [exact big_prime_prime | apply (prime_by_trial _ (Z.to_nat 3000)); [reflexivity|vm_compute; reflexivity|vm_compute; reflexivity] | apply (prime_by_trial _ (Z.to_nat 255)); [reflexivity|vm_compute; reflexivity|vm_compute; reflexivity] | apply (prime_by_trial _ (Z.to_nat 15)); [reflexivity|vm_compute; reflexivity|vm_compute; reflexivity] | apply (prime_by_trial _ (Z.to_nat 1)); [reflexivity|vm_compute; reflexivity|vm_compute; reflexivity]| apply (prime_by_trial _ (Z.to_nat 3)); [reflexivity|vm_compute; reflexivity|vm_compute; reflexivity] | apply (prime_by_trial _ (Z.to_nat 25)); [reflexivity|vm_compute; reflexivity|vm_compute; reflexivity] ]|]). destruct H.
Qed.
