From Verif Require Import Base DecModel DecProofs DecReModel.
Local Open Scope Z.

Section P.
Context (drop : list Z -> dprog) (size : Z).
Notation iexec := (ideal_exec drop size).

Lemma ideal_mono fuel : forall iv s p s' n, iexec fuel iv s p = Some (s', n) ->
  i_writes s <= i_writes s' /\ (iv = true -> exists ext, i_q s' = i_q s ++ ext).
Proof.
  induction fuel as [|fuel IH]; intros iv s p s' n H; [discriminate|]. destruct p as [m|b k|view k]; cbn [ideal_exec] in H.
  - injection H as <- <-. split; [lia|]. intros _. exists []. rewrite app_nil_r. reflexivity.
  - apply bind_Some in H as ([s1 n1] & H1 & H2). cbn [fst snd] in H2. apply IH in H2 as [M2 E2].
    assert (K : i_writes s <= i_writes s1 /\ (iv = true -> exists ext, i_q s1 = i_q s ++ ext)).
    { destruct (decide (b = [])); [apply IH in H1 as [M E]; cbn in *; auto|].
      destruct (decide _); [apply IH in H1 as [M E]; cbn in *; split; [lia|auto]|].
      destruct (i_al s || _); [|discriminate]. injection H1 as <- <-. cbn. split; [lia|]. intros _. eexists. reflexivity. }
    destruct K as [M1 E1]. split; [lia|]. intros Hi. destruct (E1 Hi) as [x1 F1], (E2 Hi) as [x2 F2].
    exists (x1 ++ x2). rewrite F2, F1, app_assoc. reflexivity.
  - destruct (i_q s) as [|m q] eqn:Q.
    + apply IH in H as [M E]. cbn in *. rewrite Q in E. auto.
    + destruct iv; [discriminate|]. apply bind_Some in H as ([s1 n1] & H1 & H2). apply IH in H1 as [M1 _]. apply IH in H2 as [M2 _]. cbn in *.
      split; [lia|discriminate].
Qed.

Lemma ideal_fuel f : forall f' iv s p r, iexec f iv s p = Some r -> (f <= f')%nat -> iexec f' iv s p = Some r.
Proof.
  induction f as [|f IH]; intros f' iv s p r H Hf; [discriminate|]. destruct f' as [|f']; [lia|]. destruct p as [m|b k|view k]; cbn [ideal_exec] in *.
  - exact H.
  - apply bind_Some in H as (x & H1 & H2). apply bind_Some. exists x. split; [|apply (IH f' _ _ _ _ H2); lia].
    destruct (decide (b = [])); [apply (IH f' _ _ _ _ H1); lia|]. destruct (decide _); [apply (IH f' _ _ _ _ H1); lia|exact H1].
  - destruct (i_q s); [apply (IH f' _ _ _ _ H); lia|]. destruct iv; [discriminate|].
    apply bind_Some in H as (x & H1 & H2). apply bind_Some. exists x. split; [apply (IH f' _ _ _ _ H1); lia|apply (IH f' _ _ _ _ H2); lia].
Qed.

(** T tickets have been taken, R messages read *)
Record irel (d : dec) (s : ideal) (T R : Z) : Prop := {
  r_size : 0 < size < 2^64;
  r_dsize : d_size d = size;
  r_r : 0 <= R;
  r_t : R + Z.of_nat (length (i_q s)) <= T <= i_writes s * size;
  r_bound : i_writes s * size <= 2^64 - 2;
  r_read : d_read d = R;
  r_write : d_write d = u64 (T - 1);
  r_len : d_len d = Z.of_nat (length (i_q s));
  r_le : Z.of_nat (length (i_q s)) <= size;
  r_full : forall k b, i_q s !! k = Some b -> let j := (R + Z.of_nat k) mod size in
    d_lock d j <> lock_empty /\ d_lock d j <> lock_busy /\ d_buf d j = b;
  r_empty : forall j, (forall k, (k < length (i_q s))%nat -> (R + Z.of_nat k) mod size <> j) -> d_lock d j = lock_empty;
  r_al : i_al s = true -> T mod size = (R + Z.of_nat (length (i_q s))) mod size }.

Lemma irel_new : 0 < size < 2^64 -> irel (new_decoupler size) ideal_new 0 0.
Proof. intros H. constructor; cbn; try lia; try reflexivity; intros; discriminate. Qed.
Lemma irel_emit d s T R es : irel d s T R -> irel d (emit s es) T R.
Proof. intros []. constructor; assumption. Qed.

(** the write loop goes round to the first empty slot *)
Lemma loop_finds b (j : nat) : forall d T f, d_write d = u64 (T - 1) -> 0 <= T -> 0 < d_size d -> d_len d <> d_size d ->
  (forall i, (i < j)%nat -> d_lock d ((T + Z.of_nat i) mod d_size d) <> lock_empty) ->
  d_lock d ((T + Z.of_nat j) mod d_size d) = lock_empty -> T + Z.of_nat j < 2^64 -> (j < f)%nat ->
  let ts := T + Z.of_nat j in
  write_loop f d b = Ret (Dec (d_read d) ts (u64 (d_len d + 1)) (d_size d) (zset (d_lock d) (ts mod d_size d) ts) (zset (d_buf d) (ts mod d_size d) b),
    DStored (Z.of_nat (length b))).
Proof.
  induction j as [|j IH]; intros d T f W T0 S0 L B E Hb Hf; (destruct f as [|f]; [lia|]); cbn [write_loop d_size d_read d_write d_len d_lock d_buf];
    rewrite (u64_next _ T W) by lia; (destruct (Z.eqb_spec (d_size d) 0); [lia|]).
  - rewrite Z.add_0_r in *. rewrite E, Z.eqb_refl. reflexivity.
  - pose proof (B 0%nat ltac:(lia)) as B0. cbn in B0. rewrite Z.add_0_r in B0. apply Z.eqb_neq in B0. rewrite B0.
    apply Z.eqb_neq in L. rewrite L, andb_false_r. apply Z.eqb_neq in L.
    assert (X : forall i, T + 1 + Z.of_nat i = T + Z.of_nat (S i)) by (intros; lia).
    specialize (IH (Dec (d_read d) T (d_len d) (d_size d) (d_lock d) (d_buf d)) (T + 1) f). cbn [d_size d_read d_write d_len d_lock d_buf] in IH.
    rewrite X in IH. apply IH; try assumption; try lia.
    + rewrite u64_small by lia. lia.
    + intros i Hi. rewrite X. apply B. lia.
Qed.
(** the first ticket from T on that falls into slot j *)
Lemma ticket_for T j : 0 < size -> 0 <= j < size -> exists i, (Z.of_nat i < size) /\ (T + Z.of_nat i) mod size = j.
Proof.
  intros Hs Hj. exists (Z.to_nat ((j - T) mod size)). pose proof (Z.mod_pos_bound (j - T) size Hs). rewrite Z2Nat.id by lia. split; [lia|].
  rewrite Zplus_mod_idemp_r. replace (T + (j - T)) with j by lia. apply Z.mod_small. exact Hj.
Qed.
Lemma write_stored d s T R b : irel d s T R -> b <> [] -> Z.of_nat (length (i_q s)) < size -> (i_writes s + 1) * size <= 2^64 - 2 ->
  i_al s = true \/ Z.of_nat (length (i_q s)) = size - 1 ->
  exists d' T', (forall f, (Z.to_nat size <= f)%nat -> dec_write f d b = Ret (d', DStored (Z.of_nat (length b)))) /\
    irel d' (Id (i_q s ++ [b]) true (i_writes s + 1) (i_tr s ++ [EStored b])) T' R.
Proof.
  intros [S0 S1 S2 S3 S4 S5 S6 S7 S8 S9 S10 S11] Hb Hq Hw Hal. set (n := Z.of_nat (length (i_q s))) in *.
  assert (Hfree : d_lock d ((R + n) mod size) = lock_empty).
  { apply S10. intros k Hk E. apply mod_near in E; unfold n in *; lia. }
  assert (J : exists i, Z.of_nat i < size /\ (T + Z.of_nat i) mod size = (R + n) mod size /\
    forall i', (i' < i)%nat -> d_lock d ((T + Z.of_nat i') mod size) <> lock_empty).
  { destruct Hal as [Hal|Hal].
    - exists 0%nat. rewrite Z.add_0_r. split; [lia|]. split; [auto|]. intros; lia.
    - destruct (ticket_for T ((R + n) mod size)) as (i & I1 & I2); [lia|apply Z.mod_pos_bound; lia|]. exists i. split; [exact I1|]. split; [exact I2|].
      intros i' Hi'. assert (N : (T + Z.of_nat i') mod size <> (R + n) mod size).
      { rewrite <- I2. intros E. apply mod_near in E; lia. }
      destruct (ticket_for R ((T + Z.of_nat i') mod size)) as (k & K1 & K2); [lia|apply Z.mod_pos_bound; lia|].
      assert (Hk : (k < length (i_q s))%nat). { assert (Z.of_nat k <> n) by (intros E; rewrite E in K2; congruence). unfold n in *. lia. }
      destruct (lookup_lt_is_Some_2 _ _ Hk) as [m Hm]. rewrite <- K2. apply (S9 k m Hm). }
  destruct J as (i & I1 & I2 & I3). set (ts := T + Z.of_nat i) in *.
  assert (Hb' : ts < 2^64 - 2) by (unfold ts; nia).
  eexists _, (ts + 1). split.
  - intros f Hf. unfold dec_write. destruct b as [|x b]; [congruence|]. apply (loop_finds (x :: b) i d T f); try assumption; rewrite ?S1; try lia.
    + exact I3.
    + fold ts. rewrite I2. exact Hfree.
  - rewrite S1. fold ts. rewrite I2. assert (Hoth : forall k, (k < length (i_q s))%nat -> (R + Z.of_nat k) mod size <> (R + n) mod size).
    { intros k Hk E. apply mod_near in E; unfold n in *; lia. }
    constructor; cbn [d_size d_read d_write d_len d_lock d_buf i_q i_al i_writes]; rewrite ?app_length; cbn [length]; try lia; try assumption; try (unfold n in *; nia).
    + rewrite u64_small by (unfold ts in *; lia). lia.
    + rewrite S7, u64_small by lia. unfold n. lia.
    + intros k m Hk. apply lookup_app_Some in Hk as [Hk|[Hk1 Hk2]].
      * pose proof (lookup_lt_Some _ _ _ Hk) as Hlt. rewrite !zset_ne by (apply Hoth; assumption). apply (S9 k m Hk).
      * destruct (k - length (i_q s))%nat eqn:Ek; [|discriminate]. injection Hk2 as <-. assert (k = length (i_q s)) as -> by lia. fold n.
        rewrite !zset_eq. unfold lock_empty, lock_busy. unfold ts in *. repeat split; lia.
    + intros j Hj. rewrite zset_ne.
      * apply S10. intros k Hk. apply Hj. lia.
      * intros ->. apply (Hj (length (i_q s))); [lia|]. reflexivity.
    + intros _. rewrite <- Zplus_mod_idemp_l, I2, Zplus_mod_idemp_l. f_equal. rewrite Nat2Z.inj_add. fold n. lia.
Qed.
Lemma write_dropped d s T R b : irel d s T R -> b <> [] -> Z.of_nat (length (i_q s)) = size -> (i_writes s + 1) * size <= 2^64 - 2 ->
  exists d' T', (forall f, (1 <= f)%nat -> dec_write f d b = Ret (d', DDropped b)) /\
    irel d' (Id (i_q s) false (i_writes s + 1) (i_tr s ++ [EDrop b])) T' R.
Proof.
  intros [S0 S1 S2 S3 S4 S5 S6 S7 S8 S9 S10 S11] Hb Hq Hw.
  assert (L : d_lock d (T mod size) <> lock_empty /\ d_lock d (T mod size) <> lock_busy).
  { destruct (ticket_for R (T mod size)) as (k & K1 & K2); [lia|apply Z.mod_pos_bound; lia|].
    destruct (lookup_lt_is_Some_2 (i_q s) k ltac:(lia)) as [m Hm]. rewrite <- K2. split; apply (S9 k m Hm). }
  destruct L as [L1 L2]. apply Z.eqb_neq in L1, L2.
  eexists _, (T + 1). split.
  - intros f Hf. unfold dec_write. destruct b as [|x b]; [congruence|]. destruct f as [|f]; [lia|].
    cbn [write_loop d_size d_read d_write d_len d_lock d_buf]. rewrite (u64_next _ T S6) by nia. rewrite S1.
    destruct (Z.eqb_spec size 0); [lia|]. rewrite L1, L2, S7, Hq, Z.eqb_refl. reflexivity.
  - constructor; cbn [d_size d_read d_write d_len d_lock d_buf i_q i_al i_writes]; try lia; try assumption; try nia.
    + rewrite u64_small by nia. lia.
Qed.
Lemma next_popped d s T R m q : irel d s T R -> i_q s = m :: q ->
  (forall f, (1 <= f)%nat -> wait_loop f d (d_read d mod d_size d) = Ret ()) /\ d_buf d (d_read d mod d_size d) = m /\ d_len d <> 0 /\ d_size d <> 0 /\
  forall es, irel (Dec (u64 (d_read d + 1)) (d_write d) (u64 (d_len d + (2^64 - 1))) (d_size d) (zset (d_lock d) (d_read d mod d_size d) lock_empty) (d_buf d))
    (Id q (i_al s) (i_writes s) es) T (R + 1).
Proof.
  intros [S0 S1 S2 S3 S4 S5 S6 S7 S8 S9 S10 S11] Q. rewrite Q in *. cbn [length] in *. rewrite S1, S5.
  destruct (S9 0%nat m eq_refl) as (L1 & L2 & B). rewrite Z.add_0_r in L1, L2, B. apply Z.eqb_neq in L1, L2.
  split; [intros [|f] Hf; [lia|]; cbn [wait_loop]; rewrite L1, L2; reflexivity|]. split; [exact B|]. split; [lia|]. split; [lia|].
  intros es. constructor; cbn [d_size d_read d_write d_len d_lock d_buf i_q i_al i_writes]; try lia; try assumption.
  - apply u64_small. lia.
  - rewrite S7. unfold u64. replace (Z.of_nat (S (length q)) + (2^64 - 1)) with (Z.of_nat (length q) + 1 * 2^64) by lia. rewrite Z.mod_add by lia. apply Z.mod_small. lia.
  - intros k b Hk. pose proof (lookup_lt_Some _ _ _ Hk). rewrite zset_ne.
    + specialize (S9 (S k) b Hk). cbn zeta in S9. replace (R + 1 + Z.of_nat k) with (R + Z.of_nat (S k)) by lia. exact S9.
    + intros E. apply mod_near in E; lia.
  - intros j Hj. destruct (decide (j = R mod size)) as [->|N]; [apply zset_eq|]. rewrite zset_ne by exact N. apply S10.
    intros [|k] Hk; [rewrite Z.add_0_r; congruence|]. replace (R + Z.of_nat (S k)) with (R + 1 + Z.of_nat k) by lia. apply Hj. lia.
  - intros Hal. rewrite S11 by exact Hal. f_equal. lia.
Qed.

Lemma exec_ideal fuel : forall iv s p s' n d T R, iexec fuel iv s p = Some (s', n) -> irel d s T R -> i_writes s' * size <= 2^64 - 2 ->
  exists d' T' R', irel d' s' T' R' /\ (iv = true -> R' = R) /\ exists f0, forall f, (f0 <= f)%nat -> exec drop f d (i_tr s) p = Ret (d', i_tr s', n).
Proof.
  induction fuel as [|fuel IH]; intros iv s p s' n d T R H I B; [discriminate|]. destruct p as [m|b k|view k]; cbn [ideal_exec] in H.
  - injection H as <- <-. exists d, T, R. split; [exact I|]. split; [reflexivity|]. exists 1%nat. intros [|f] Hf; [lia|]. reflexivity.
  - apply bind_Some in H as ([s1 n1] & H1 & H2). cbn [fst snd] in H2.
    destruct (ideal_mono _ _ _ _ _ _ H2) as [M2 _].
    assert (B1 : i_writes s1 * size <= 2^64 - 2) by (destruct I; nia).
    assert (K : exists d1 T1 R1, irel d1 s1 T1 R1 /\ (iv = true -> R1 = R) /\ exists f0, forall f, (f0 <= f)%nat ->
      (let! w := dec_write f d b in
       match w with (d, DDropped b) => exec drop f d (i_tr s ++ [EDrop b]) (drop b) | (d, DStored n) => Ret (d, i_tr s ++ [EStored b], n) | (d, DNext _) => Panic end) =
      Ret (d1, i_tr s1, n1)).
    { destruct (decide (b = [])) as [->|Hb].
      - destruct (IH _ _ _ _ _ _ _ _ H1 (irel_emit _ _ _ _ _ I) B1) as (d1 & T1 & R1 & I1 & E1 & f0 & F). exists d1, T1, R1. split; [exact I1|]. split; [exact E1|].
        exists f0. intros f Hf. cbn [dec_write rbind]. apply (F f Hf).
      - destruct (decide _) as [Hq|Hq].
        + destruct (ideal_mono _ _ _ _ _ _ H1) as [M1 _]. cbn in M1.
          destruct (write_dropped d s T R b I Hb Hq) as (d1 & T1 & F1 & I1); [destruct I; nia|].
          destruct (IH _ _ _ _ _ _ _ _ H1 I1 B1) as (d2 & T2 & R2 & I2 & E2 & f0 & F). exists d2, T2, R2. split; [exact I2|]. split; [exact E2|].
          exists (S f0). intros f Hf. rewrite F1 by lia. cbn [rbind]. apply F. lia.
        + destruct (i_al s || _) eqn:Ha; [|discriminate]. injection H1 as <- <-. cbn in B1.
          destruct (write_stored d s T R b I Hb) as (d1 & T1 & F1 & I1); [destruct I; lia|destruct I; nia| |].
          { apply orb_true_iff in Ha as [Ha|Ha]; [left; exact Ha|right; apply bool_decide_eq_true in Ha; exact Ha]. }
          exists d1, T1, R. split; [exact I1|]. split; [reflexivity|]. exists (Z.to_nat size). intros f Hf. rewrite F1 by lia. reflexivity. }
    destruct K as (d1 & T1 & R1 & I1 & E1 & f1 & F1).
    destruct (IH _ _ _ _ _ _ _ _ H2 I1 B) as (d2 & T2 & R2 & I2 & E2 & f2 & F2). exists d2, T2, R2. split; [exact I2|].
    split; [intros Hi; rewrite (E2 Hi); auto|]. exists (S (Nat.max f1 f2)). intros [|f] Hf; [lia|]. cbn [exec].
    specialize (F1 f ltac:(lia)). destruct (dec_write f d b) as [[dw rw]| |]; cbn [rbind] in F1 |- *; try discriminate. rewrite F1. cbn [rbind]. apply F2. lia.
  - destruct (i_q s) as [|m q] eqn:Q.
    + destruct (IH _ _ _ _ _ _ _ _ H (irel_emit _ _ _ _ _ I) B) as (d1 & T1 & R1 & I1 & E1 & f1 & F1). exists d1, T1, R1. split; [exact I1|]. split; [exact E1|].
      exists (S f1). intros [|f] Hf; [lia|]. cbn [exec]. rewrite (r_len _ _ _ _ I), Q. cbn [length Z.of_nat]. rewrite Z.eqb_refl. apply F1. lia.
    + destruct iv; [discriminate|]. apply bind_Some in H as ([s1 n1] & H1 & H2). cbn [fst snd] in H2.
      destruct (ideal_mono _ _ _ _ _ _ H2) as [M2 _]. cbn in M2. assert (B1 : i_writes s1 * size <= 2^64 - 2) by (destruct I; nia).
      destruct (ideal_mono _ _ _ _ _ _ H1) as [M1 X1]. destruct (X1 eq_refl) as [ext X]. cbn in X. rewrite Q in X. cbn in X.
      destruct (IH _ _ _ _ _ _ _ _ H1 (irel_emit _ _ _ _ _ I) B1) as (d1 & T1 & R1 & I1 & E1 & f1 & F1). specialize (E1 eq_refl). subst R1.
      destruct (next_popped d s T R m q I Q) as (P1 & P2 & P3 & P4 & _).
      destruct (next_popped d1 s1 T1 R m (q ++ ext) I1 X) as (Q1 & Q2 & Q3 & Q4 & Q5).
      assert (EI : d_read d1 mod d_size d1 = d_read d mod d_size d).
      { rewrite (r_read _ _ _ _ I), (r_read _ _ _ _ I1), (r_dsize _ _ _ _ I), (r_dsize _ _ _ _ I1). reflexivity. }
      rewrite X in H2. cbn [tail] in H2.
      destruct (IH _ _ _ _ _ _ _ _ H2 (Q5 _) B) as (d2 & T2 & R2 & I2 & E2 & f2 & F2).
      exists d2, T2, R2. split; [exact I2|]. split; [discriminate|]. exists (S (Nat.max 1 (Nat.max f1 f2))). intros [|f] Hf; [lia|]. cbn [exec].
      apply Z.eqb_neq in P3, P4. rewrite P3, P4, P1 by lia. cbn [rbind]. rewrite P2. cbn [emit i_tr] in F1. rewrite F1 by lia. cbn [rbind].
      rewrite <- EI, Q2. cbn [i_tr] in F2. apply F2. lia.
Qed.
End P.
