(** Property C143: does a Write of a Decoupler wait for others? *)
From Verif Require Import Base Conc DecModel DecProofs DecProofs2 DecProofs3 DecSoloProofs.
Local Open Scope Z.

(** alone, while no other goroutine is between the CompareAndSwap and the end of its
    Write or between emptying a slot and counting it, a Write returns after at most
    3 size + 3 steps; and it stores its message if there is room *)
Theorem decoupler_write_alone_partial msg size tr s t : 0 < size < 2^64 -> steps (d_step msg) (d_init size) tr s -> num (adders tr) + size <= 2^64 - 2 ->
  c_w s t = WAdd -> (forall u ts, c_w s u <> WCopy ts /\ c_w s u <> WStore ts /\ c_w s u <> WLen) -> c_r s <> RDec ->
  exists n tr' s', (n <= 3 * Z.to_nat size + 3)%nat /\ dexecs msg s (repeat (MW t) n) = Some (tr', s') /\ steps (d_step msg) s tr' s' /\
    (c_w s' t = WStored \/ c_w s' t = WDropped) /\ (d_len (c_d s) <> size -> c_w s' t = WStored).
Proof.
  intros Hs H B W O R. destruct (write_alone msg size tr s t Hs H B W O R) as (n & tr' & s' & Hn & H1 & H2 & H3). exists n, tr', s'.
  split; [exact Hn|]. split; [exact H1|]. split; [exact (dexecs_steps _ _ _ _ _ H1)|]. split; [exact H2|exact H3].
Qed.
Print Assumptions decoupler_write_alone_partial.
Definition smsg (t : nat) : list Z := [Z.of_nat t].
Example write_alone_case : exists tr s, steps (d_step smsg) (d_init 2) tr s /\ c_w s 1%nat = WAdd /\ d_len (c_d s) = 1 /\
  (forall u ts, c_w s u <> WCopy ts /\ c_w s u <> WStore ts /\ c_w s u <> WLen) /\ c_r s <> RDec.
Proof.
  destruct (dexecs smsg (d_init 2) (repeat (MW 0%nat) 7 ++ [MW 1%nat])) as [[tr s]|] eqn:E; [|vm_compute in E; discriminate].
  exists tr, s. split; [exact (dexecs_steps _ _ _ _ _ E)|]. vm_compute in E. injection E as _ <-. split; [reflexivity|]. split; [reflexivity|]. split; [|discriminate].
  intros [|[|u]] ts; repeat split; discriminate.
Qed.

(** but a writer that is stopped in the middle stops the others: they go round and
    round for as long as it stands there *)
Theorem decoupler_write_waits_refuted :
  exists tr s, steps (d_step smsg) (d_init 1) tr s /\ c_w s 0%nat = WCopy 0 /\ c_w s 1%nat = WIdle /\
    forall n, exists tr' s', dexecs smsg s (repeat (MW 1%nat) n) = Some (tr', s') /\ c_w s' 1%nat <> WStored /\ c_w s' 1%nat <> WDropped.
Proof.
  destruct (dexecs smsg (d_init 1) (repeat (MW 0%nat) 4)) as [[tr s]|] eqn:E; [|vm_compute in E; discriminate].
  exists tr, s. split; [exact (dexecs_steps _ _ _ _ _ E)|].
  assert (C : c_w s 0%nat = WCopy 0 /\ c_w s 1%nat = WIdle /\ d_size (c_d s) = 1 /\ d_lock (c_d s) 0 = lock_busy) by (vm_compute in E; injection E as _ <-; repeat split).
  destruct C as (C1 & C2 & C3 & C4). split; [exact C1|]. split; [exact C2|]. clear E C1.
  assert (C5 : c_w s 1%nat = WIdle \/ c_w s 1%nat = WAdd \/ exists ts, c_w s 1%nat = WLoad ts) by auto. clear C2. intros n. revert s C3 C4 C5.
  induction n as [|n IH]; intros s C3 C4 C5; [exists [], s; split; [reflexivity|]; destruct C5 as [->|[->|[ts ->]]]; split; discriminate|].
  destruct s as [d w r]. cbn [c_d c_w] in *. cbn [repeat dexecs dexec c_d c_w c_r smsg]. destruct C5 as [->|[->|[ts ->]]].
  - destruct (IH (CD d (tset w 1%nat WAdd) r) C3 C4) as (tr' & s' & H & H'); [cbn; rewrite tset_eq; auto|]. rewrite H. eauto.
  - destruct (IH (CD (Dec (d_read d) (u64 (d_write d + 1)) (d_len d) (d_size d) (d_lock d) (d_buf d)) (tset w 1%nat (WLoad (u64 (d_write d + 1)))) r) C3 C4) as (tr' & s' & H & H'); [cbn; rewrite tset_eq; eauto|]. rewrite H. eauto.
  - assert (Sl : slot d ts = 0) by (unfold slot; rewrite C3; apply Z.mod_1_r). rewrite Sl, C4. change (lock_busy =? lock_empty) with false. rewrite Z.eqb_refl.
    destruct (IH (CD d (tset w 1%nat WAdd) r) C3 C4) as (tr' & s' & H & H'); [cbn; rewrite tset_eq; auto|]. rewrite H. eauto.
Qed.
Print Assumptions decoupler_write_waits_refuted.

(** and even while all the others get on, one Write may try again and again: for every
    n there is a run in which it has tried n times, everybody else's n + 2 messages are
    stored, and it stands where it began *)
Definition round (n : nat) : list dmove := [MW 2; MW 2]%nat ++ repeat MR 5 ++ [MW 2%nat] ++ repeat (MW (3 + n)%nat) 10.
Definition full (v : Z) : Prop := v <> lock_empty /\ v <> lock_busy.
Definition stands (n : nat) (s : cdec) : Prop :=
  d_size (c_d s) = 2 /\ d_write (c_d s) = u64 (3 * Z.of_nat n + 2 - 1) /\ d_len (c_d s) = 2 /\ d_read (c_d s) = Z.of_nat n /\
  full (d_lock (c_d s) 0) /\ full (d_lock (c_d s) 1) /\ c_w s 2%nat = WAdd /\ c_r s = RIdle /\ (forall t, (3 + n <= t)%nat -> c_w s t = WIdle).
Lemma stands_round n s : 3 * Z.of_nat n + 5 <= 2^64 - 3 -> stands n s ->
  exists tr s', dexecs smsg s (round n) = Some (tr, s') /\ stands (S n) s' /\ adders tr = [2; 3 + n; 3 + n]%nat /\ storers tr = [3 + n]%nat /\ droppers tr = [].
Proof.
  intros B (S1 & S2 & S3 & S4 & S5 & S6 & S7 & S8 & S9). destruct s as [d w r]. cbn [c_d c_w c_r] in *. subst r.
  set (m := (3 + n)%nat) in *. assert (Nm : m <> 2%nat) by (subst m; lia). set (A := 3 * Z.of_nat n + 2) in *.
  assert (U1 : u64 (d_write d + 1) = A) by (apply u64_next; [exact S2|lia]).
  assert (U2 : u64 (A + 1) = A + 1) by (unfold u64; apply Z.mod_small; lia).
  assert (U3 : u64 (A + 1 + 1) = A + 2) by (unfold u64; rewrite Z.mod_small; lia).
  assert (P : exists p q, (p = 0 /\ q = 1 \/ p = 1 /\ q = 0) /\ A mod 2 = p /\ (A + 1) mod 2 = q /\ (A + 2) mod 2 = p /\ Z.of_nat n mod 2 = p).
  { exists (A mod 2), ((A + 1) mod 2). assert (M : A mod 2 = Z.of_nat n mod 2). { subst A. replace (3 * Z.of_nat n + 2) with (Z.of_nat n + (Z.of_nat n + 1) * 2) by lia. apply Z.mod_add. lia. }
    assert (M2 : (A + 2) mod 2 = A mod 2) by (replace (A + 2) with (A + 1 * 2) by lia; apply Z.mod_add; lia).
    split; [|auto]. pose proof (Z.mod_pos_bound A 2 ltac:(lia)). rewrite (Z.add_mod A 1 2) by lia. change (1 mod 2) with 1.
    destruct (Z.eq_dec (A mod 2) 0) as [E|E]; [left; rewrite E; auto|right]. assert (A mod 2 = 1) as -> by lia. auto. }
  destruct P as (p & q & Hpq & P1 & P2 & P3 & P4).
  assert (SL : forall d' ts, d_size d' = 2 -> slot d' ts = ts mod 2) by (intros d' ts H; unfold slot; rewrite H; reflexivity).
  assert (Fp : full (d_lock d p)) by (destruct Hpq as [[-> _]|[-> _]]; assumption). assert (Fq : full (d_lock d q)) by (destruct Hpq as [[_ ->]|[_ ->]]; assumption).
  assert (Npq : p <> q) by lia. destruct Fp as [Fp1 Fp2]. destruct Fq as [Fq1 Fq2]. apply Z.eqb_neq in Fp1, Fp2, Fq1, Fq2.
  assert (FA : full (A + 2)) by (unfold full, lock_empty, lock_busy; lia).
  unfold round. cbn [app repeat dexecs]. fold m.
  Ltac red1 := cbn [dexec c_d c_w c_r d_lock d_len d_size d_read d_write d_buf with_lock].
  red1. rewrite S7, U1. red1. rewrite tset_eq. rewrite SL by assumption. rewrite P1, Fp1, Fp2.
  (* the reader *)
  red1. rewrite S3. change (2 =? 0) with false. red1. rewrite !SL by assumption. rewrite S4, P4, Fp1, Fp2. red1. rewrite !SL by assumption. red1. rewrite ?S4, ?P4. red1.
  change (u64 (2 + (2^64 - 1))) with 1.
  (* writer 2 checks *)
  rewrite tset_eq. rewrite S1. change (1 =? 2) with false.
  (* the other writer *)
  red1. repeat rewrite (tset_ne _ _ _ m) by lia. rewrite (S9 m) by lia. cbn [smsg].
  red1. rewrite tset_eq. rewrite U2.
  red1. rewrite tset_eq. rewrite SL by reflexivity. rewrite P2. rewrite zset_ne by lia. rewrite Fq1, Fq2.
  red1. rewrite tset_eq. change (1 =? 2) with false.
  red1. rewrite tset_eq. rewrite U3.
  red1. rewrite tset_eq. rewrite SL by reflexivity. rewrite P3, zset_eq, Z.eqb_refl.
  red1. rewrite tset_eq. rewrite SL by reflexivity. rewrite P3, zset_eq, Z.eqb_refl.
  red1. rewrite tset_eq. rewrite SL by reflexivity. rewrite P3.
  red1. rewrite tset_eq. rewrite SL by reflexivity. rewrite P3.
  red1. rewrite tset_eq. change (u64 (1 + 1)) with 2.
  eexists _, _. split; [reflexivity|]. split; [|repeat split].
  unfold stands. cbn [c_d c_w c_r d_lock d_len d_size d_read d_write d_buf].
  assert (L : full (zset (zset (zset (d_lock d) p lock_empty) p lock_busy) p (A + 2) p) /\ full (zset (zset (zset (d_lock d) p lock_empty) p lock_busy) p (A + 2) q)).
  { rewrite zset_eq. rewrite !zset_ne by lia. split; [exact FA|]. apply Z.eqb_neq in Fq1, Fq2. split; assumption. }
  split; [reflexivity|]. split; [unfold u64; rewrite Z.mod_small; lia|]. split; [reflexivity|]. split; [rewrite ?S4; unfold u64; rewrite Z.mod_small; lia|].
  split; [destruct Hpq as [[-> ->]|[-> ->]]; apply L|]. split; [destruct Hpq as [[-> ->]|[-> ->]]; apply L|].
  split; [repeat (first [rewrite tset_eq; reflexivity|rewrite tset_ne by lia])|]. split; [reflexivity|].
  intros t Ht. repeat rewrite tset_ne by lia. apply S9. lia.
Qed.
Theorem decoupler_write_bounded_refuted n : 3 * Z.of_nat n + 2 <= 2^64 - 3 ->
  exists tr s, steps (d_step smsg) (d_init 2) tr s /\ c_w s 2%nat = WAdd /\
    length (List.filter (Nat.eqb 2) (adders tr)) = n /\ length (storers tr) = (n + 2)%nat /\ droppers tr = [].
Proof.
  intros B. cut (exists tr s, steps (d_step smsg) (d_init 2) tr s /\ stands n s /\ length (List.filter (Nat.eqb 2) (adders tr)) = n /\ length (storers tr) = (n + 2)%nat /\ droppers tr = []).
  { intros (tr & s & H1 & (_ & _ & _ & _ & _ & _ & H2 & _) & H3). exists tr, s. auto. }
  induction n as [|n IH].
  - destruct (dexecs smsg (d_init 2) (repeat (MW 0%nat) 7 ++ repeat (MW 1%nat) 7 ++ [MW 2%nat])) as [[tr s]|] eqn:E; [|vm_compute in E; discriminate].
    exists tr, s. split; [exact (dexecs_steps _ _ _ _ _ E)|]. vm_compute in E. injection E as <- <-. split; [|repeat split].
    unfold stands, full. cbn. repeat split; try discriminate. intros [|[|[|t]]] Ht; try lia; reflexivity.
  - destruct (IH ltac:(lia)) as (tr & s & H1 & H2 & H3 & H4 & H5). destruct (stands_round n s ltac:(lia) H2) as (tr2 & s2 & K1 & K2 & K3 & K4 & K5).
    exists (tr ++ tr2), s2. split; [eapply steps_app; [exact H1|exact (dexecs_steps _ _ _ _ _ K1)]|]. split; [exact K2|]. unfold adders, storers, droppers in *. rewrite !omap_app.
    rewrite List.filter_app, !app_length, K3, K4, K5, H3, H4, H5. cbn [List.filter length]. change (2 =? 2)%nat with true. replace (2 =? 3 + n)%nat with false by (symmetry; apply Nat.eqb_neq; lia). cbn [length]. split; [lia|]. split; [lia|reflexivity].
Qed.
Print Assumptions decoupler_write_bounded_refuted.
