(** A writer of a Decoupler that runs alone *)
From Verif Require Import Base Conc DecModel DecProofs DecProofs2 DecProofs3.
Local Open Scope Z.

Section solo.
Context (msg : nat -> list Z).
Lemma adders_le tr l : num (adders tr) <= num (adders (tr ++ [l])).
Proof. unfold adders. rewrite omap_app, num_app. match goal with |- _ <= _ + num ?x => pose proof (num_nonneg x) end. lia. Qed.
(** a busy slot has a writer in it *)
Definition held (s : cdec) : Prop := forall i, d_lock (c_d s) i = lock_busy -> exists t ts, holder (c_w s t) = Some ts /\ slot (c_d s) ts = i.
Lemma held_step size tr s l s' : cinv msg size tr s -> num (adders tr) <= 2^64 - 2 -> held s -> d_step msg s l s' -> held s'.
Proof.
  intros V B H St i Hi.
  assert (K : d_lock (c_d s) i = lock_busy -> d_size (c_d s') = d_size (c_d s) -> (forall t ts, holder (c_w s t) = Some ts -> slot (c_d s) ts = i -> holder (c_w s' t) = Some ts) ->
    exists t ts, holder (c_w s' t) = Some ts /\ slot (c_d s') ts = i).
  { intros L Sz F. destruct (H i L) as (t & ts & H1 & H2). exists t, ts. split; [apply F; assumption|]. unfold slot in *. rewrite Sz. exact H2. }
  destruct St; cbn [c_d c_w c_r] in *.
  all: try (apply K; [exact Hi|reflexivity|]; intros u us Hu _; destruct (decide (u = t)) as [->|Nu]; [rewrite H0 in Hu; discriminate|rewrite tset_ne by exact Nu; exact Hu]).
  all: try (apply K; [exact Hi|reflexivity|]; intros u us Hu _; exact Hu).
  - destruct (decide (i = slot d ts)) as [->|Ni].
    + exists t, ts. rewrite tset_eq. split; reflexivity.
    + cbn [with_lock d_lock] in Hi. rewrite zset_ne in Hi by exact Ni. apply K; [exact Hi|reflexivity|].
      intros u us Hu _; destruct (decide (u = t)) as [->|Nu]; [rewrite H0 in Hu; discriminate|rewrite tset_ne by exact Nu; exact Hu].
  - apply K; [exact Hi|reflexivity|]. intros u us Hu _; destruct (decide (u = t)) as [->|Nu]; [rewrite H0 in Hu; rewrite tset_eq; exact Hu|rewrite tset_ne by exact Nu; exact Hu].
  - cbn [with_lock d_lock] in Hi. destruct (decide (i = slot d ts)) as [->|Ni].
    + rewrite zset_eq in Hi. pose proof (v_ticket _ _ _ _ V t ts) as T. cbn [c_w] in T. rewrite H0 in T. specialize (T eq_refl). unfold lock_busy in Hi. lia.
    + rewrite zset_ne in Hi by exact Ni. apply K; [exact Hi|reflexivity|].
      intros u us Hu Hs; destruct (decide (u = t)) as [->|Nu]; [rewrite H0 in Hu; cbn in Hu; injection Hu as <-; congruence|rewrite tset_ne by exact Nu; exact Hu].
  - cbn [with_lock d_lock] in Hi. destruct (decide (i = slot d (d_read d))) as [->|Ni]; [rewrite zset_eq in Hi; unfold lock_busy, lock_empty in Hi; lia|].
    rewrite zset_ne in Hi by exact Ni. apply K; [exact Hi|reflexivity|]. intros u us Hu _; exact Hu.
Qed.
Lemma held_steps size tr s : 0 < size < 2^64 -> steps (d_step msg) (d_init size) tr s -> num (adders tr) <= 2^64 - 2 -> held s.
Proof.
  intros Hs H. cut (num (adders tr) <= 2^64 - 2 -> cinv msg size tr s /\ held s); [intros K B; apply K, B|]. revert tr s H.
  apply (steps_trace_invariant (d_init size) (d_step msg) (fun tr s => num (adders tr) <= 2^64 - 2 -> cinv msg size tr s /\ held s)).
  - intros _. split; [apply cinv_init, Hs|]. intros i Hi. cbn in Hi. unfold lock_busy, lock_empty in Hi. lia.
  - intros tr s l s' _ IH H B. pose proof (adders_le tr l). destruct (IH ltac:(lia)) as [V D]. split; [eapply cinv_step; eassumption|eapply held_step; try eassumption; lia].
Qed.
(** the length, when nobody is between storing and counting *)
Lemma full_len size tr s : 0 < size < 2^64 -> steps (d_step msg) (d_init size) tr s -> num (adders tr) <= 2^64 - 2 ->
  (forall t, c_w s t <> WLen) -> c_r s <> RDec -> (forall i, 0 <= i < size -> d_lock (c_d s) i <> lock_empty /\ d_lock (c_d s) i <> lock_busy) -> d_len (c_d s) = size.
Proof.
  intros Hs H B NL NR F. pose proof (cinv_steps msg size tr s Hs H B) as V. pose proof (finv_steps msg size tr s H) as [F1 F2 _ F4 _].
  assert (P : publishers tr ≡ₚ storers tr).
  { apply NoDup_Permutation; [exact F4|apply (v_nodup _ _ _ _ V)|]. intros t. rewrite F1, F2. split; [intros [X|X]; [destruct (NL t X)|exact X]|auto]. }
  assert (P2 : num (published msg tr) = num (storers tr)) by (rewrite published_publishers; unfold num; rewrite map_length, P; reflexivity).
  pose proof (v_perm _ _ _ _ V) as P3. assert (P4 : num (published msg tr) = num (viewed tr) + num (contents s)) by (rewrite <- num_app; unfold num; rewrite P3; reflexivity).
  assert (P5 : num (contents s) = size - match c_r s with REmpty => 1 | _ => 0 end).
  { unfold contents. rewrite (v_size _ _ _ _ V).
    assert (Ls : num (slots size) = size) by (unfold num, slots; rewrite map_length, seq_length; lia).
    assert (G : forall l, (forall i, i ∈ l -> 0 <= i < size) -> NoDup l ->
      num (omap (holds s) l) = num l - match c_r s with REmpty => if decide (slot (c_d s) (d_read (c_d s)) ∈ l) then 1 else 0 | _ => 0 end).
    { clear -F. intros l. induction l as [|x l IH]; intros Hl N.
      - destruct (c_r s); reflexivity.
      - apply NoDup_cons in N as [Nx N]. specialize (IH (fun i Hi => Hl i (elem_of_list_further _ _ _ Hi)) N). cbn [omap list_omap]. destruct (F x (Hl x (elem_of_list_here _ _))) as [F1 F2].
        unfold holds at 1. apply Z.eqb_neq in F1, F2. rewrite F1, F2. cbn [orb].
        assert (CN : forall y : list Z, num (y :: omap (holds s) l) = num (omap (holds s) l) + 1) by (intros; unfold num; cbn [length]; lia).
        assert (CL : num (x :: l) = num l + 1) by (unfold num; cbn [length]; lia).
        destruct (c_r s); try (rewrite CN, CL; change list_omap with (@omap list _) in *; lia).
        destruct (Z.eqb_spec x (slot (c_d s) (d_read (c_d s)))) as [E|E].
        + rewrite CL. rewrite <- E in *. rewrite decide_True by left. rewrite decide_False in IH by exact Nx. lia.
        + rewrite CN, CL, IH. destruct (decide (slot (c_d s) (d_read (c_d s)) ∈ l)) as [I|I].
          * rewrite decide_True by (right; exact I). lia.
          * rewrite decide_False; [lia|]. intros X. apply elem_of_cons in X as [X|X]; [congruence|tauto]. }
    rewrite G; [|intros i Hi; unfold slots in Hi; apply (elem_of_list_fmap Z.of_nat) in Hi as (k & -> & Hk); apply elem_of_seq in Hk; lia|apply slots_nodup].
    rewrite Ls. destruct (c_r s); try reflexivity. rewrite decide_True; [reflexivity|]. apply in_slots. pose proof (slot_range (c_d s) (d_read (c_d s))) as R. rewrite (v_size _ _ _ _ V) in R. apply R. lia. }
  pose proof (v_len _ _ _ _ V) as L. pose proof (v_viewed _ _ _ _ V) as W. destruct (c_r s); try congruence; lia.
Qed.

Definition done (p : wpc) : Prop := p = WStored \/ p = WDropped.
Lemma dexecs_app ms1 : forall s ms2 tr1 s1 tr2 s2, dexecs msg s ms1 = Some (tr1, s1) -> dexecs msg s1 ms2 = Some (tr2, s2) -> dexecs msg s (ms1 ++ ms2) = Some (tr1 ++ tr2, s2).
Proof.
  induction ms1 as [|m ms IH]; cbn; intros s ms2 tr1 s1 tr2 s2 H1 H2; [injection H1 as <- <-; exact H2|].
  destruct (dexec msg s m) as [[l s']|]; [|discriminate]. destruct (dexecs msg s' ms) as [[tr' s'']|] eqn:E; [|discriminate]. injection H1 as <- <-.
  rewrite (IH _ _ _ _ _ _ E H2). reflexivity.
Qed.
Lemma dexecs_one s m l s' : dexec msg s m = Some (l, s') -> dexecs msg s [m] = Some ([l], s').
Proof. intros H. cbn. rewrite H. reflexivity. Qed.
(** the scan: tickets A, A + 1, ... until one falls on an empty slot *)
Lemma scan t k : forall s A, c_w s t = WAdd -> d_write (c_d s) = u64 (A - 1) -> 0 <= A -> A + Z.of_nat k < 2^64 -> 0 < d_size (c_d s) ->
  (forall i, d_lock (c_d s) i <> lock_busy) -> d_lock (c_d s) (slot (c_d s) (A + Z.of_nat k)) = lock_empty ->
  exists n tr s', (n <= 3 * k + 6)%nat /\ dexecs msg s (repeat (MW t) n) = Some (tr, s') /\ done (c_w s' t) /\ (d_len (c_d s) <> d_size (c_d s) -> c_w s' t = WStored).
Proof.
  induction k as [|k IH]; intros [d w r] A W Wr A0 AB Sz NB Em; cbn [c_d c_w c_r] in *; pose proof (u64_next _ A Wr ltac:(lia)) as UA.
  all: set (d1 := Dec (d_read d) A (d_len d) (d_size d) (d_lock d) (d_buf d)).
  all: assert (X1 : dexec msg (CD d w r) (MW t) = Some (LAdd t, CD d1 (tset w t (WLoad A)) r)) by (cbn [dexec c_d c_w c_r]; rewrite W, UA; reflexivity).
  all: assert (GOOD : d_lock d (slot d A) = lock_empty -> exists n tr s', (n <= 6)%nat /\ dexecs msg (CD d w r) (repeat (MW t) n) = Some (tr, s') /\ done (c_w s' t) /\ c_w s' t = WStored).
  1, 3: intros E; exists 6%nat; cbn [repeat]; rewrite <- (app_nil_l [MW t]); cbn [dexecs app]; rewrite X1;
    cbn [dexec c_d c_w c_r]; rewrite tset_eq; change (slot d1 A) with (slot d A); change (d_lock d1) with (d_lock d); rewrite E, Z.eqb_refl;
    cbn [dexec c_d c_w c_r]; rewrite tset_eq; change (slot d1 A) with (slot d A); change (d_lock d1) with (d_lock d); rewrite E, Z.eqb_refl;
    cbn [dexec c_d c_w c_r]; rewrite tset_eq;
    cbn [dexec c_d c_w c_r]; rewrite tset_eq;
    cbn [dexec c_d c_w c_r]; rewrite tset_eq;
    eexists _, _; split; [lia|]; split; [reflexivity|]; cbn [c_w]; rewrite tset_eq; split; [left|]; reflexivity.
  - rewrite Z.add_0_r in Em. destruct (GOOD Em) as (n & tr & s' & Hn & H1 & H2 & H3). exists n, tr, s'. split; [lia|]. auto.
  - destruct (decide (d_lock d (slot d A) = lock_empty)) as [E|E]; [destruct (GOOD E) as (n & tr & s' & Hn & H1 & H2 & H3); exists n, tr, s'; split; [lia|]; auto|]. clear GOOD.
    assert (X2 : dexec msg (CD d1 (tset w t (WLoad A)) r) (MW t) = Some (LDTau, CD d1 (tset (tset w t (WLoad A)) t WCheck) r)).
    { cbn [dexec c_d c_w c_r]. rewrite tset_eq. change (slot d1 A) with (slot d A). change (d_lock d1) with (d_lock d). rewrite (proj2 (Z.eqb_neq _ _) E), (proj2 (Z.eqb_neq _ _) (NB _)). reflexivity. }
    destruct (decide (d_len d = d_size d)) as [Q|Q].
    + exists 3%nat. cbn [repeat dexecs]. rewrite X1, X2. cbn [dexec c_d c_w c_r]. rewrite tset_eq. change (d_len d1) with (d_len d). change (d_size d1) with (d_size d). rewrite Q, Z.eqb_refl.
      eexists _, _. split; [lia|]. split; [reflexivity|]. cbn [c_w]. rewrite tset_eq. split; [right; reflexivity|congruence].
    + assert (X3 : dexec msg (CD d1 (tset (tset w t (WLoad A)) t WCheck) r) (MW t) = Some (LDTau, CD d1 (tset (tset (tset w t (WLoad A)) t WCheck) t WAdd) r)).
      { cbn [dexec c_d c_w c_r]. rewrite tset_eq. change (d_len d1) with (d_len d). change (d_size d1) with (d_size d). rewrite (proj2 (Z.eqb_neq _ _) Q). reflexivity. }
      set (s1 := CD d1 (tset (tset (tset w t (WLoad A)) t WCheck) t WAdd) r) in *.
      destruct (IH s1 (A + 1)) as (n & tr & s' & Hn & H1 & H2 & H3); try assumption; try lia.
      { subst s1. cbn [c_w]. apply tset_eq. }
      { subst s1. cbn. replace (A + 1 - 1) with A by lia. unfold u64. rewrite Z.mod_small by lia. reflexivity. }
      { subst s1. cbn [c_d d1 d_lock]. change (slot d1 (A + 1 + Z.of_nat k)) with (slot d (A + 1 + Z.of_nat k)). replace (A + 1 + Z.of_nat k) with (A + Z.of_nat (S k)) by lia. exact Em. }
      exists (3 + n)%nat. cbn [Nat.add repeat dexecs]. rewrite X1, X2, X3, H1. eexists _, _. split; [lia|]. split; [reflexivity|]. split; [exact H2|]. exact H3.
Qed.
Lemma full_drop t s : c_w s t = WAdd -> 0 < d_size (c_d s) -> d_len (c_d s) = d_size (c_d s) -> (forall i, 0 <= i < d_size (c_d s) -> d_lock (c_d s) i <> lock_empty /\ d_lock (c_d s) i <> lock_busy) ->
  exists tr s', dexecs msg s (repeat (MW t) 3) = Some (tr, s') /\ c_w s' t = WDropped.
Proof.
  destruct s as [d w r]. cbn [c_d c_w]. intros W Sz Q F. cbn [repeat dexecs dexec c_d c_w c_r]. rewrite W. cbn [dexec c_d c_w c_r]. rewrite tset_eq.
  set (d1 := Dec _ _ _ _ _ _). change (slot d1 (u64 (d_write d + 1))) with (slot d (u64 (d_write d + 1))). change (d_lock d1) with (d_lock d).
  destruct (F _ (slot_range d (u64 (d_write d + 1)) Sz)) as [F1 F2]. apply Z.eqb_neq in F1, F2. rewrite F1, F2. cbn [dexec c_d c_w c_r]. rewrite tset_eq.
  change (d_len d1) with (d_len d). change (d_size d1) with (d_size d). rewrite Q, Z.eqb_refl. eexists _, _. split; [reflexivity|]. cbn [c_w]. apply tset_eq.
Qed.
Lemma write_alone size tr s t : 0 < size < 2^64 -> steps (d_step msg) (d_init size) tr s -> num (adders tr) + size <= 2^64 - 2 -> c_w s t = WAdd ->
  (forall u ts, c_w s u <> WCopy ts /\ c_w s u <> WStore ts /\ c_w s u <> WLen) -> c_r s <> RDec ->
  exists n tr' s', (n <= 3 * Z.to_nat size + 3)%nat /\ dexecs msg s (repeat (MW t) n) = Some (tr', s') /\ done (c_w s' t) /\ (d_len (c_d s) <> size -> c_w s' t = WStored).
Proof.
  intros Hs H B W O R. pose proof (cinv_steps msg size tr s Hs H ltac:(lia)) as V. pose proof (held_steps size tr s Hs H ltac:(lia)) as D.
  pose proof (v_size _ _ _ _ V) as Sz. assert (NB : forall i, d_lock (c_d s) i <> lock_busy).
  { intros i Hi. destruct (D i Hi) as (u & ts & Hu & _). destruct (O u ts) as (O1 & O2 & _). destruct (c_w s u) eqn:E; try discriminate Hu; cbn in Hu; injection Hu as ->; congruence. }
  pose proof (num_nonneg (adders tr)) as A0. set (A := num (adders tr)) in *.
  assert (C : (exists k, (k < Z.to_nat size)%nat /\ d_lock (c_d s) (slot (c_d s) (A + Z.of_nat k)) = lock_empty) \/ (forall k, (k < Z.to_nat size)%nat -> d_lock (c_d s) (slot (c_d s) (A + Z.of_nat k)) <> lock_empty)).
  { generalize (Z.to_nat size) as n. induction n as [|n IH]; [right; intros; lia|]. destruct IH as [(k & Hk & E)|IH]; [left; exists k; split; [lia|exact E]|].
    destruct (decide (d_lock (c_d s) (slot (c_d s) (A + Z.of_nat n)) = lock_empty)) as [E|E]; [left; exists n; split; [lia|exact E]|]. right. intros k Hk.
    destruct (decide (k = n)) as [->|]; [exact E|apply IH; lia]. }
  destruct C as [(k & Hk & E)|F].
  - destruct (scan t k s A W (v_write _ _ _ _ V) A0 ltac:(lia) ltac:(lia) NB E) as (n & tr' & s' & Hn & H1 & H2 & H3). exists n, tr', s'. split; [lia|]. split; [exact H1|]. split; [exact H2|]. rewrite <- Sz. exact H3.
  - assert (F' : forall i, 0 <= i < size -> d_lock (c_d s) i <> lock_empty /\ d_lock (c_d s) i <> lock_busy).
    { intros i Hi. split; [|apply NB]. set (k := (i - A) mod size). pose proof (Z.mod_pos_bound (i - A) size ltac:(lia)) as Bk. specialize (F (Z.to_nat k) ltac:(lia)). rewrite Z2Nat.id in F by lia.
      replace (slot (c_d s) (A + k)) with i in F; [exact F|]. unfold slot, k. rewrite Sz. rewrite Zplus_mod_idemp_r. replace (A + (i - A)) with i by lia. symmetry. apply Z.mod_small. exact Hi. }
    assert (L : d_len (c_d s) = size) by (eapply full_len; try eassumption; [lia|intros u; apply (O u 0)]).
    destruct (full_drop t s W) as (tr' & s' & H1 & H2); [lia|lia|rewrite Sz; exact F'|]. exists 3%nat, tr', s'. split; [lia|]. split; [exact H1|]. split; [right; exact H2|congruence].
Qed.
End solo.
