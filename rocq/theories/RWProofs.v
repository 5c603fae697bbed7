(** What the counters of a sync.RWMutex count. *)
From Verif Require Import Base Conc RWModel.
Local Open Scope Z.

(** *** sums over the goroutines *)
Definition csum (N : nat) (g : nat -> Z) : Z := fold_right Z.add 0 (map g (seq 0 N)).
Lemma csum_S N g : csum (S N) g = csum N g + g N.
Proof.
  unfold csum. rewrite seq_S, map_app. cbn [Nat.add map]. assert (A : forall l x, fold_right Z.add 0 (l ++ [x]) = fold_right Z.add 0 l + x); [|apply A].
  induction l as [|y l IH]; intros x; cbn; [lia|]. rewrite IH. lia.
Qed.
Lemma csum_ext N g g' : (forall t, (t < N)%nat -> g' t = g t) -> csum N g' = csum N g.
Proof. induction N as [|N IH]; intros H; [reflexivity|]. rewrite !csum_S, IH, H by (try intros; try apply H; lia). reflexivity. Qed.
Lemma csum_set N g g' t : (t < N)%nat -> (forall u, u <> t -> g' u = g u) -> csum N g' = csum N g + g' t - g t.
Proof.
  induction N as [|N IH]; intros H O; [lia|]. rewrite !csum_S. destruct (decide (t = N)) as [->|Ne].
  - rewrite (csum_ext N g g'); [lia|]. intros u Hu. apply O. lia.
  - rewrite IH by (auto; lia). rewrite (O N) by auto. lia.
Qed.
Lemma csum_nonneg N g : (forall t, 0 <= g t) -> 0 <= csum N g.
Proof. intros H. induction N as [|N IH]; [cbn; lia|]. rewrite csum_S. specialize (H N). lia. Qed.
Lemma csum_le N g : (forall t, g t <= 1) -> csum N g <= Z.of_nat N.
Proof. intros H. induction N as [|N IH]; [cbn; lia|]. rewrite csum_S. specialize (H N). lia. Qed.
Lemma csum_lt N g t : (forall t, g t <= 1) -> (t < N)%nat -> g t = 0 -> csum N g < Z.of_nat N.
Proof.
  intros H Ht E. induction N as [|N IH]; [lia|]. rewrite csum_S. pose proof (H N). destruct (decide (t = N)) as [->|]; [pose proof (csum_le N g H); lia|].
  specialize (IH ltac:(lia)). lia.
Qed.
Lemma csum_ge N g t : (forall t, 0 <= g t) -> (t < N)%nat -> g t <= csum N g.
Proof.
  intros H Ht. induction N as [|N IH]; [lia|]. rewrite csum_S. pose proof (H N). pose proof (csum_nonneg N g H). destruct (decide (t = N)) as [->|]; [lia|]. specialize (IH ltac:(lia)). lia.
Qed.
Lemma csum_pos N g : 0 < csum N g -> exists t, (t < N)%nat /\ 0 < g t.
Proof.
  induction N as [|N IH]; [cbn; lia|]. rewrite csum_S. intros H. destruct (Z_lt_dec 0 (g N)); [exists N; split; [lia|assumption]|].
  destruct IH as (t & Ht & G); [lia|]. exists t. split; [lia|exact G].
Qed.

(** *** who is where *)
Definition n_sem (p : rwpc) : Z := match p with PRSem => 1 | _ => 0 end.
Definition n_hold (p : rwpc) : Z := match p with PRHold => 1 | _ => 0 end.
Definition n_dec (p : rwpc) : Z := match p with PRDec => 1 | _ => 0 end.
Definition n_post (p : rwpc) : Z := match p with PRPost => 1 | _ => 0 end.
Definition is_w (p : rwpc) : Prop := match p with PWAnn | PWWait _ | PWSem | PWHold | PWPost _ _ => True | _ => False end.

Section inv.
Context (N : nat) (HN : Z.of_nat N <= max_readers).
Definition cs (f : rwpc -> Z) (pc : nat -> rwpc) : Z := csum N (fun t => f (pc t)).
Lemma cs_set f pc t p : (t < N)%nat -> cs f (tset pc t p) = cs f pc + f p - f (pc t).
Proof.
  intros Ht. unfold cs. rewrite (csum_set N (fun u => f (pc u)) (fun u => f (tset pc t p u)) t Ht); [rewrite tset_eq; reflexivity|].
  intros u Hu. rewrite tset_ne by auto. reflexivity.
Qed.
Lemma cs_nonneg f pc : (forall p, 0 <= f p) -> 0 <= cs f pc.
Proof. intros H. apply csum_nonneg. intros t. apply H. Qed.

(** count, wait, rsem, wsem, and the numbers of goroutines that wait for readerSem, have
    the lock for reading, are about to subtract from readerWait, to release writerSem *)
Definition quiet (n c x a b sem hold dec post : Z) : Prop := c = sem + hold /\ sem = a + n /\ 0 <= a /\ x = 0 /\ b = 0 /\ dec = 0 /\ post = 0.
Definition owner_ok (p : option rwpc) (c x a b sem hold dec post : Z) : Prop :=
  match p with
  | None | Some PWAnn => quiet 0 c x a b sem hold dec post
  | Some (PWPost r i) => 0 <= i <= r /\ quiet (r - i) c x a b sem hold dec post
  | Some (PWWait r) => c = sem + hold - max_readers /\ 0 <= a <= sem /\ x <= 0 /\ x + r = hold + dec + a /\ b = 0 /\ post = 0 /\ 0 < r <= max_readers
  | Some PWSem => c = sem + hold - max_readers /\ 0 <= a <= sem /\ x = hold + dec + a /\ 0 <= b /\ 0 <= post /\ (0 < x /\ b + post = 0 \/ x = 0 /\ b + post = 1)
  | Some PWHold => c = sem - max_readers /\ a = 0 /\ x = 0 /\ b = 0 /\ hold = 0 /\ dec = 0 /\ post = 0
  | _ => False
  end.
Record rwinv (s : rwstate) : Prop := {
  rv_N : forall t, (N <= t)%nat -> rw_pc s t = PIdle;
  rv_w : forall t, is_w (rw_pc s t) <-> rw_w s = Some t;
  rv_o : owner_ok (rw_pc s <$> rw_w s) (rw_count s) (rw_wait s) (rw_rsem s) (rw_wsem s) (cs n_sem (rw_pc s)) (cs n_hold (rw_pc s)) (cs n_dec (rw_pc s)) (cs n_post (rw_pc s)) }.

Lemma rwinv_init : rwinv rw_new.
Proof using.
  assert (Z0 : forall f, f PIdle = 0 -> cs f (fun _ => PIdle) = 0).
  { clear HN. intros f Hf. unfold cs. induction N as [|n IH]; [reflexivity|]. rewrite csum_S, IH. lia. }
  split; cbn; [reflexivity|intros t; split; [tauto|discriminate]|]. unfold quiet. rewrite !Z0 by reflexivity. lia.
Qed.
(** readers waiting or having the lock are fewer than [N] while there is a writer *)
Lemma few pc u : (u < N)%nat -> is_w (pc u) -> cs n_sem pc + cs n_hold pc < Z.of_nat N.
Proof using.
  intros Hu Hw. replace (cs n_sem pc + cs n_hold pc) with (csum N (fun t => n_sem (pc t) + n_hold (pc t))).
  - apply (csum_lt N _ u); [intros t; destruct (pc t); cbn; lia|exact Hu|destruct (pc u); cbn in *; tauto].
  - unfold cs. clear. induction N as [|n IH]; [reflexivity|]. rewrite !csum_S, IH. lia.
Qed.
Lemma few2 pc t u : (u < N)%nat -> (t < N)%nat -> t <> u -> n_sem (pc t) + n_hold (pc t) = 0 -> is_w (pc u) -> cs n_sem pc + cs n_hold pc + 1 < Z.of_nat N.
Proof using.
  intros Hu Ht Ne E Hw. pose proof (few (tset pc t PRSem) u Hu) as F. rewrite tset_ne in F by auto. specialize (F Hw). rewrite !cs_set in F by exact Ht. cbn [n_sem n_hold] in F. lia.
Qed.

Ltac rw_arith := match goal with o : option rwpc |- _ => destruct o as [[]|] end; cbn [owner_ok] in *; unfold quiet in *;
  try match goal with F : forall q, Some _ = Some q -> _ |- _ => specialize (F _ eq_refl) end; lia.
Lemma rwinv_step s t s' : rwinv s -> rw_step N s t s' -> rwinv s'.
Proof using HN.
  intros [IN IW IO] H. assert (LT : (t < N)%nat).
  { destruct (decide (t < N)%nat) as [|G]; [assumption|]. exfalso. assert (P : rw_pc s t = PIdle) by (apply IN; lia). destruct H; cbn in P; (lia || congruence). }
  assert (NEW : forall c x w a b p, s' = RW c x w a b (tset (rw_pc s) t p) -> forall u, (N <= u)%nat -> rw_pc s' u = PIdle).
  { intros c x w a b p -> u Hu. cbn. rewrite tset_ne by lia. apply IN. exact Hu. }
  (* steps of goroutines that do not own w, and do not take it *)
  assert (OTHER : forall c x a b p, s' = RW c x (rw_w s) a b (tset (rw_pc s) t p) -> ~ is_w (rw_pc s t) -> ~ is_w p ->
    (forall o, owner_ok o (rw_count s) (rw_wait s) (rw_rsem s) (rw_wsem s) (cs n_sem (rw_pc s)) (cs n_hold (rw_pc s)) (cs n_dec (rw_pc s)) (cs n_post (rw_pc s)) ->
       (forall q, o = Some q -> cs n_sem (rw_pc s) + cs n_hold (rw_pc s) < Z.of_nat N /\ (n_sem (rw_pc s t) + n_hold (rw_pc s t) = 0 -> cs n_sem (rw_pc s) + cs n_hold (rw_pc s) + 1 < Z.of_nat N)) ->
       owner_ok o c x a b (cs n_sem (rw_pc s) + n_sem p - n_sem (rw_pc s t)) (cs n_hold (rw_pc s) + n_hold p - n_hold (rw_pc s t))
         (cs n_dec (rw_pc s) + n_dec p - n_dec (rw_pc s t)) (cs n_post (rw_pc s) + n_post p - n_post (rw_pc s t))) -> rwinv s').
  { intros c x a b p E NW NP O. pose proof (NEW _ _ _ _ _ _ E) as NN. subst s'. split; cbn [rw_pc rw_w rw_count rw_wait rw_rsem rw_wsem]; [exact NN| |].
    - intros u. destruct (decide (u = t)) as [->|Ne]; [|rewrite tset_ne by auto; apply IW]. rewrite tset_eq. rewrite <- IW. tauto.
    - rewrite !cs_set by exact LT.
      assert (PO : tset (rw_pc s) t p <$> rw_w s = rw_pc s <$> rw_w s).
      { destruct (rw_w s) as [u|] eqn:W; [|reflexivity]. cbn. rewrite tset_ne; [reflexivity|]. intros ->. apply NW, IW. reflexivity. }
      rewrite PO. apply O; [exact IO|]. intros q Hq. destruct (rw_w s) as [u|] eqn:W; [|discriminate]. assert (Wu : is_w (rw_pc s u)) by (apply IW; reflexivity).
      assert (Un : (u < N)%nat). { destruct (decide (u < N)%nat) as [|G]; [assumption|]. rewrite IN in Wu by lia. destruct Wu. }
      split; [exact (few _ u Un Wu)|]. intros Z0. apply (few2 _ t u Un LT); [intros ->; tauto|exact Z0|exact Wu]. }
  (* steps of the goroutine that owns w *)
  assert (OWNER : forall c x a b p, s' = RW c x (rw_w s) a b (tset (rw_pc s) t p) -> is_w (rw_pc s t) -> is_w p ->
    (owner_ok (Some (rw_pc s t)) (rw_count s) (rw_wait s) (rw_rsem s) (rw_wsem s) (cs n_sem (rw_pc s)) (cs n_hold (rw_pc s)) (cs n_dec (rw_pc s)) (cs n_post (rw_pc s)) ->
       owner_ok (Some p) c x a b (cs n_sem (rw_pc s)) (cs n_hold (rw_pc s)) (cs n_dec (rw_pc s)) (cs n_post (rw_pc s))) -> rwinv s').
  { intros c x a b p E WO WP O. pose proof (NEW _ _ _ _ _ _ E) as NN. subst s'. pose proof (proj1 (IW t) WO) as W. rewrite W in IO. cbn [fmap option_fmap option_map] in IO. specialize (O IO).
    split; cbn [rw_pc rw_w rw_count rw_wait rw_rsem rw_wsem]; [exact NN| |].
    - intros u. destruct (decide (u = t)) as [->|Ne]; [|rewrite tset_ne by auto; apply IW]. rewrite tset_eq. rewrite <- IW. tauto.
    - rewrite !cs_set by exact LT. rewrite W. cbn [fmap option_fmap option_map]. rewrite tset_eq.
      assert (Z0 : forall f, (f = n_sem \/ f = n_hold \/ f = n_dec \/ f = n_post) -> forall q, is_w q -> f q = 0).
      { intros f Hf q Hq. destruct Hf as [-> |[-> |[-> | ->]]]; destruct q; cbn in *; tauto. }
      rewrite !(Z0 n_sem), !(Z0 n_hold), !(Z0 n_dec), !(Z0 n_post) by auto. rewrite !Z.add_0_r, !Z.sub_0_r. exact O. }
  pose proof (cs_nonneg n_sem (rw_pc s) ltac:(intros []; cbn; lia)) as P1. pose proof (cs_nonneg n_hold (rw_pc s) ltac:(intros []; cbn; lia)) as P2.
  pose proof (cs_nonneg n_dec (rw_pc s) ltac:(intros []; cbn; lia)) as P3. pose proof (cs_nonneg n_post (rw_pc s) ltac:(intros []; cbn; lia)) as P4.
  assert (GE : forall f, (forall p, 0 <= f p) -> f (rw_pc s t) <= cs f (rw_pc s)).
  { intros f Hf. apply (csum_ge N (fun t => f (rw_pc s t))); [intros; apply Hf|exact LT]. }
  pose proof (GE n_sem ltac:(intros []; cbn; lia)) as G1. pose proof (GE n_hold ltac:(intros []; cbn; lia)) as G2. pose proof (GE n_dec ltac:(intros []; cbn; lia)) as G3. pose proof (GE n_post ltac:(intros []; cbn; lia)) as G4.
  destruct H as [c x w a b pc t L E|c x w a b pc t L E|c x w a b pc t E|c x w a b pc t E A|c x w a b pc t E|c x w a b pc t E|c x w a b pc t E
    |c x a b pc t E|c x w a b pc t E|c x w a b pc t r E|c x w a b pc t E A|c x w a b pc t E|c x w a b pc t r i E A|c x w a b pc t r i E A];
    cbn [rw_pc rw_w rw_count rw_wait rw_rsem rw_wsem] in *; try rewrite E in *; cbn [n_sem n_hold n_dec n_post] in *.
  all: try (destruct (IW t) as [IWt _]; rewrite E in IWt; specialize (IWt Logic.I)).
  - eapply OTHER; [reflexivity|cbn; tauto|cbn; tauto|]. cbn [n_sem n_hold n_dec n_post]. intros o IOo FW. rw_arith.
  - eapply OTHER; [reflexivity|cbn; tauto|cbn; tauto|]. cbn [n_sem n_hold n_dec n_post]. intros o IOo FW. rw_arith.
  - eapply OTHER; [reflexivity|cbn; tauto|destruct (Z.ltb_spec (c + 1) 0); cbn; tauto|]. intros o IOo FW. destruct (Z.ltb_spec (c + 1) 0); cbn [n_sem n_hold n_dec n_post]; rw_arith.
  - eapply OTHER; [reflexivity|cbn; tauto|cbn; tauto|]. cbn [n_sem n_hold n_dec n_post]. intros o IOo FW. rw_arith.
  - eapply OTHER; [reflexivity|cbn; tauto|destruct (Z.ltb_spec (c - 1) 0); cbn; tauto|]. intros o IOo FW. destruct (Z.ltb_spec (c - 1) 0); cbn [n_sem n_hold n_dec n_post]; rw_arith.
  - eapply OTHER; [reflexivity|cbn; tauto|destruct (Z.eqb_spec (x - 1) 0); cbn; tauto|]. intros o IOo FW. destruct (Z.eqb_spec (x - 1) 0); cbn [n_sem n_hold n_dec n_post]; rw_arith.
  - eapply OTHER; [reflexivity|cbn; tauto|cbn; tauto|]. cbn [n_sem n_hold n_dec n_post]. intros o IOo FW. rw_arith.
  - split; cbn [rw_pc rw_w rw_count rw_wait rw_rsem rw_wsem]; [exact (NEW _ _ _ _ _ _ eq_refl)| |].
    + intros u. destruct (decide (u = t)) as [->|Ne]; [rewrite tset_eq; cbn; tauto|]. rewrite tset_ne by auto. rewrite IW. split; congruence.
    + rewrite !cs_set by exact LT. rewrite E. cbn [n_sem n_hold n_dec n_post]. cbn [fmap option_fmap option_map] in *. rewrite tset_eq. cbn [owner_ok] in *. unfold quiet in *. lia.
  - assert (FWt := few pc t LT ltac:(rewrite E; exact I)).
    eapply OWNER; [reflexivity|cbn; tauto|subst r; destruct (Z.eqb_spec (c - max_readers + max_readers) 0); cbn; tauto|]. subst r. destruct (Z.eqb_spec (c - max_readers + max_readers) 0); cbn [owner_ok]; unfold quiet; lia.
  - eapply OWNER; [reflexivity|cbn; tauto|destruct (Z.eqb_spec (x + r) 0); cbn; tauto|]. destruct (Z.eqb_spec (x + r) 0); cbn [owner_ok]; lia.
  - eapply OWNER; [reflexivity|cbn; tauto|cbn; tauto|]. cbn [owner_ok]. lia.
  - eapply OWNER; [reflexivity|cbn; tauto|cbn; tauto|]. cbn [owner_ok]. unfold quiet. lia.
  - eapply OWNER; [reflexivity|cbn; tauto|cbn; tauto|]. cbn [owner_ok]. unfold quiet. lia.
  - split; cbn [rw_pc rw_w rw_count rw_wait rw_rsem rw_wsem]; [exact (NEW _ _ _ _ _ _ eq_refl)| |].
    + intros u. destruct (decide (u = t)) as [->|Ne]; [rewrite tset_eq; cbn; split; [tauto|discriminate]|]. rewrite tset_ne by auto. rewrite IW, IWt. split; congruence.
    + rewrite !cs_set by exact LT. rewrite E. cbn [n_sem n_hold n_dec n_post]. rewrite IWt in IO. cbn [fmap option_fmap option_map] in *. rewrite E in IO. cbn [owner_ok] in *. unfold quiet in *. lia.
Qed.
Lemma rwinv_reach s : reach rw_new (rw_step N) s -> rwinv s.
Proof using HN. apply reach_invariant; [exact rwinv_init|exact rwinv_step]. Qed.
End inv.
