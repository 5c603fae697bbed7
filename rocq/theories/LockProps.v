(** Properties of syncx/lockx (C44, C45, C88), under every interleaving of any
    number of goroutines calling Lock on the same object. *)
From Verif Require Import Base Conc LockModel LockProofs.

(** C44 (natural statement, false): Lock runs the callback on any object.  On an
    object whose first word is not its own address - a zero object, for
    instance - no callback ever starts and no call ever returns. *)
Theorem lock_refuted :
  forall w tr s, w <> Own -> steps k_step (k_init w) tr s ->
    forall t, count_ev t is_enter tr = 0 /\ count_ev t is_release tr = 0 /\ k_th s t <> KBody /\ k_word s = w.
Proof.
  intros w tr s Hw HS t. destruct (never_in w s Hw (ex_intro _ tr HS)) as [E N].
  pose proof (counts w tr s HS t) as (C1 & C2 & C3).
  assert (G : count_ev t is_enter tr = 0).
  { clear -HS Hw. revert t. 
    apply (steps_trace_invariant (k_init w) k_step (fun tr s => (k_word s = w /\ forall t, k_th s t = KIdle \/ k_th s t = KTry) /\ forall t, count_ev t is_enter tr = 0)) in HS; [apply HS| |].
    - split; [split; auto|]. reflexivity.
    - clear tr s HS. intros tr s l s' HS [_ IH] H. split; [apply never_in; [exact Hw|]; exists (tr ++ [l]); econstructor; eauto|].
      destruct (never_in w s Hw (ex_intro _ tr HS)) as [E _]. intros u.
      destruct H; rewrite count_snoc, IH; cbn [is_enter]; try (destruct (decide _); reflexivity). cbn in E. congruence. }
  split; [exact G|]. split; [lia|]. split; [destruct (N t) as [-> | ->]; discriminate|exact E].
Qed.
Print Assumptions lock_refuted.

(** C45: on an object whose first word is its own address, at most one callback
    runs at a time, and the word is nil exactly while somebody is inside ... *)
Theorem lock_mutual_exclusion :
  forall s, reach (k_init Own) k_step s ->
    (forall t u, k_th s t = KBody -> k_th s u = KBody -> t = u) /\
    (k_word s = Nil <-> exists t, k_th s t = KBody \/ k_th s t = KRel \/ k_th s t = KDead) /\
    (k_word s = Nil \/ k_word s = Own).
Proof.
  intros s R. pose proof (kinv_reach s R) as [E W]. split; [|split].
  - intros t u Ht Hu. apply E; [rewrite Ht|rewrite Hu]; exact I.
  - destruct W as [[W [t Ht]]|[W N]]; rewrite W.
    + split; [intros _|reflexivity]. exists t. destruct (k_th s t); cbn in Ht; tauto.
    + split; [discriminate|]. intros [t Ht]. exfalso. apply (N t). destruct Ht as [-> |[-> | ->]]; exact I.
  - tauto.
Qed.
Print Assumptions lock_mutual_exclusion.
(** ... each call runs its callback at most once: calls started = callbacks
    started + (1 if still waiting); a returned call has run it exactly once. *)
Theorem lock_runs_once :
  forall w tr s t, steps k_step (k_init w) tr s ->
    count_ev t is_enter tr <= count_ev t is_call tr <= S (count_ev t is_enter tr) /\
    (k_th s t = KIdle -> count_ev t is_enter tr = count_ev t is_call tr /\ count_ev t is_release tr = count_ev t is_call tr).
Proof.
  intros w tr s t HS. pose proof (counts w tr s HS t) as (C1 & C2 & C3). split.
  - destruct (k_th s t); cbn in *; lia.
  - intros E. rewrite E in *. cbn in *. lia.
Qed.
Print Assumptions lock_runs_once.
(** ... and nobody waits in vain: unless a callback has panicked, whenever
    somebody is in a call some goroutine can take a successful step. *)
Theorem lock_progress :
  forall s t, reach (k_init Own) k_step s -> (forall u, k_th s u <> KDead) -> k_th s t <> KIdle ->
    exists u e s', k_step s (u, e) s' /\ (e = EEnter \/ e = EExit \/ e = ERelease).
Proof.
  intros s t R ND Ht. pose proof (kinv_reach s R) as [E W]. destruct s as [w th]; cbn in *.
  destruct W as [[-> [u Hu]]|[-> N]].
  - exists u. specialize (ND u). destruct (th u) eqn:Eu; cbn in Hu; try tauto.
    + exists EExit. eexists. split; [apply ks_exit; exact Eu|auto].
    + exists ERelease. eexists. split; [apply ks_release; exact Eu|auto].
  - exists t, EEnter. eexists. split; [apply ks_enter|auto]. specialize (N t). destruct (th t); cbn in N; tauto.
Qed.
Print Assumptions lock_progress.

(** C88 (natural statement, false): the lock is released when a callback
    panics.  After a panic nobody gets in any more. *)
Theorem lock_panic_refuted :
  forall s t, reach (k_init Own) k_step s -> k_th s t = KDead ->
    forall tr s', steps k_step s tr s' -> k_word s' = Nil /\ forall u, k_th s' u <> KBody.
Proof.
  intros s t R Hd tr s' HS.
  assert (G : reach (k_init Own) k_step s' /\ k_th s' t = KDead).
  { eapply (steps_invariant s k_step (fun s => reach (k_init Own) k_step s /\ k_th s t = KDead)); [|clear tr s' HS; intros s1 [u e] s2 [R1 D1] H; split|exact HS]; auto.
    - eapply reach_snoc; eauto.
    - destruct H; cbn in *; auto; destruct (decide (t0 = t)) as [->|]; try congruence; rewrite tset_ne by auto; assumption. }
  destruct G as [R' D']. pose proof (kinv_reach s' R') as [E W]. split.
  - destruct W as [[W _]|[_ N]]; [exact W|]. exfalso. apply (N t). rewrite D'. exact I.
  - intros u Hu. assert (u = t) as -> by (apply E; [rewrite Hu|rewrite D']; exact I). congruence.
Qed.
Print Assumptions lock_panic_refuted.

Example lock_case :
  exists s, reach (k_init Own) k_step s /\ k_th s 0 = KRel /\ k_th s 1 = KTry /\ k_word s = Nil.
Proof.
  eexists. split.
  - eapply reach_snoc with (l := (1, EFail)). eapply reach_snoc with (l := (0, EExit)). eapply reach_snoc with (l := (0, EEnter)).
    eapply reach_snoc with (l := (1, ECall)). eapply reach_snoc with (l := (0, ECall)). apply reach_refl.
    + apply ks_call. reflexivity.
    + apply ks_call. reflexivity.
    + apply ks_enter. reflexivity.
    + apply ks_exit. reflexivity.
    + apply ks_fail; [reflexivity|discriminate].
  - repeat split.
Qed.
Example lock_panic_case : exists s, reach (k_init Own) k_step s /\ k_th s 0 = KDead.
Proof.
  eexists. split.
  - eapply reach_snoc with (l := (0, EPanic)). eapply reach_snoc with (l := (0, EEnter)). eapply reach_snoc with (l := (0, ECall)). apply reach_refl.
    + apply ks_call. reflexivity.
    + apply ks_enter. reflexivity.
    + apply ks_panic. reflexivity.
  - reflexivity.
Qed.
