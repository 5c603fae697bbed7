(** Properties of timex/sleepx (C52-C54), under every interleaving of any number
    of goroutines that call Sleep* and Wakeup on one Sleeper. *)
From Verif Require Import Base Conc TimeModel TimeProofs SleepModel SleepProofs.
Local Open Scope Z.

(** C52: at most one call is past its CompareAndSwap ... *)
Theorem sleeper_exclusive now0 s : reach (c_init now0) c_step s ->
  forall t u, in_sleep (c_th s t) -> in_sleep (c_th s u) -> t = u.
Proof. intros R. apply (ci_excl _ (cinv_reach now0 s R)). Qed.
Print Assumptions sleeper_exclusive.
(** ... any other call returns false at its next step ... *)
Theorem sleeper_busy_false now0 s t u k l s' : reach (c_init now0) c_step s ->
  in_sleep (c_th s u) -> c_th s t = SCas k -> c_step s l s' -> c_th s' t <> SCas k ->
  l = LSlept t false /\ c_th s' t = SIdle.
Proof.
  intros R Hu Ht H N. pose proof (ci_on _ (cinv_reach now0 s R) u Hu) as E.
  assert (D : forall v p, c_th s' = tset (c_th s) v p -> v = t).
  { intros v p Ev. destruct (decide (v = t)); [assumption|]. exfalso. apply N. rewrite Ev, tset_ne by congruence. exact Ht. }
  destruct H; cbn in *; try (pose proof (D t0 _ eq_refl) as ->; first [congruence|rewrite tset_eq in *; auto]); try (destruct (N Ht)).
Qed.
Print Assumptions sleeper_busy_false.
(** ... and calls return false only for that reason, and true only after having slept. *)
Theorem sleep_results now0 s t b s' : reach (c_init now0) c_step s -> c_step s (LSlept t b) s' ->
  if b then in_sleep (c_th s t) /\ forall u, ~ in_sleep (c_th s' u)
  else ~ in_sleep (c_th s t) /\ exists u, in_sleep (c_th s u).
Proof.
  intros R H. pose proof (cinv_reach now0 s R) as Inv. pose proof (cinv_step _ _ _ Inv H) as Inv'.
  inversion H; subst; cbn.
  - match goal with H : _ t = _ |- _ => rewrite H end. split; [intros []|]. exact (ci_off _ Inv eq_refl).
  - match goal with H : _ t = _ |- _ => rewrite H end. split; [exact I|]. intros u Hu. pose proof (ci_on _ Inv' u Hu). discriminate.
Qed.
Print Assumptions sleep_results.

(** a run in which thread 0 sleeps for ever, having read the first context *)
Definition th_sleeping (t0 : Z) : nat -> spc := tset (tset (tset (fun _ => SIdle) 0%nat (SCas KForever)) 0%nat (SDone KForever)) 0%nat (SWait KForever 0%nat t0).
Example sleeping_ex : reach (c_init 0) c_step_serial (CS true 0 0 1 (fun _ => false) 0 (th_sleeping 0)).
Proof.
  assert (Sr : forall s, (forall t, ~ in_wake (c_th s t)) -> serial s) by (intros s N t u Ht; destruct (N t Ht)).
  unfold th_sleeping. eapply reach_snoc; [eapply reach_snoc; [eapply reach_snoc; [apply reach_refl|]|]|].
  - split; [apply (cs_sleep _ _ _ _ _ _ _ 0%nat KForever); reflexivity|]. apply Sr. cbn. intros [|t]; cbn; intros [].
  - split; [apply (cs_cas_ok _ _ _ _ _ _ 0%nat KForever); reflexivity|]. apply Sr. cbn. intros [|t]; cbn; intros [].
  - split; [apply (cs_done _ _ _ _ _ _ _ 0%nat KForever); reflexivity|]. apply Sr. cbn. intros [|t]; cbn; intros [].
Qed.
(** thread 1 tries to sleep as well: false *)
Example busy_ex : exists s, c_step (CS true 0 0 1 (fun _ => false) 0 (tset (th_sleeping 0) 1%nat (SCas (KFor 5)))) (LSlept 1 false) s.
Proof. eexists. apply (cs_cas_fail _ _ _ _ _ _ _ (KFor 5)). reflexivity. Qed.

(** C53: if Wakeup calls do not overlap, a sleeper that is already waiting when
    Wakeup cancels can end from then on, whatever happens in between. *)
Theorem wakeup_wakes_partial now0 s t e s' u k e' t0 : reach (c_init now0) c_step_serial s ->
  c_th s t = WCancel e -> c_step_serial s (LTau t) s' -> c_th s u = SWait k e' t0 ->
  forall ls s2, steps c_step s' ls s2 -> c_th s2 u = SWait k e' t0 ->
    exists s3, c_step s2 (LTau u) s3 /\ c_th s3 u = SStore k e' t0.
Proof.
  intros R Ht H Hu ls s2 HS H2. pose proof (winv_reach now0 s R) as Inv.
  assert (Hu' : c_th s' u = SWait k e' t0).
  { destruct H as [H _]. inversion H; subst; cbn in *; try congruence. rewrite tset_ne; [exact Hu|congruence]. }
  pose proof (cancel_hits s t e s' Inv Ht H u k e' t0 Hu') as Hc.
  assert (Hc2 : c_cancelled s2 e' = true).
  { revert HS. apply (steps_invariant s' c_step (fun s => c_cancelled s e' = true)); [exact Hc|]. intros a l b Ha Hab. eapply cancelled_stays; eassumption. }
  destruct s2 as [sl x c n f now th]. cbn in *. eexists. split; [eapply cs_woken; eassumption|]. cbn. apply tset_eq.
Qed.
Print Assumptions wakeup_wakes_partial.
(** Wakeup returns false only when no call is asleep *)
Theorem wakeup_false now0 s t s' : reach (c_init now0) c_step s -> c_step s (LWoke t false) s' -> forall u, ~ in_sleep (c_th s u).
Proof.
  intros R H u Hu. pose proof (ci_on _ (cinv_reach now0 s R) u Hu) as E. inversion H; subst. discriminate.
Qed.
Print Assumptions wakeup_false.
(** a sleeper ends only by its timer or because its context was cancelled *)
Theorem sleep_end_reason now0 s t k e t0 : reach (c_init now0) c_step s -> c_th s t = SStore k e t0 ->
  timer_fired k t0 (c_now s) \/ c_cancelled s e = true.
Proof. intros R. apply (ended_well_reach now0 s R). Qed.
Print Assumptions sleep_end_reason.

(** not if the sleeper has not yet read the context: Wakeup returns true and the
    sleeper, in progress all the time, waits on a context that nobody has cancelled *)
Theorem wakeup_lost_refuted : exists s t0,
  steps c_step (c_init 0) [LSleep 0 KForever; LTau 0; LWake 1; LTau 1; LTau 1; LTau 1; LTau 1; LWoke 1 true; LTau 0] s /\
  c_th s 0%nat = SWait KForever 1%nat t0 /\ c_cancelled s 1%nat = false /\ (forall t, t <> 0%nat -> c_th s t = SIdle) /\
  forall s', ~ c_step s (LTau 0) s'.
Proof.
  eexists _, _. split; [|split; [|split; [|split]]].
  - eapply steps_cons; [apply (cs_sleep _ _ _ _ _ _ _ 0%nat KForever); reflexivity|].
    eapply steps_cons; [apply (cs_cas_ok _ _ _ _ _ _ 0%nat KForever); reflexivity|].
    eapply steps_cons; [apply (cs_wake _ _ _ _ _ _ _ 1%nat); reflexivity|].
    eapply steps_cons; [apply (cs_load_true _ _ _ _ _ _ 1%nat); reflexivity|].
    eapply steps_cons; [apply (cs_read _ _ _ _ _ _ _ 1%nat); reflexivity|].
    eapply steps_cons; [apply (cs_cancel _ _ _ _ _ _ _ 1%nat 0%nat); reflexivity|].
    eapply steps_cons; [apply (cs_ctx _ _ _ _ _ _ _ 1%nat); reflexivity|].
    eapply steps_cons; [apply (cs_can _ _ _ _ _ _ _ 1%nat 1%nat); reflexivity|].
    eapply steps_cons; [apply (cs_done _ _ _ _ _ _ _ 0%nat KForever); reflexivity|]. apply steps_nil.
  - reflexivity.
  - reflexivity.
  - intros [|[|t]] Ht; [congruence|reflexivity|reflexivity].
  - intros s' H. cbn in H. inversion H; subst; cbn in *; try discriminate.
    + match goal with H : tset _ _ _ _ = _ |- _ => cbn in H; injection H as <- <- <- end. match goal with H : timer_fired _ _ _ |- _ => exact H end.
    + match goal with H : tset _ _ _ _ = _ |- _ => cbn in H; injection H as <- <- <- end. discriminate.
Qed.
Print Assumptions wakeup_lost_refuted.

(** and two overlapping Wakeup calls can leave s.ctx and s.cancel of different
    contexts: a sleeper that then waits is never woken again by any Wakeup *)
Theorem wakeup_overlap_refuted : exists s t0,
  reach (c_init 0) c_step s /\ c_th s 0%nat = SWait KForever 2%nat t0 /\ (forall t, t <> 0%nat -> c_th s t = SIdle) /\
  forall ls s', steps c_step s ls s' -> c_th s' 0%nat = SWait KForever 2%nat t0.
Proof.
  set (deaf := fun (t0 : Z) (s : cstate) => c_th s 0%nat = SWait KForever 2%nat t0 /\ c_cancelled s 2%nat = false /\
    c_cancel s <> 2%nat /\ (2 < c_next s)%nat /\ forall t, c_th s t <> WCancel 2 /\ c_th s t <> WCan 2).
  assert (G : forall t0 s l s', deaf t0 s -> c_step s l s' -> deaf t0 s').
  { intros t0 s l s' (D1 & D2 & D3 & D4 & D5) H. unfold deaf.
    destruct H; cbn in *; repeat split; try assumption; try lia.
    all: try (rewrite tset_ne; [assumption|]; intros <-; congruence).
    all: try (rewrite tset_ne by (intros <-; destruct (D5 t); congruence); assumption).
    all: try (rewrite tset_ne; [assumption|]; intros <-; rewrite D1 in H; injection H as <- <- <-; first [congruence|contradiction]).
    all: try (match goal with |- tset _ ?t _ ?u <> _ => cases u t; [try discriminate|apply D5] end).
    all: try apply D5.
    - intros [= ->]. contradiction.
    - intros [= ->]. lia.
    - destruct (D5 t) as [_ N]. congruence. }
  eexists _, _. split; [|split; [|split]].
  - (* thread 0 sleeps; 1 and 2 wake it up at the same time *)
    exists [LSleep 0 (KFor 0); LTau 0; LWake 1; LTau 1; LTau 1; LTau 1; LWake 2; LTau 2; LTau 2; LTau 2; LTau 1; LTau 2; LWoke 2 true; LWoke 1 true; LTau 0; LTau 0; LSlept 0 true; LSleep 0 KForever; LTau 0; LTau 0].
    eapply steps_cons; [apply (cs_sleep _ _ _ _ _ _ _ 0%nat (KFor 0)); reflexivity|].
    eapply steps_cons; [apply (cs_cas_ok _ _ _ _ _ _ 0%nat (KFor 0)); reflexivity|].
    eapply steps_cons; [apply (cs_wake _ _ _ _ _ _ _ 1%nat); reflexivity|].
    eapply steps_cons; [apply (cs_load_true _ _ _ _ _ _ 1%nat); reflexivity|].
    eapply steps_cons; [apply (cs_read _ _ _ _ _ _ _ 1%nat); reflexivity|].
    eapply steps_cons; [apply (cs_cancel _ _ _ _ _ _ _ 1%nat 0%nat); reflexivity|].
    eapply steps_cons; [apply (cs_wake _ _ _ _ _ _ _ 2%nat); reflexivity|].
    eapply steps_cons; [apply (cs_load_true _ _ _ _ _ _ 2%nat); reflexivity|].
    eapply steps_cons; [apply (cs_read _ _ _ _ _ _ _ 2%nat); reflexivity|].
    eapply steps_cons; [apply (cs_cancel _ _ _ _ _ _ _ 2%nat 0%nat); reflexivity|].
    eapply steps_cons; [apply (cs_ctx _ _ _ _ _ _ _ 1%nat); reflexivity|].
    eapply steps_cons; [apply (cs_ctx _ _ _ _ _ _ _ 2%nat); reflexivity|].
    eapply steps_cons; [apply (cs_can _ _ _ _ _ _ _ 2%nat 2%nat); reflexivity|].
    eapply steps_cons; [apply (cs_can _ _ _ _ _ _ _ 1%nat 1%nat); reflexivity|].
    eapply steps_cons; [apply (cs_done _ _ _ _ _ _ _ 0%nat (KFor 0)); reflexivity|].
    eapply steps_cons; [apply (cs_timer _ _ _ _ _ _ _ 0%nat (KFor 0) 2%nat 0); [reflexivity|vm_compute; discriminate]|].
    eapply steps_cons; [apply (cs_store _ _ _ _ _ _ _ 0%nat (KFor 0) 2%nat 0); reflexivity|].
    eapply steps_cons; [apply (cs_sleep _ _ _ _ _ _ _ 0%nat KForever); reflexivity|].
    eapply steps_cons; [apply (cs_cas_ok _ _ _ _ _ _ 0%nat KForever); reflexivity|].
    eapply steps_cons; [apply (cs_done _ _ _ _ _ _ _ 0%nat KForever); reflexivity|]. apply steps_nil.
  - reflexivity.
  - intros [|[|[|t]]] Ht; [congruence|reflexivity|reflexivity|reflexivity].
  - intros ls s' HS. assert (D : deaf 0 s'); [|apply D].
    revert HS. apply steps_invariant; [|intros; eapply G; eassumption]. unfold deaf. cbn. repeat split; try lia; try reflexivity.
    all: destruct t as [|[|[|t]]]; discriminate.
Qed.
Print Assumptions wakeup_overlap_refuted.

(** C54: SleepFor(d) without Wakeup sleeps for int64(d * 10^9) nanoseconds, not d ... *)
Theorem sleep_for_exact now0 s t d e t0 : reach (c_init now0) c_step s -> c_cancelled s e = false ->
  (c_th s t = SStore (KFor d) e t0 -> t0 + i64 (d * 1000000000) <= c_now s) /\
  (c_th s t = SWait (KFor d) e t0 -> (exists s', c_step s (LTau t) s') <-> t0 + i64 (d * 1000000000) <= c_now s).
Proof.
  intros R Hc. split.
  - intros H. destruct (ended_well_reach now0 s R t _ _ _ H) as [G|G]; [exact G|congruence].
  - intros H. split.
    + intros [s' H']. inversion H'; subst; cbn in *; try congruence.
      match goal with H1 : _ t = SWait _ _ _, H2 : timer_fired _ _ _ |- _ => rewrite H in H1; injection H1 as <- <- <- ; exact H2 end.
    + intros Hn. destruct s as [sl x c n f now th]. cbn in *. eexists. eapply cs_timer; [exact H|]. exact Hn.
Qed.
Print Assumptions sleep_for_exact.
(** ... so SleepFor(time.Second) sleeps for more than 31 years, SleepFor(10*time.Second) not at all *)
Theorem sleep_for_refuted :
  i64 (1000000000 * 1000000000) = 1000000000000000000 /\
  i64 (10000000000 * 1000000000) < 0 /\
  ~ (forall s d e t0, reach (c_init 0) c_step s -> c_th s 0%nat = SStore (KFor d) e t0 -> c_cancelled s e = false -> t0 + d <= c_now s).
Proof.
  split; [vm_compute; reflexivity|]. split; [vm_compute; reflexivity|]. intros H.
  assert (R : exists s, reach (c_init 0) c_step s /\ c_th s 0%nat = SStore (KFor 10000000000) 0%nat 0 /\ c_cancelled s 0%nat = false /\ c_now s = 0).
  { eexists. split.
    - eapply reach_snoc; [eapply reach_snoc; [eapply reach_snoc; [eapply reach_snoc; [apply reach_refl|]|]|]|].
      + apply (cs_sleep _ _ _ _ _ _ _ 0%nat (KFor 10000000000)). reflexivity.
      + apply (cs_cas_ok _ _ _ _ _ _ 0%nat (KFor 10000000000)). reflexivity.
      + apply (cs_done _ _ _ _ _ _ _ 0%nat (KFor 10000000000)). reflexivity.
      + apply (cs_timer _ _ _ _ _ _ _ 0%nat (KFor 10000000000) 0%nat 0); [reflexivity|]. vm_compute. discriminate.
    - auto. }
  destruct R as (s & R & H1 & H2 & H3). specialize (H s _ _ _ R H1 H2). lia.
Qed.
Print Assumptions sleep_for_refuted.
(** SleepUntil(t) sleeps until t, if t is less than 292 years away *)
Theorem sleep_until_exact now0 s u t e t0 : reach (c_init now0) c_step s -> c_cancelled s e = false -> - 2^63 <= t - t0 < 2^63 ->
  (c_th s u = SStore (KUntil t) e t0 -> t <= c_now s) /\
  (c_th s u = SWait (KUntil t) e t0 -> (exists s', c_step s (LTau u) s') <-> t <= c_now s).
Proof.
  intros R Hc Hr. assert (E : forall n, timer_fired (KUntil t) t0 n <-> t <= n) by (intros n; unfold timer_fired, delay, clamp; lia).
  split.
  - intros H. destruct (ended_well_reach now0 s R u _ _ _ H) as [G|G]; [apply E; exact G|congruence].
  - intros H. split.
    + intros [s' H']. inversion H'; subst; cbn in *; try congruence.
      match goal with H1 : _ u = SWait _ _ _, H2 : timer_fired _ _ _ |- _ => rewrite H in H1; injection H1 as <- <- <- ; apply E; exact H2 end.
    + intros Hn. destruct s as [sl x c n f now th]. cbn in *. eexists. eapply cs_timer; [exact H|]. apply E, Hn.
Qed.
Print Assumptions sleep_until_exact.
