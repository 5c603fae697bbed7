(** C127: the plain fields of a Sleeper.  Sleep* reads s.ctx, Wakeup reads and
    writes s.cancel and writes s.ctx, and nothing orders them. *)
From Verif Require Import Base Conc RaceSpec TimeModel SleepModel SleepProofs SleepProps.
Local Open Scope Z.

Inductive field := FCtx | FCancel.
(** sleepx.go 34, 50, 66: s.ctx read; 79: s.cancel read; 80: s.ctx, then s.cancel written.
    There is no mutex; slept is atomic. *)
Inductive sleep_acc (s : cstate) : nat -> field -> bool -> bool -> Prop :=
| sa_done t k : c_th s t = SDone k -> sleep_acc s t FCtx false false
| sa_read t : c_th s t = WRead -> sleep_acc s t FCancel false false
| sa_ctx t : c_th s t = WCtx -> sleep_acc s t FCtx true false
| sa_can t e : c_th s t = WCan e -> sleep_acc s t FCancel true false.

(** one sleeper and one Wakeup suffice for a race on s.ctx ... *)
Theorem sleeper_race_refuted : exists s, reach (c_init 0) c_step_serial s /\ race sleep_acc s FCtx.
Proof.
  assert (Sr : forall s, (forall t, t <> 1%nat -> ~ in_wake (c_th s t)) -> serial s).
  { intros s N t u Ht Hu. destruct (decide (t = 1%nat)) as [->|]; [|destruct (N t); assumption]. destruct (decide (u = 1%nat)) as [->|]; [reflexivity|destruct (N u); assumption]. }
  eexists. split.
  - eapply reach_snoc; [eapply reach_snoc; [eapply reach_snoc; [eapply reach_snoc; [eapply reach_snoc; [eapply reach_snoc; [apply reach_refl|]|]|]|]|]|].
    + split; [apply (cs_sleep _ _ _ _ _ _ _ 0%nat KForever); reflexivity|]. apply Sr. cbn. intros [|[|t]] Ht; cbn; [intros []|congruence|intros []].
    + split; [apply (cs_cas_ok _ _ _ _ _ _ 0%nat KForever); reflexivity|]. apply Sr. cbn. intros [|[|t]] Ht; cbn; [intros []|congruence|intros []].
    + split; [apply (cs_wake _ _ _ _ _ _ _ 1%nat); reflexivity|]. apply Sr. cbn. intros [|[|t]] Ht; cbn; [intros []|congruence|intros []].
    + split; [apply (cs_load_true _ _ _ _ _ _ 1%nat); reflexivity|]. apply Sr. cbn. intros [|[|t]] Ht; cbn; [intros []|congruence|intros []].
    + split; [apply (cs_read _ _ _ _ _ _ _ 1%nat); reflexivity|]. apply Sr. cbn. intros [|[|t]] Ht; cbn; [intros []|congruence|intros []].
    + split; [apply (cs_cancel _ _ _ _ _ _ _ 1%nat 0%nat); reflexivity|]. apply Sr. cbn. intros [|[|t]] Ht; cbn; [intros []|congruence|intros []].
  - exists 0%nat, 1%nat, false, true, false, false. split; [discriminate|]. split; [|split; [|auto]].
    + apply (sa_done _ _ KForever). reflexivity.
    + apply sa_ctx. reflexivity.
Qed.
Print Assumptions sleeper_race_refuted.
(** ... and two Wakeups for one on s.cancel *)
Theorem sleeper_cancel_race_refuted : exists s, reach (c_init 0) c_step s /\ race sleep_acc s FCancel.
Proof.
  eexists. split.
  - exists [LSleep 0 KForever; LTau 0; LWake 1; LTau 1; LTau 1; LTau 1; LTau 1; LWake 2; LTau 2].
    eapply steps_cons; [apply (cs_sleep _ _ _ _ _ _ _ 0%nat KForever); reflexivity|].
    eapply steps_cons; [apply (cs_cas_ok _ _ _ _ _ _ 0%nat KForever); reflexivity|].
    eapply steps_cons; [apply (cs_wake _ _ _ _ _ _ _ 1%nat); reflexivity|].
    eapply steps_cons; [apply (cs_load_true _ _ _ _ _ _ 1%nat); reflexivity|].
    eapply steps_cons; [apply (cs_read _ _ _ _ _ _ _ 1%nat); reflexivity|].
    eapply steps_cons; [apply (cs_cancel _ _ _ _ _ _ _ 1%nat 0%nat); reflexivity|].
    eapply steps_cons; [apply (cs_ctx _ _ _ _ _ _ _ 1%nat); reflexivity|].
    eapply steps_cons; [apply (cs_wake _ _ _ _ _ _ _ 2%nat); reflexivity|].
    eapply steps_cons; [apply (cs_load_true _ _ _ _ _ _ 2%nat); reflexivity|]. apply steps_nil.
  - exists 1%nat, 2%nat, true, false, false, false. split; [discriminate|]. split; [|split; [|auto]].
    + apply (sa_can _ _ 1%nat). reflexivity.
    + apply sa_read. reflexivity.
Qed.
Print Assumptions sleeper_cancel_race_refuted.

(** Exactly: a race on s.ctx is a Wakeup about to write it and either the one Sleep*
    that reads it or another Wakeup about to write it; one on s.cancel is two Wakeups. *)
Theorem sleeper_race_exact s :
  (race sleep_acc s FCtx <-> exists t u, t <> u /\ c_th s t = WCtx /\ (c_th s u = WCtx \/ exists k, c_th s u = SDone k)) /\
  (race sleep_acc s FCancel <-> exists t u e, t <> u /\ c_th s t = WCan e /\ (c_th s u = WRead \/ exists e', c_th s u = WCan e')).
Proof.
  split; split.
  - intros (i & j & wi & wj & li & lj & N & A & B & W & _). inversion A; subst; inversion B; subst; try discriminate.
    + exists j, i. eauto.
    + exists i, j. eauto.
    + exists i, j. eauto.
  - intros (t & u & N & T & [U|[k U]]).
    + exists t, u, true, true, false, false. repeat split; [exact N|apply sa_ctx; exact T|apply sa_ctx; exact U].
    + exists t, u, true, false, false, false. repeat split; [exact N|apply sa_ctx; exact T|eapply sa_done; exact U].
  - intros (i & j & wi & wj & li & lj & N & A & B & W & _). inversion A; subst; inversion B; subst; try discriminate.
    + exists j, i. eauto.
    + exists i, j. eauto.
    + exists i, j. eauto 6.
  - intros (t & u & e & N & T & [U|[k U]]).
    + exists t, u, true, false, false, false. repeat split; [exact N|eapply sa_can; exact T|apply sa_read; exact U].
    + exists t, u, true, true, false, false. repeat split; [exact N|eapply sa_can; exact T|eapply sa_can; exact U].
Qed.
Print Assumptions sleeper_race_exact.
(** So: as long as nobody calls Wakeup nothing races; and if Wakeups do not overlap,
    s.cancel never does, and s.ctx only between the Wakeup and a sleeper that has
    taken the flag but not yet read s.ctx. *)
Theorem sleeper_race_free_partial now0 s : reach (c_init now0) c_step_serial s ->
  ~ race sleep_acc s FCancel /\
  ((forall t k, c_th s t <> SDone k) -> ~ race sleep_acc s FCtx) /\
  ((forall t, ~ in_wake (c_th s t)) -> forall x, ~ race sleep_acc s x).
Proof.
  intros R. pose proof (wi_serial s (winv_reach now0 s R)) as Sr. destruct (sleeper_race_exact s) as [E1 E2].
  assert (C : ~ race sleep_acc s FCancel).
  { rewrite E2. intros (t & u & e & N & T & U). apply N, Sr; [rewrite T; exact I|]. destruct U as [U|[e' U]]; rewrite U; exact I. }
  split; [exact C|]. split.
  - intros D. rewrite E1. intros (t & u & N & T & [U|[k U]]); [|exact (D u k U)]. apply N, Sr; [rewrite T|rewrite U]; exact I.
  - intros D [|]; [|exact C]. rewrite E1. intros (t & u & N & T & _). apply (D t). rewrite T. exact I.
Qed.
Print Assumptions sleeper_race_free_partial.
(** a sleeper that waits and a Wakeup: within the hypotheses *)
Example race_free_ex : exists s, reach (c_init 0) c_step_serial s /\ (forall t k, c_th s t <> SDone k) /\ in_sleep (c_th s 0%nat).
Proof. eexists. split; [exact sleeping_ex|]. split; [intros [|t] k; discriminate|exact I]. Qed.
