(** Properties of poolx/gopoolx (C58-C62, C89, C90), under every interleaving of
    any number of Run and Stop calls, worker goroutines and the collector, for every
    maxWorkers > 0, preheat n, time stamps and clock readings. *)
From Coq Require Import Sorting.Sorted.
From Verif Require Import Base Conc PoolModel PoolProofs PoolProofs2 PoolProofs3.
Local Open Scope Z.

(** C58: the value of a Run call that returned true is passed to the handler at
    most once, and as long as it has not been it is in exactly one channel; values
    of other calls never are. *)
Theorem pool_exactly_once maxw n tts clock idle tr s t : 0 < maxw -> steps (p_step idle) (p_init maxw n tts clock) tr s ->
  (LRet t true ∈ tr /\ begins t tr = 1%nat /\ (forall c, p_buf s c <> Some t)) \/
  (LRet t true ∈ tr /\ begins t tr = 0%nat /\ exists c, p_buf s c = Some t /\ forall c', p_buf s c' = Some t -> c' = c) \/
  (LRet t true ∉ tr /\ begins t tr = 0%nat /\ (forall c, p_buf s c <> Some t)).
Proof.
  intros Hm R. assert (R' : reach (p_init maxw n tts clock) (p_step idle) s) by (exists tr; exact R).
  pose proof (binv_reach idle maxw n tts clock s Hm R') as B.
  rewrite (begins_started idle maxw n tts clock tr s t R), (returned maxw n tts clock idle tr s t true R).
  destruct (decide (p_started s t = 1%nat)) as [S1|S1].
  - left. split; [|split; [exact S1|]].
    + destruct (p_job s t) as [| | |[]|] eqn:J; try reflexivity; exfalso; rewrite (b_not s B t) in S1 by congruence; discriminate.
    + intros c Bc. destruct (b_buf s B c t Bc). congruence.
  - assert (S0 : p_started s t = 0%nat) by (pose proof (b_le s B t); lia). right.
    assert (J : p_job s t = JRet true \/ p_job s t <> JRet true) by (destruct (p_job s t) as [| | |[]|]; auto; right; discriminate).
    destruct J as [J|J]; [left|right]; (split; [exact J|]); (split; [exact S0|]).
    + destruct (b_ok s B t J) as [|[c Bc]]; [congruence|]. exists c. split; [exact Bc|]. intros c' Bc'. exact (b_uniq s B _ _ _ Bc' Bc).
    + intros c Bc. destruct (b_buf s B c t Bc). congruence.
Qed.
Print Assumptions pool_exactly_once.
(** the handler returns once for every value passed to it, except the one value
    that it is working on in each worker *)
Theorem pool_handled_or_running maxw n tts clock idle tr s t : 0 < maxw -> steps (p_step idle) (p_init maxw n tts clock) tr s ->
  (ends t tr = begins t tr /\ (forall g w c, p_gor s g <> GHandle w c t)) \/
  (ends t tr = 0%nat /\ begins t tr = 1%nat /\ exists g w c, p_gor s g = GHandle w c t /\ forall g' w' c', p_gor s g' = GHandle w' c' t -> g' = g).
Proof.
  intros Hm R. assert (R' : reach (p_init maxw n tts clock) (p_step idle) s) by (exists tr; exact R).
  pose proof (binv_reach idle maxw n tts clock s Hm R') as B. pose proof (pinv_reach idle maxw n tts clock s Hm R') as A.
  destruct (ends_started idle maxw n tts clock tr s t Hm R) as [E1 E2]. rewrite (begins_started idle maxw n tts clock tr s t R).
  assert (D : (exists g w c, p_gor s g = GHandle w c t) \/ (forall g w c, p_gor s g <> GHandle w c t)).
  { assert (D : forall k, (exists g w c, p_gor s g = GHandle w c t) \/ (forall g w c, (g < k)%nat -> p_gor s g <> GHandle w c t)).
    { induction k as [|k [IH|IH]]; [right; lia|left; exact IH|].
      destruct (p_gor s k) as [| | | |w c t'| | | |] eqn:G.
      all: try (right; intros g' w' c' Hg' G'; destruct (decide (g' = k)) as [->|]; [congruence|exact (IH g' w' c' ltac:(lia) G')]).
      destruct (decide (t' = t)) as [->|]; [left; eauto|].
      right; intros g' w' c' Hg' G'; destruct (decide (g' = k)) as [->|]; [congruence|exact (IH g' w' c' ltac:(lia) G')]. }
    destruct (D (p_ng s)) as [|D']; [left; assumption|right]. intros g w c G. apply (D' g w c); [|exact G]. apply gor_lt; [exact A|congruence]. }
  destruct D as [(g & w & c & G)|D].
  - right. split; [exact (E1 g w c G)|]. split; [exact (b_handle s B g w c t G)|]. exists g, w, c. split; [exact G|].
    intros g' w' c' G'. exact (b_one s B _ _ _ _ _ _ _ G' G).
  - left. split; [exact (E2 D)|exact D].
Qed.
Print Assumptions pool_handled_or_running.
(** nothing is sent on, and nothing closes, a closed (or nil) channel, and the send in
    Run never blocks *)
Theorem pool_no_panic maxw n tts clock idle s : 0 < maxw -> reach (p_init maxw n tts clock) (p_step idle) s ->
  p_col s <> CPanic /\ forall t, p_job s t <> JPanic.
Proof. intros Hm R. pose proof (pinv_reach idle maxw n tts clock s Hm R) as A. split; apply A. Qed.
Print Assumptions pool_no_panic.
Theorem pool_send_ready maxw n tts clock idle s t w : 0 < maxw -> reach (p_init maxw n tts clock) (p_step idle) s ->
  p_job s t = JSend w -> exists c s', p_obj s w = Some c /\ p_closed s c = false /\ p_step idle s (LRet t true) s' /\ p_buf s' c = Some t.
Proof.
  intros Hm R J. pose proof (pinv_reach idle maxw n tts clock s Hm R) as A. destruct (send_ready s t w A J) as (c & O & C & B).
  exists c. eexists. split; [exact O|]. split; [exact C|]. split; [apply ps_send; eassumption|]. cbn. apply tset_eq.
Qed.
Print Assumptions pool_send_ready.
(** an accepted value that waits has a worker goroutine that is about to take it *)
Theorem pool_waiting_served maxw n tts clock idle s t c : 0 < maxw -> reach (p_init maxw n tts clock) (p_step idle) s ->
  p_buf s c = Some t -> exists w g, p_gor s g = GStart w /\ p_obj s w = Some c \/ p_gor s g = GRecv w c.
Proof.
  intros Hm R B. pose proof (pinv_reach idle maxw n tts clock s Hm R) as A. destruct (a_buf s A c t B) as (w & O & Ow).
  destruct (dinv_reach idle maxw n tts clock s Hm R w ltac:(rewrite Ow; reflexivity)) as (g & [G|(c' & O' & G)]); exists w, g; [left; auto|].
  right. congruence.
Qed.
Print Assumptions pool_waiting_served.

(** one Run that is accepted, handled and whose worker is idle again *)
Definition one_job (t : nat) (g : nat) : list move := [MCall t; MRun t; MRun t; MGor g; MGor g; MGor g; MGor g; MGor g].
Definition view (s : pstate) := (p_job s 0%nat, p_job s 1%nat, p_gor s 0%nat, p_gor s 1%nat, p_workers s, p_dobby s).
Example one_job_ex : option_map view (execs 10 (p_init 2 0 (fun _ => 0) 0) (one_job 0 0)) = Some (JRet true, JIdle, GRecv 0 0, GNone, 1, [0%nat]).
Proof. vm_compute. reflexivity. Qed.
Example waiting_ex : option_map (fun s => p_buf s 0%nat) (execs 10 (p_init 2 0 (fun _ => 0) 0) [MCall 0; MRun 0; MRun 0]) = Some (Some 0%nat).
Proof. vm_compute. reflexivity. Qed.

(** C59: Workers() is the number of worker goroutines, and it never exceeds
    maxWorkers unless more were preheated *)
Theorem pool_workers_count maxw n tts clock idle s : 0 < maxw -> reach (p_init maxw n tts clock) (p_step idle) s ->
  p_workers s = total live (p_gor s) (p_ng s) /\ forall g, (p_ng s <= g)%nat -> p_gor s g = GNone.
Proof. intros Hm R. split; [exact (cinv_reach idle maxw n tts clock s Hm R)|]. apply (pinv_reach idle maxw n tts clock s Hm R). Qed.
Print Assumptions pool_workers_count.
Theorem pool_bounded maxw n tts clock idle s : 0 < maxw -> reach (p_init maxw n tts clock) (p_step idle) s ->
  total handling (p_gor s) (p_ng s) <= p_workers s <= Z.max maxw (Z.of_nat n).
Proof.
  intros Hm R. split; [|apply (bound_reach maxw n tts clock idle s Hm R)].
  rewrite (cinv_reach idle maxw n tts clock s Hm R). apply handling_live.
Qed.
Print Assumptions pool_bounded.
Theorem pool_max_workers_partial maxw n tts clock idle s : 0 < maxw -> Z.of_nat n <= maxw -> reach (p_init maxw n tts clock) (p_step idle) s ->
  total handling (p_gor s) (p_ng s) <= maxw /\ p_workers s <= maxw.
Proof. intros Hm Hn R. pose proof (pool_bounded maxw n tts clock idle s Hm R). lia. Qed.
Print Assumptions pool_max_workers_partial.
(** with preheat 2 and maxWorkers 1 two handlers run at once *)
Theorem pool_max_workers_refuted : exists n tts clock idle s, reach (p_init 1 n tts clock) (p_step idle) s /\
  total handling (p_gor s) (p_ng s) = 2 /\ p_workers s = 2.
Proof.
  exists 2%nat, (fun _ => 0), 0, 10.
  destruct (execs 10 (p_init 1 2 (fun _ => 0) 0) [MCall 0; MRun 0; MRun 0; MCall 1; MRun 1; MRun 1; MGor 0; MGor 0; MGor 1; MGor 1]) as [s|] eqn:E;
    [|vm_compute in E; discriminate].
  exists s. split; [eapply execs_reach; [|exact E]; lia|]. vm_compute in E. injection E as <-. vm_compute. auto.
Qed.
Print Assumptions pool_max_workers_refuted.
Example bounded_ex : option_map (fun s => total handling (p_gor s) (p_ng s)) (execs 10 (p_init 2 0 (fun _ => 0) 0)
  [MCall 0; MRun 0; MRun 0; MCall 1; MRun 1; MRun 1; MCall 2; MRun 2; MGor 0; MGor 0; MGor 1; MGor 1]) = Some 2.
Proof. vm_compute. reflexivity. Qed.

(** C60: once the collector has dealt with Stop (maxWorkers is -1), it stays so, and
    every Run that has not passed its critical section by then returns false *)
Theorem pool_stopped_run_false maxw n tts clock idle s tr s' t : 0 < maxw -> reach (p_init maxw n tts clock) (p_step idle) s ->
  p_max s = -1 -> p_job s t = JIdle \/ p_job s t = JLock -> steps (p_step idle) s tr s' ->
  LRet t true ∉ tr /\ p_max s' = -1 /\ (p_job s' t = JLock -> exists s2, p_step idle s' (LRet t false) s2).
Proof.
  intros _ _ M J R. split; [exact (proj1 (stopped_refuses idle s tr s' t M J R))|]. pose proof (stopped_stays idle s tr s' M R) as M'.
  split; [exact M'|]. intros J'. eexists. apply ps_stopped; assumption.
Qed.
Print Assumptions pool_stopped_run_false.
(** ... and when neither a worker nor a caller of Run can move any more, every
    accepted value has been handled, once ... *)
Theorem pool_drained maxw n tts clock idle tr s : 0 < maxw -> steps (p_step idle) (p_init maxw n tts clock) tr s -> quiet idle s ->
  forall t, LRet t true ∈ tr -> begins t tr = 1%nat /\ ends t tr = 1%nat.
Proof.
  intros Hm R Q t H. apply (quiet_handled maxw n tts clock idle tr s t Hm R Q). apply (returned maxw n tts clock idle tr s t true R). exact H.
Qed.
Print Assumptions pool_drained.
(** ... which must come about: after the stop every move of a worker lowers a number
    that is never negative *)
Theorem pool_stopped_terminates maxw n tts clock idle s l s' : 0 < maxw -> reach (p_init maxw n tts clock) (p_step idle) s ->
  p_max s = -1 -> p_step idle s l s' ->
  0 <= ranks s' /\ ((forall g, p_gor s' g = p_gor s g) /\ ranks s' = ranks s \/ ranks s' < ranks s).
Proof.
  intros Hm R M H. split; [apply ranks_nonneg|]. apply (stopped_runs_down idle s l s'); [|exact M|exact H].
  exact (pinv_reach idle maxw n tts clock s Hm R).
Qed.
Print Assumptions pool_stopped_terminates.
(** and then, if no workers were preheated, Workers() is 0 *)
Theorem pool_drained_workers_partial maxw tts clock idle s : 0 < maxw -> reach (p_init maxw 0 tts clock) (p_step idle) s ->
  quiet idle s -> p_max s = -1 -> p_workers s = 0.
Proof. intros Hm R Q M. exact (quiet_empty maxw tts clock idle s Hm R Q M). Qed.
Print Assumptions pool_drained_workers_partial.
(** With a preheated worker this fails: its goroutine may not have started before the
    worker is collected; it then ranges over a nil channel for ever. *)
Definition leak_moves : list move := [MClock 100; MTick; MCol; MCol; MCol; MCol; MGor 0; MStop 0; MStop 0; MMeet 0; MCol; MStop 0].
Theorem pool_drained_workers_refuted : exists s, reach (p_init 1 1 (fun _ => 0) 0) (p_step 10) s /\
  quiet 10 s /\ p_max s = -1 /\ p_workers s = 1.
Proof.
  destruct (execs 10 (p_init 1 1 (fun _ => 0) 0) leak_moves) as [s|] eqn:E; [|vm_compute in E; discriminate].
  exists s. split; [eapply execs_reach; [|exact E]; lia|].
  assert (G0 : p_gor s 0%nat = GNil 0) by (vm_compute in E; injection E as <-; reflexivity).
  assert (G : forall g, p_gor s g = GNil 0 \/ p_gor s g = GNone).
  { intros g. vm_compute in E. injection E as <-. destruct g; [left; reflexivity|right; reflexivity]. }
  assert (J : forall t, p_job s t = JIdle) by (intros t; vm_compute in E; injection E as <-; reflexivity).
  assert (M : p_max s = -1) by (vm_compute in E; injection E as <-; reflexivity).
  split; [|split; [exact M|]].
  - intros l s' H. destruct H; cbn; try (split; [reflexivity|]); try reflexivity; intros.
    all: try (match goal with H : p_job _ ?t = _ |- _ => rewrite J in H; discriminate end).
    all: try (match goal with H : p_gor _ ?g = _ |- _ => destruct (G g) as [G'|G']; rewrite G' in H; discriminate end).
    rewrite tset_ne; [reflexivity|congruence].
  - vm_compute in E. injection E as <-. reflexivity.
Qed.
Print Assumptions pool_drained_workers_refuted.
(** a pool that handles a job, is stopped and drains *)
Definition stop_moves : list move := [MStop 0; MStop 0; MMeet 0; MCol; MStop 0].
Example drain_ex : option_map view (execs 10 (p_init 2 0 (fun _ => 0) 0) (one_job 0 0 ++ stop_moves ++ [MCall 1; MRun 1; MGor 0; MGor 0])) =
  Some (JRet true, JRet false, GDone, GNone, 0, [0%nat]).
Proof. vm_compute. reflexivity. Qed.
Example quiet_ex : exists s, reach (p_init 2 0 (fun _ => 0) 0) (p_step 10) s /\ quiet 10 s /\ p_max s = -1 /\ p_job s 0%nat = JRet true.
Proof.
  destruct (execs 10 (p_init 2 0 (fun _ => 0) 0) (one_job 0 0 ++ stop_moves ++ [MCall 1; MRun 1; MGor 0; MGor 0])) as [s|] eqn:E; [|vm_compute in E; discriminate].
  exists s. split; [eapply execs_reach; [|exact E]; lia|].
  assert (G : forall g, p_gor s g = GDone \/ p_gor s g = GNone).
  { intros g. vm_compute in E. injection E as <-. destruct g; [left; reflexivity|right; reflexivity]. }
  assert (J : forall t, p_job s t = JIdle \/ exists b, p_job s t = JRet b).
  { intros t. vm_compute in E. injection E as <-. destruct t as [|[|t]]; [right; eexists; reflexivity|right; eexists; reflexivity|left; reflexivity]. }
  split; [|vm_compute in E; injection E as <-; split; reflexivity].
  intros l s' H. destruct H; cbn; try (split; [reflexivity|]); try reflexivity; intros.
  all: try (match goal with H : p_job _ ?t = _ |- _ => destruct (J t) as [J'|[b J']]; rewrite J' in H; discriminate end).
  all: try (match goal with H : p_gor _ ?g = _ |- _ => destruct (G g) as [G'|G']; rewrite G' in H; discriminate end).
  rewrite tset_ne; [reflexivity|congruence].
Qed.

(** C61: if the idle list is in order of last activity, a collection takes exactly
    the workers whose last activity is before now - idleTimeout ... *)
Theorem collect_exact_partial tts now : StronglySorted Z.le tts ->
  forall i, (i < length tts)%nat -> (i < collect_count tts now)%nat <-> nth i tts 0 < now.
Proof. exact (collect_sorted tts now). Qed.
Print Assumptions collect_exact_partial.
Theorem collect_in_range tts now : (collect_count tts now <= length tts)%nat.
Proof. exact (collect_le tts now). Qed.
Print Assumptions collect_in_range.
(** ... and whatever the order, a channel that gets closed is empty, belongs to a
    worker in whose handler no goroutine is, and nobody is about to send on it *)
Theorem pool_closes_only_idle maxw n tts clock idle s l s' c : 0 < maxw -> reach (p_init maxw n tts clock) (p_step idle) s ->
  p_step idle s l s' -> p_closed s c = false -> p_closed s' c = true ->
  p_buf s c = None /\ exists w, p_obj s w = Some c /\ (forall g c', busy (p_gor s g) <> Some (w, c')) /\ (forall t, p_job s t <> JSend w).
Proof.
  intros Hm R H C C'. pose proof (pinv_reach idle maxw n tts clock s Hm R) as A.
  destruct (closes_idle idle s l s' c A H C C') as (w & O & Ow). destruct (idle_unused s w c A O Ow) as (B & U1 & U2).
  split; [exact B|]. exists w. split; [exact O|]. split; assumption.
Qed.
Print Assumptions pool_closes_only_idle.
(** The idle list need not be in that order: free reads the clock before it takes the
    lock.  Here worker 1 (last active at 100, the time of the collection) is collected
    with worker 0 (last active at 5) although idleTimeout is 10. *)
Definition misorder_moves : list move := [MCall 0; MRun 0; MRun 0; MCall 1; MRun 1; MRun 1; MGor 0; MGor 0; MGor 1; MGor 1; MGor 0; MGor 1;
  MClock 5; MGor 0; MClock 100; MGor 1; MGor 1; MGor 0].
Theorem collect_exact_refuted : exists s w n, reach (p_init 2 0 (fun _ => 0) 0) (p_step 10) s /\
  p_col s = CWait /\ n = collect_count (map (p_tt s) (p_dobby s)) (p_clock s - 10) /\ w ∈ take n (p_dobby s) /\ ~ p_tt s w < p_clock s - 10.
Proof.
  destruct (execs 10 (p_init 2 0 (fun _ => 0) 0) misorder_moves) as [s|] eqn:E; [|vm_compute in E; discriminate].
  exists s, 1%nat, 2%nat. split; [eapply execs_reach; [|exact E]; lia|]. vm_compute in E. injection E as <-.
  split; [reflexivity|]. split; [vm_compute; reflexivity|]. split; [vm_compute; left|]. vm_compute. discriminate.
Qed.
Print Assumptions collect_exact_refuted.
Example collect_ex : collect_count [1; 3; 5; 7; 9] 6 = 3%nat /\ StronglySorted Z.le [1; 3; 5; 7; 9].
Proof. split; [reflexivity|]. repeat constructor; lia. Qed.

(** C62 *)
Theorem new_timed_pool_checks maxw handler_nil idle gc :
  (new_check maxw handler_nil idle gc = None <-> 0 < maxw /\ handler_nil = false /\ 0 < idle /\ 0 < gc) /\
  (new_check maxw handler_nil idle gc = Some ErrMaxWorkers <-> maxw <= 0) /\
  (new_check maxw handler_nil idle gc = Some ErrHandler <-> 0 < maxw /\ handler_nil = true) /\
  (new_check maxw handler_nil idle gc = Some ErrIdleTimeout <-> 0 < maxw /\ handler_nil = false /\ idle <= 0) /\
  (new_check maxw handler_nil idle gc = Some ErrGCPeriod <-> 0 < maxw /\ handler_nil = false /\ 0 < idle /\ gc <= 0).
Proof.
  unfold new_check. destruct (Z.leb_spec maxw 0), handler_nil, (Z.leb_spec idle 0), (Z.leb_spec gc 0);
    repeat split; intros; try discriminate; try lia; try tauto; try reflexivity; exfalso; intuition (try discriminate; lia).
Qed.
Print Assumptions new_timed_pool_checks.
Example new_check_ex : new_check 4 false 5 0 = Some ErrGCPeriod.
Proof. reflexivity. Qed.

(** C89: it is not true that Run returns false once Stop has returned: the collector
    sets maxWorkers to -1 only after it has received from Stop. *)
Definition late_moves : list move := [MStop 0; MStop 0; MMeet 0; MStop 0; MCall 0; MRun 0; MRun 0].
Theorem run_false_after_stop_refuted : exists s, reach (p_init 1 0 (fun _ => 0) 0) (p_step 10) s /\
  p_st s 0%nat = SDone /\ p_job s 0%nat = JIdle /\ exists tr s', steps (p_step 10) s tr s' /\ p_job s' 0%nat = JRet true.
Proof.
  destruct (execs 10 (p_init 1 0 (fun _ => 0) 0) (take 4 late_moves)) as [s|] eqn:E; [|vm_compute in E; discriminate].
  assert (R : reach (p_init 1 0 (fun _ => 0) 0) (p_step 10) s) by (eapply execs_reach; [|exact E]; lia).
  exists s. split; [exact R|]. split; [vm_compute in E; injection E as <-; reflexivity|]. split; [vm_compute in E; injection E as <-; reflexivity|].
  destruct (execs 10 s (drop 4 late_moves)) as [s'|] eqn:E'; [|vm_compute in E; injection E as <-; vm_compute in E'; discriminate].
  destruct (execs_steps 10 _ s s' (pinv_reach 10 1 0 (fun _ => 0) 0 s ltac:(lia) R) E') as [tr T].
  exists tr, s'. split; [exact T|]. vm_compute in E. injection E as <-. vm_compute in E'. injection E' as <-. reflexivity.
Qed.
Print Assumptions run_false_after_stop_refuted.
(** What holds instead: from the moment the collector has received from Stop, the
    only things it does are to set maxWorkers to -1 and end, and it can. *)
Theorem stop_takes_effect maxw n tts clock idle s : 0 < maxw -> reach (p_init maxw n tts clock) (p_step idle) s -> p_col s = CStop ->
  (exists l s', p_step idle s l s' /\ p_max s' = -1) /\
  (forall l s', p_step idle s l s' -> p_col s' = CStop \/ p_col s' = CDead /\ p_max s' = -1).
Proof.
  intros Hm R C. pose proof (pinv_reach idle maxw n tts clock s Hm R) as A.
  assert (K : closable (p_obj s) (p_closed s) (p_dobby s)) by (apply dobby_closable; [exact A|]; rewrite (a_max s A); congruence).
  split; [eexists _, _; split; [apply ps_stop; assumption|reflexivity]|].
  intros l s' H. destruct H; cbn; try (left; congruence); try congruence. right. auto.
Qed.
Print Assumptions stop_takes_effect.

(** C90: a Stop that follows another returns at once ... *)
Theorem stop_again_returns maxw n tts clock idle s u v s' : 0 < maxw -> reach (p_init maxw n tts clock) (p_step idle) s ->
  p_step idle s (LStopped u) s' -> p_st s' v = SIdle -> forall tr s2, steps (p_step idle) s' tr s2 -> p_st s2 v = SIdle \/ p_st s2 v = SDone.
Proof.
  intros _ _ H V. assert (N : p_stop s' = false) by (inversion H; subst; reflexivity). clear H.
  intros tr s2 R. enough (p_stop s2 = false /\ (p_st s2 v = SIdle \/ p_st s2 v = SDone)) by tauto.
  revert tr s2 R. apply steps_invariant; [auto|]. intros s1 l s2 [I1 I2] H. destruct H; cbn in *; auto; (split; [exact I1 || reflexivity|]); ts; try rewrite I1; auto; intuition congruence.
Qed.
Print Assumptions stop_again_returns.
(** ... but of two that overlap one blocks for ever. *)
Definition two_stops : list move := [MStop 0; MStop 1; MStop 0; MStop 1; MMeet 0; MCol; MStop 0].
Theorem overlapping_stops_refuted : exists s, reach (p_init 1 0 (fun _ => 0) 0) (p_step 10) s /\ p_st s 0%nat = SDone /\
  forall tr s', steps (p_step 10) s tr s' -> p_st s' 1%nat = SSend.
Proof.
  destruct (execs 10 (p_init 1 0 (fun _ => 0) 0) two_stops) as [s|] eqn:E; [|vm_compute in E; discriminate].
  exists s. split; [eapply execs_reach; [|exact E]; lia|]. split; [vm_compute in E; injection E as <-; reflexivity|].
  intros tr s' R. enough (p_col s' = CDead /\ p_st s' 1%nat = SSend) by tauto. revert tr s' R.
  apply steps_invariant; [vm_compute in E; injection E as <-; split; reflexivity|].
  intros s1 l s2 [I1 I2] H. destruct H; cbn in *; try congruence; auto; (split; [exact I1|]); (destruct (decide (1%nat = u)) as [<-|]; [congruence|rewrite tset_ne by assumption; exact I2]).
Qed.
Print Assumptions overlapping_stops_refuted.
