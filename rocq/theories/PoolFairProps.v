(** Liveness of poolx/gopoolx/timedpool.go: what happens in every infinite execution
    in which no goroutine is forgotten ([pool_fair]). *)
From Verif Require Import Base Conc Fair PoolModel PoolProofs PoolProofs2 PoolProofs3 PoolRaceProps PoolFairProofs.
Local Open Scope Z.

(** Whoever calls Stop, and however often Run and Stop are called: *)
Section all.
Context (P : nat -> Prop) (maxw : Z) (n : nat) (tts : nat -> Z) (clock idle : Z) (e : nat -> pstate) (ls : nat -> option plab).
Context (Hm : 0 < maxw) (E : execution (p_step_by P idle) (p_init maxw n tts clock) e ls) (F : pool_fair idle e).
Lemma one_time (lab : plab) (cnt : list plab -> nat) : (forall tr l, cnt (tr ++ [l]) = (cnt tr + if decide (l = lab) then 1 else 0)%nat) ->
  (forall i, (cnt (trace ls i) <= 1)%nat) -> (exists i, cnt (trace ls i) = 1%nat) -> cnt [] = 0%nat ->
  exists j, forall m, ls m = Some lab <-> m = j.
Proof using.
  intros SN LE [i Hi] Z0.
  assert (ST : forall i, cnt (trace ls (S i)) = (cnt (trace ls i) + if decide (ls i = Some lab) then 1 else 0)%nat).
  { intros k. unfold trace. rewrite seq_S, omap_app. cbn [Nat.add omap list_omap]. destruct (ls k) as [l|].
    - rewrite SN. repeat case_decide; congruence || lia.
    - rewrite app_nil_r. rewrite decide_False by discriminate. lia. }
  assert (MO : forall a b, (a <= b)%nat -> (cnt (trace ls a) <= cnt (trace ls b))%nat).
  { intros a b H. induction H as [|b H IH]; [lia|]. rewrite ST. lia. }
  assert (X : exists j, (j < i)%nat /\ ls j = Some lab).
  { clear -Hi ST Z0. induction i as [|i IH]; [cbn in Hi; unfold trace in Hi; cbn in Hi; lia|]. rewrite ST in Hi. case_decide as D; [exists i; split; [lia|exact D]|].
    destruct IH as (j & Hj & J); [lia|]. exists j. split; [lia|exact J]. }
  destruct X as (j & Hj & J). exists j. intros m. split; [|intros ->; exact J]. intros M.
  pose proof (ST j) as Sj. rewrite decide_True in Sj by exact J. pose proof (ST m) as Sm. rewrite decide_True in Sm by exact M.
  destruct (Nat.lt_trichotomy m j) as [H|[H|H]]; [|exact H|].
  - pose proof (MO (S m) j H). pose proof (LE (S j)). lia.
  - pose proof (MO (S j) m H). pose proof (LE (S m)). lia.
Qed.
Lemma by_trace i : steps (p_step idle) (p_init maxw n tts clock) (trace ls i) (e i).
Proof using E.
  pose proof (trace_steps _ _ e ls E i) as H. revert H. generalize (trace ls i) (e i). apply steps_trace_invariant.
  - constructor.
  - intros tr s l s' _ IH [HS _]. econstructor; eassumption.
Qed.
(** every call of Run returns *)
Theorem pool_run_returns i t : p_job (e i) t <> JIdle -> exists j b, (i <= j)%nat /\ p_job (e j) t = JRet b.
Proof using E F Hm. exact (run_leads P maxw n tts clock idle e ls Hm E F i t). Qed.
(** if it returns true, the handler is started on the value exactly once, and comes to
    an end exactly once, later *)
Theorem pool_job_handled i t : p_job (e i) t = JRet true ->
  exists j k, (j < k)%nat /\ (forall m, ls m = Some (LBegin t) <-> m = j) /\ (forall m, ls m = Some (LEnd t) <-> m = k).
Proof using E F Hm.
  intros J. destruct (begin_leads P maxw n tts clock idle e ls Hm E F i t J) as (a & Ha & A).
  destruct (end_leads P maxw n tts clock idle e ls Hm E F a t A) as (b & Hb & B).
  pose proof (started_keeps P maxw n tts clock idle e ls Hm E t a b Hb A) as Sb.
  assert (LE : forall i, (begins t (trace ls i) <= 1)%nat).
  { intros m. rewrite (begins_started idle _ _ _ _ _ _ t (by_trace m)). apply (b_le _ (lbinv P maxw n tts clock idle Hm _ (exec_reach _ _ _ _ E m))). }
  assert (EB : forall i, (ends t (trace ls i) <= begins t (trace ls i))%nat /\ ((forall g w c, p_gor (e i) g <> GHandle w c t) -> ends t (trace ls i) = begins t (trace ls i))).
  { intros m. rewrite (begins_started idle _ _ _ _ _ _ t (by_trace m)). destruct (ends_started idle _ _ _ _ _ _ t Hm (by_trace m)) as [E1 E2].
    split; [|exact E2].
    assert (DEC : (forall g w c, p_gor (e m) g <> GHandle w c t) \/ exists g w c, p_gor (e m) g = GHandle w c t).
    { assert (X : forall q, (forall g w c, (g < q)%nat -> p_gor (e m) g <> GHandle w c t) \/ exists g w c, p_gor (e m) g = GHandle w c t).
      { induction q as [|q [IH|IH]]; [left; intros; lia| |right; exact IH].
        destruct (p_gor (e m) q) as [| | | |w c t'| | | |] eqn:G; try (left; intros g w' c' Hg; destruct (decide (g = q)) as [->|]; [congruence|apply IH; lia]).
        destruct (decide (t' = t)) as [->|N]; [right; eauto|]. left; intros g w' c' Hg; destruct (decide (g = q)) as [->|]; [congruence|apply IH; lia]. }
      destruct (X (p_ng (e m))) as [X1|X1]; [left|right; exact X1]. intros g w c G. apply (X1 g w c); [|exact G].
      apply gor_lt; [exact (lpinv P maxw n tts clock idle Hm _ (exec_reach _ _ _ _ E m))|congruence]. }
    destruct DEC as [D|(g & w & c & D)]; [rewrite E2 by exact D; lia|rewrite (E1 g w c D); lia]. }
  assert (B1 : begins t (trace ls b) = 1%nat) by (rewrite (begins_started idle _ _ _ _ _ _ t (by_trace b)); exact Sb).
  destruct (one_time (LBegin t) (begins t)) as [j Hj]; [intros; apply begins_snoc|exact LE|eauto|reflexivity|].
  destruct (one_time (LEnd t) (ends t)) as [k Hk]; [intros; apply ends_snoc| |exists b; rewrite (proj2 (EB b) B); exact B1|reflexivity|].
  { intros m. pose proof (proj1 (EB m)). pose proof (LE m). lia. }
  exists j, k. split; [|split; assumption].
  (* when it has ended it had begun *)
  destruct (Nat.lt_ge_cases j k) as [L|L]; [exact L|exfalso].
  assert (K1 : (1 <= ends t (trace ls (S k)))%nat).
  { unfold trace. rewrite seq_S, omap_app. cbn [Nat.add omap list_omap]. rewrite (proj2 (Hk k) eq_refl), ends_snoc, decide_True by reflexivity. lia. }
  pose proof (proj1 (EB (S k))) as K2. assert (IN : LBegin t ∈ trace ls (S k)).
  { assert (X : (1 <= begins t (trace ls (S k)))%nat) by lia. unfold begins in X. destruct (filter _ _) as [|x xs] eqn:Fl in X; [cbn in X; lia|].
    assert (Y : x ∈ filter (fun l => l = LBegin t) (trace ls (S k))) by (rewrite Fl; left). apply elem_of_list_filter in Y. destruct Y as [-> Y]. exact Y. }
  apply in_trace in IN. destruct IN as (m & Lm & Em). apply Hj in Em. subst m.
  assert (j = k) by lia. subst j. pose proof (proj2 (Hj k) eq_refl). pose proof (proj2 (Hk k) eq_refl). congruence.
Qed.
(** if it returns false, the handler is never started on it *)
Theorem pool_job_refused i t : p_job (e i) t = JRet false -> forall m, ls m <> Some (LBegin t).
Proof using E Hm.
  intros J m M.
  assert (KEEP : forall j, (i <= j)%nat -> p_job (e j) t = JRet false).
  { intros j Hj. refine (always _ _ e ls E (fun s => p_job s t = JRet false) _ i J j Hj). intros s l s' _ Q [HS _].
    destruct (job_step idle s l s' t HS) as [K|[[_ K]|[[_ K]|[K|(w & c & K & _)]]]]; congruence. }
  assert (IN : LBegin t ∈ trace ls (S (m `max` i))) by (apply in_trace; exists m; split; [lia|exact M]).
  assert (Z0 : begins t (trace ls (S (m `max` i))) = 0%nat).
  { rewrite (begins_started idle _ _ _ _ _ _ t (by_trace _)). apply (b_not _ (lbinv P maxw n tts clock idle Hm _ (exec_reach _ _ _ _ E _))). rewrite KEEP by lia. discriminate. }
  unfold begins in Z0. apply nil_length_inv in Z0. assert (Y : LBegin t ∈ filter (fun l => l = LBegin t) (trace ls (S (m `max` i)))) by (apply elem_of_list_filter; auto).
  rewrite Z0 in Y. inversion Y.
Qed.
End all.
Print Assumptions pool_run_returns.
Print Assumptions pool_job_handled.
Print Assumptions pool_job_refused.

(** If one goroutine only calls Stop, its call returns, and the pool is stopped. *)
Theorem pool_stop_returns_partial u0 maxw n tts clock idle e ls : 0 < maxw ->
  execution (p_step_by (eq u0) idle) (p_init maxw n tts clock) e ls -> pool_fair idle e ->
  forall i, p_st (e i) u0 <> SIdle -> exists j, (i <= j)%nat /\ p_st (e j) u0 = SDone /\ p_max (e j) = -1.
Proof. intros Hm E F. exact (stopped_leads u0 maxw n tts clock idle e ls Hm E F). Qed.
Print Assumptions pool_stop_returns_partial.
(** A stopped pool that was made without preheated workers comes to have no workers:
    every goroutine it started ends. *)
Theorem pool_drains_partial P maxw tts clock idle e ls : 0 < maxw ->
  execution (p_step_by P idle) (p_init maxw 0 tts clock) e ls -> pool_fair idle e ->
  forall i, p_max (e i) = -1 -> exists j, (i <= j)%nat /\ forall k, (j <= k)%nat -> p_workers (e k) = 0 /\ forall g, p_gor (e k) g = GNone \/ p_gor (e k) g = GDone.
Proof.
  intros Hm E F i M. destruct (workers_leads P maxw tts clock idle e ls Hm E F i M) as (j & Hj & W & G). exists j. split; [exact Hj|].
  intros k Hk. assert (Mj : p_max (e j) = -1) by exact (max_keeps P maxw tts clock idle e ls E i j Hj M).
  assert (GK : forall g, live (p_gor (e k) g) = 0) by (intros g; exact (gone_keeps P maxw tts clock idle e ls Hm E g j k Mj Hk (G g))). split.
  - rewrite (cinv_reach idle maxw 0 tts clock _ Hm (by_reach _ _ _ _ _ _ _ (exec_reach _ _ _ _ E k))). apply total_zero. intros g _. apply GK.
  - intros g. specialize (GK g). destruct (p_gor (e k) g); cbn in GK; auto; discriminate.
Qed.
Print Assumptions pool_drains_partial.
(** the life of a pool: whoever calls Run, after the only Stop everything ends *)
Corollary pool_shutdown_partial u0 maxw tts clock idle e ls : 0 < maxw ->
  execution (p_step_by (eq u0) idle) (p_init maxw 0 tts clock) e ls -> pool_fair idle e ->
  forall i, p_st (e i) u0 <> SIdle -> exists j, (i <= j)%nat /\ forall k, (j <= k)%nat -> p_st (e k) u0 = SDone /\ p_workers (e k) = 0.
Proof.
  intros Hm E F i H. destruct (pool_stop_returns_partial u0 maxw 0 tts clock idle e ls Hm E F i H) as (a & Ha & Sa & Ma).
  destruct (pool_drains_partial (eq u0) maxw tts clock idle e ls Hm E F a Ma) as (j & Hj & D). exists j. split; [lia|]. intros k Hk. split; [|apply D; exact Hk].
  refine (always _ _ e ls E (fun s => p_st s u0 = SDone) _ a Sa k ltac:(lia)). intros s l s' _ Q [HS _].
  destruct (st_step u0 idle s l s' HS) as [K|[K|[[K _]|[[K _]|[K _]]]]]; congruence.
Qed.
Print Assumptions pool_shutdown_partial.

(** *** executions that settle *)
(** nothing but calls, and the clock, can happen any more *)
Record settled (s : pstate) : Prop := {
  z_job : forall t, p_job s t = JIdle \/ exists b, p_job s t = JRet b;
  z_gor : forall g, match p_gor s g with GNone | GDone | GNil _ => True | GRecv w c => p_buf s c = None /\ p_closed s c = false | _ => False end;
  z_col : p_col s = CDead;
  z_st : forall u, match p_st s u with SIdle | SDone | SStuck | SSend => True | _ => False end }.
Lemma settled_stuck idle s l s' : settled s -> p_go idle s l s' -> p_job s' = p_job s /\ p_gor s' = p_gor s /\ p_col s' = p_col s /\ p_st s' = p_st s.
Proof.
  intros [J G C T] [H N]. destruct H; cbn in N; try destruct N; cbn; auto; exfalso.
  all: try (match goal with H : p_job _ ?t = _ |- _ => destruct (J t) as [X|[b X]]; congruence end).
  all: try (match goal with H : p_gor _ ?g = _ |- _ => specialize (G g); rewrite H in G; try destruct G; congruence end).
  all: try congruence.
  all: match goal with H : p_st _ ?u = _ |- _ => specialize (T u); rewrite H in T; destruct T end.
Qed.
Lemma settled_pool_fair idle e m s : (forall j, (m <= j)%nat -> e j = s) -> settled s -> pool_fair idle e.
Proof.
  intros D Z. constructor; intros; try apply strong_weak; refine (settled_fair _ _ e m s D _); intros (l & s' & HS & M); destruct (settled_stuck idle s l s' Z HS) as (X1 & X2 & X3 & X4); congruence.
Qed.
Lemma called_stop maxw n tts clock idle tr s u : steps (p_step idle) (p_init maxw n tts clock) tr s -> LStop u ∈ tr -> p_st s u <> SIdle.
Proof.
  intros H0. revert tr s H0. apply (steps_trace_invariant _ _ (fun tr s => LStop u ∈ tr -> p_st s u <> SIdle)); [intros H; inversion H|]. intros tr s l s' _ IH HS. rewrite elem_of_app, elem_of_list_singleton.
  destruct HS; cbn; intros [H'|H']; try (apply IH; exact H'); try discriminate.
  - destruct (tset_cases (p_st s) u0 SNil u) as [[_ ->]|[_ ->]]; [discriminate|auto].
  - destruct (tset_cases (p_st s) u0 (if p_stop s then SAgain else SDone) u) as [[_ ->]|[_ ->]]; [destruct (p_stop s); discriminate|auto].
  - injection H' as <-. rewrite tset_eq. destruct (p_stop s); discriminate.
  - destruct (tset_cases (p_st s) u0 (if p_stop s then SSend else SStuck) u) as [[_ ->]|[_ ->]]; [destruct (p_stop s); discriminate|auto].
  - destruct (tset_cases (p_st s) u0 SDone u) as [[_ ->]|[_ ->]]; [discriminate|auto].
Qed.
Lemma settled_run (Q : nat -> Prop) maxw n tts clock idle ms s : 0 < maxw -> execs idle (p_init maxw n tts clock) ms = Some s -> settled s -> (forall u, p_st s u <> SIdle -> Q u) ->
  exists e ls m, execution (p_step_by Q idle) (p_init maxw n tts clock) e ls /\ pool_fair idle e /\ forall j, (m <= j)%nat -> e j = s.
Proof.
  intros Hm H Z HQ. apply execs_steps in H; [|apply pinv_init; exact Hm]. destruct H as [tr H].
  assert (B : steps (p_step_by Q idle) (p_init maxw n tts clock) tr s).
  { assert (X : forall l, l ∈ tr -> forall u, l = LStop u -> Q u) by (intros l Hl u ->; exact (HQ u (called_stop _ _ _ _ _ _ _ u H Hl))).
    clear -H X. revert H X. generalize tr s. apply (steps_trace_invariant (p_init maxw n tts clock) (p_step idle) (fun tr s => (forall l, l ∈ tr -> forall u, l = LStop u -> Q u) -> steps (p_step_by Q idle) (p_init maxw n tts clock) tr s)).
    - constructor.
    - intros tr0 s0 l s' _ IH HS X. econstructor; [apply IH; intros l' Hl'; apply X; apply elem_of_app; auto|]. split; [exact HS|]. apply X. apply elem_of_app. right. left. }
  destruct (settled_execution _ _ _ _ B) as (e & ls & E & D & _). exists e, ls, (length tr). split; [exact E|]. split; [exact (settled_pool_fair idle e _ s D Z)|exact D].
Qed.
(** a job is run, then the pool is stopped: all the hypotheses are met *)
Definition life : list move :=
  [MCall 0%nat; MRun 0%nat; MRun 0%nat; MGor 0%nat; MGor 0%nat; MGor 0%nat; MGor 0%nat; MGor 0%nat; MStop 0%nat; MStop 0%nat; MMeet 0%nat; MStop 0%nat; MCol; MGor 0%nat; MGor 0%nat].
Example pool_fair_case : exists e ls i,
  execution (p_step_by (eq 0%nat) 10) (p_init 1 0 (fun _ => 0) 0) e ls /\ pool_fair 10 e /\ p_job (e i) 0%nat = JRet true /\ p_st (e i) 0%nat <> SIdle /\ p_workers (e i) = 0.
Proof.
  destruct (execs 10 (p_init 1 0 (fun _ => 0) 0) life) as [s|] eqn:H; [|vm_compute in H; discriminate].
  destruct (settled_run (eq 0%nat) 1 0 (fun _ => 0) 0 10 life s ltac:(lia) H) as (e & ls & m & E & F & D).
  - vm_compute in H. injection H as <-. constructor; cbn.
    + intros [|t]; vm_compute; eauto.
    + intros [|g]; vm_compute; auto.
    + reflexivity.
    + intros [|u]; vm_compute; auto.
  - vm_compute in H. injection H as <-. intros [|u]; vm_compute; [reflexivity|congruence].
  - exists e, ls, m. rewrite (D m) by lia. split; [exact E|]. split; [exact F|]. vm_compute in H. injection H as <-. vm_compute. repeat split; discriminate.
Qed.
(** two goroutines that call Stop: one call may never return *)
Theorem pool_stop_returns_refuted : exists e ls i u, execution (p_step_by (fun _ => True) 10) (p_init 1 0 (fun _ => 0) 0) e ls /\ pool_fair 10 e /\
  p_st (e i) u <> SIdle /\ forall j, (i <= j)%nat -> p_st (e j) u <> SDone.
Proof.
  destruct (execs 10 (p_init 1 0 (fun _ => 0) 0) [MStop 0%nat; MStop 1%nat; MStop 0%nat; MStop 1%nat; MMeet 0%nat; MStop 0%nat; MCol]) as [s|] eqn:H; [|vm_compute in H; discriminate].
  destruct (settled_run (fun _ => True) 1 0 (fun _ => 0) 0 10 _ s ltac:(lia) H) as (e & ls & m & E & F & D).
  - vm_compute in H. injection H as <-. constructor; cbn.
    + intros t; vm_compute; eauto.
    + intros g; vm_compute; auto.
    + reflexivity.
    + intros [|[|u]]; vm_compute; auto.
  - auto.
  - exists e, ls, m, 1%nat. split; [exact E|]. split; [exact F|]. split; [|intros j Hj]; rewrite D by lia; vm_compute in H; injection H as <-; vm_compute; discriminate.
Qed.
Print Assumptions pool_stop_returns_refuted.
(** a preheated worker may never end, although the pool was stopped *)
Theorem pool_drains_refuted : exists e ls i, execution (p_step_by (eq 0%nat) 10) (p_init 1 1 (fun _ => 0) 100) e ls /\ pool_fair 10 e /\
  forall j, (i <= j)%nat -> p_max (e j) = -1 /\ p_st (e j) 0%nat = SDone /\ p_workers (e j) = 1.
Proof.
  destruct (execs 10 (p_init 1 1 (fun _ => 0) 100) [MTick; MCol; MCol; MCol; MCol; MGor 0%nat; MStop 0%nat; MStop 0%nat; MMeet 0%nat; MStop 0%nat; MCol]) as [s|] eqn:H; [|vm_compute in H; discriminate].
  destruct (settled_run (eq 0%nat) 1 1 (fun _ => 0) 100 10 _ s ltac:(lia) H) as (e & ls & m & E & F & D).
  - vm_compute in H. injection H as <-. constructor; cbn.
    + intros t; vm_compute; eauto.
    + intros [|g]; vm_compute; auto.
    + reflexivity.
    + intros [|u]; vm_compute; auto.
  - vm_compute in H. injection H as <-. intros [|u]; vm_compute; [reflexivity|congruence].
  - exists e, ls, m. split; [exact E|]. split; [exact F|]. intros j Hj. rewrite D by lia. vm_compute in H. injection H as <-. vm_compute. auto.
Qed.
Print Assumptions pool_drains_refuted.
