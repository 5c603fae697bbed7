(** Timed pool (poolx/gopoolx/timedpool.go 32-43, 45-129, 131-180): a pool that is not used gives all
    its goroutines back.  When no call of Run is made any more, and time goes on, every
    worker is collected and its goroutine ends, although nobody calls Stop, and although
    the list of idle workers need not be in the order of their times. *)
From Verif Require Import Base Conc Fair PoolModel PoolProofs PoolProofs2 PoolProofs3 PoolRaceProps PoolFairProofs PoolFairProps PoolIdleProofs.
Local Open Scope Z.

Lemma shift_fair idle e i : pool_fair idle e -> pool_fair idle (fun k => e (i + k)%nat).
Proof.
  intros F. constructor; intros.
  - intros j. destruct (f_job _ _ F t (i + j)%nat) as (k & Hk & D). exists (k - i)%nat. split; [lia|].
    replace (i + (1 + (k - i)))%nat with (1 + k)%nat by lia. replace (i + (k - i))%nat with k by lia. exact D.
  - intros j. destruct (f_gor _ _ F g (i + j)%nat) as (k & Hk & D). exists (k - i)%nat. split; [lia|].
    replace (i + (1 + (k - i)))%nat with (1 + k)%nat by lia. replace (i + (k - i))%nat with k by lia. exact D.
  - intros j. destruct (f_col _ _ F (i + j)%nat) as (k & Hk & D). exists (k - i)%nat. split; [lia|].
    replace (i + (1 + (k - i)))%nat with (1 + k)%nat by lia. replace (i + (k - i))%nat with k by lia. exact D.
  - intros j. destruct (f_st _ _ F u (i + j)%nat) as (k & Hk & D). exists (k - i)%nat. split; [lia|].
    replace (i + (1 + (k - i)))%nat with (1 + k)%nat by lia. replace (i + (k - i))%nat with k by lia.
    destruct D as [D|D]; [left|right; exact D]. intros m Hm. apply D. lia.
Qed.
Lemma called_few idle maxw n tts clock s : reach (p_init maxw n tts clock) (p_step idle) s -> exists T, forall t, (T <= t)%nat -> p_job s t = JIdle.
Proof.
  revert s. apply reach_invariant; [exists 0%nat; reflexivity|]. intros s l s' [T IH] H.
  assert (X : forall t0 p, exists T', forall t, (T' <= t)%nat -> tset (p_job s) t0 p t = JIdle).
  { intros t0 p. exists (T `max` S t0)%nat. intros t Ht. rewrite tset_ne by lia. apply IH. lia. }
  destruct H; unfold new_worker; cbn; eauto.
Qed.
Lemma unstopped idle maxw n tts clock s : 0 < maxw -> reach (p_init maxw n tts clock) (p_step_by (fun _ => False) idle) s -> (forall u, p_st s u = SIdle) /\ col_alive (p_col s).
Proof.
  intros Hm R. assert (X : pinv s /\ (forall u, p_st s u = SIdle) /\ col_alive (p_col s)); [|tauto]. revert s R. apply reach_invariant; [split; [apply pinv_init; exact Hm|split; [reflexivity|exact Logic.I]]|].
  intros s l s' (A & T & C) [H HP]. pose proof (pinv_step idle s l s' A H) as A'. split; [exact A'|].
  destruct H; unfold new_worker; cbn; try (split; [exact T|exact C]); try (split; [exact T|exact Logic.I]); try (match goal with H : p_st _ ?u = _ |- _ => rewrite (T u) in H; discriminate end).
  all: try (exfalso; match goal with H : p_max ?s0 = -1 |- _ => apply (a_max s0 A) in H; rewrite H in C; exact C end).
  all: try (exfalso; match goal with H : p_col _ = CStop |- _ => rewrite H in C; exact C end).
  all: try (destruct (a_cpanic _ A' eq_refl)).
  all: destruct (HP _ eq_refl).
Qed.

Theorem pool_idle_shrinks_partial maxw tts clock idle e ls : 0 < maxw ->
  execution (p_step_by (fun _ => False) idle) (p_init maxw 0 tts clock) e ls -> pool_fair idle e -> (forall x, exists i, x <= p_clock (e i)) ->
  forall i, (forall j t, (i <= j)%nat -> ls j <> Some (LCall t)) ->
  exists j, (i <= j)%nat /\ forall k, (j <= k)%nat -> p_workers (e k) = 0 /\ p_dobby (e k) = [] /\ forall g, p_gor (e k) g = GNone \/ p_gor (e k) g = GDone.
Proof.
  intros Hm E F CL i NC.
  assert (R : forall j, reach (p_init maxw 0 tts clock) (p_step idle) (e j)) by (intros j; eapply by_reach; exact (exec_reach _ _ _ _ E j)).
  assert (SH : forall i', (i <= i')%nat -> execution (p_go idle) (e i') (fun k => e (i' + k)%nat) (fun k => ls (i' + k)%nat)).
  { intros i' Hi. split; [f_equal; lia|]. intros k. destruct E as [_ ES]. specialize (ES (i' + k)%nat). replace (i' + (1 + k))%nat with (1 + (i' + k))%nat by lia.
    destruct (ls (i' + k)%nat) as [l|] eqn:L; [|exact ES]. destruct ES as [HS HP]. split; [exact HS|].
    destruct l; try exact Logic.I; [eapply (NC (i' + k)%nat); [lia|exact L]|exact (HP _ eq_refl)]. }
  (* the calls of Run return *)
  assert (KQ : forall t j k, (j <= k)%nat -> (p_job (e (i + j)%nat) t = JIdle \/ exists b, p_job (e (i + j)%nat) t = JRet b) -> p_job (e (i + k)%nat) t = JIdle \/ exists b, p_job (e (i + k)%nat) t = JRet b).
  { intros t j k Hjk Q. refine (always _ _ _ _ (SH i ltac:(lia)) (fun s => p_job s t = JIdle \/ exists b, p_job s t = JRet b) _ j Q k Hjk).
    intros s l s' _ Qs [HS N]. destruct (job_step idle s l s' t HS) as [K|[[_ K]|[[_ K]|[K|(w & c & K & _)]]]]; try (destruct Qs as [Qs|[b Qs]]; congruence); [rewrite K; exact Qs|].
    left. destruct HS; try (destruct N; fail); unfold new_worker; cbn; try exact K; rewrite tset_ne; try exact K; congruence. }
  destruct (called_few _ _ _ _ _ _ (R i)) as [T HT].
  destruct (eventually_all (fun k => e (i + k)%nat) (fun t s => p_job s t = JIdle \/ exists b, p_job s t = JRet b) T 0) as (j1 & _ & Q1).
  { intros t _ j _. assert (Id : p_job (e (i + j)%nat) t = JIdle \/ p_job (e (i + j)%nat) t <> JIdle) by (destruct (p_job (e (i + j)%nat) t); [left; reflexivity|right; discriminate..]). destruct Id as [Id|Id].
    - exists j. split; [lia|left; exact Id].
    - destruct (run_leads (fun _ => False) maxw 0 tts clock idle e ls Hm E F (i + j)%nat t Id) as (k & b & Hk & K). exists (k - i)%nat. split; [lia|right]. exists b. replace (i + (k - i))%nat with k by lia. exact K. }
  { intros t j k _ Hjk Q. exact (KQ t j k Hjk Q). }
  set (i1 := (i + j1)%nat) in *. assert (Hi1 : (i <= i1)%nat) by (unfold i1; lia).
  assert (CALM : calm (e i1)).
  { destruct (unstopped idle maxw 0 tts clock (e i1) Hm (exec_reach _ _ _ _ E i1)) as [ST C]. constructor; [exact (pinv_reach idle maxw 0 tts clock _ Hm (R i1))|exact (einv_reach idle maxw tts clock _ Hm (R i1))|exact ST|exact C|].
    intros t. destruct (decide (t < T)%nat) as [L|L]; [exact (Q1 t L)|]. apply (KQ t 0%nat j1 ltac:(lia)). left. rewrite Nat.add_0_r. apply HT. lia. }
  destruct (shrinks idle (e i1) (fun k => e (i1 + k)%nat) (fun k => ls (i1 + k)%nat) CALM (SH i1 Hi1) (shift_fair idle e i1 F)) as (j & D).
  { intros x. destruct (CL x) as [m Hx]. exists m. cbn. enough (p_clock (e m) <= p_clock (e (i1 + m)%nat)) by lia.
    refine (always _ _ _ _ E (fun s => p_clock (e m) <= p_clock s) _ m (Z.le_refl _) (i1 + m)%nat ltac:(lia)). intros s l s' _ C [HS _]. destruct HS; cbn in *; lia. }
  exists (i1 + j)%nat. split; [lia|]. intros k Hk. destruct (D (k - i1)%nat ltac:(lia)) as [D1 D2]. replace (i1 + (k - i1))%nat with k in * by lia.
  split; [|split; [exact D1|]].
  - rewrite (cinv_reach idle maxw 0 tts clock _ Hm (R k)). apply total_zero. intros g _. exact (D2 g).
  - intros g. specialize (D2 g). unfold ended in D2. destruct (p_gor (e k) g); cbn in D2; auto; discriminate.
Qed.
Print Assumptions pool_idle_shrinks_partial.

(** Whatever their order, a tick takes all the idle workers if all of them have been idle
    for too long, and none if none has. *)
Theorem pool_collect_all_or_none tts now :
  ((forall x, x ∈ tts -> x < now) -> collect_count tts now = length tts) /\ ((forall x, x ∈ tts -> now <= x) -> collect_count tts now = 0%nat).
Proof.
  split; [exact (collect_all tts now)|]. intros H. unfold collect_count.
  destruct (bsearch_spec now tts (length tts) 0 (length tts)) as (K1 & K2 & _); try lia. set (k := bsearch _ _ _ _ _) in *.
  destruct k as [|k]; [reflexivity|exfalso]. specialize (K2 k ltac:(lia) eq_refl).
  assert (X : nth k tts 0 ∈ tts) by (apply elem_of_list_In, nth_In; lia). specialize (H _ X). lia.
Qed.
Print Assumptions pool_collect_all_or_none.
Example pool_collect_case : collect_count [30; 10; 20] 40 = 3%nat /\ collect_count [30; 10; 20] 5 = 0%nat /\ collect_count [30; 10; 20] 15 = 2%nat.
Proof. vm_compute. auto. Qed.

(** *** a pool that does nothing but tick *)
Record dormant (s : pstate) : Prop := {
  d_job : forall t, p_job s t = JIdle \/ exists b, p_job s t = JRet b;
  d_gor : forall g, match p_gor s g with GNone | GDone | GNil _ => True | _ => False end;
  d_col : p_col s = CWait;
  d_dobby : p_dobby s = [];
  d_max : p_max s <> -1;
  d_st : forall u, p_st s u = SIdle }.
Definition at_time (s : pstate) (x : Z) (c : cpc) : pstate := set_clock x (set_col c s).
Definition phase (s : pstate) (i : nat) : pstate := at_time s (p_clock s + Z.of_nat (i / 3)) (if decide (i mod 3 = 1)%nat then CDrain [] else CWait).
Lemma own_nil o s : own_all [] o (p_own s) = p_own s.
Proof. reflexivity. Qed.
Lemma phase_step idle s i : dormant s -> p_step idle (phase s i) LPTau (phase s (1 + i)).
Proof.
  intros [J G C D M T]. unfold phase.
  assert (DM : (i = 3 * (i / 3) + i mod 3 /\ i mod 3 < 3)%nat) by (split; [apply Nat.div_mod; lia|apply Nat.mod_upper_bound; lia]).
  destruct DM as [DM LT]. set (q := (i / 3)%nat) in *. set (r := (i mod 3)%nat) in *. rewrite DM.
  assert (r = 0 \/ r = 1 \/ r = 2)%nat as [R|[R|R]] by lia; rewrite R.
  - replace (1 + (3 * q + 0))%nat with (1 + q * 3)%nat by lia. rewrite Nat.div_add, Nat.mod_add by lia. cbn [decide].
    replace (1 / 3 + q)%nat with q by reflexivity. replace (1 mod 3)%nat with 1%nat by reflexivity.
    rewrite decide_False by lia. rewrite decide_True by lia.
    pose proof (ps_tick idle (at_time s (p_clock s + Z.of_nat q) CWait) 0 eq_refl M) as H. cbn in H. rewrite D in H. specialize (H eq_refl).
    unfold at_time in *. destruct s; cbn in *. subst. exact H.
  - replace (1 + (3 * q + 1))%nat with (2 + q * 3)%nat by lia. rewrite Nat.div_add, Nat.mod_add by lia.
    replace (2 / 3 + q)%nat with q by reflexivity. replace (2 mod 3)%nat with 2%nat by reflexivity.
    rewrite decide_True by lia. rewrite decide_False by lia.
    pose proof (ps_drained idle (at_time s (p_clock s + Z.of_nat q) (CDrain [])) eq_refl) as H. unfold at_time in *. destruct s; cbn in *. exact H.
  - replace (1 + (3 * q + 2))%nat with (0 + (1 + q) * 3)%nat by lia. rewrite Nat.div_add, Nat.mod_add by lia.
    replace (0 / 3 + (1 + q))%nat with (1 + q)%nat by reflexivity. replace (0 mod 3)%nat with 0%nat by reflexivity.
    rewrite !decide_False by lia.
    pose proof (ps_clock idle (at_time s (p_clock s + Z.of_nat q) CWait) (p_clock s + Z.of_nat (1 + q))) as H. cbn [p_clock at_time set_clock set_col] in H.
    specialize (H ltac:(lia)). unfold at_time in *. destruct s; cbn in *. exact H.
Qed.
Lemma dormant_run (Q : nat -> Prop) maxw n tts clock idle ms s : 0 < maxw -> execs idle (p_init maxw n tts clock) ms = Some s -> dormant s ->
  exists e ls m, execution (p_step_by Q idle) (p_init maxw n tts clock) e ls /\ pool_fair idle e /\ (forall x, exists i, x <= p_clock (e i)) /\
    (forall j, e (m + j)%nat = phase s j) /\ forall j t, (m <= j)%nat -> ls j <> Some (LCall t).
Proof.
  intros Hm H Z. apply execs_steps in H; [|apply pinv_init; exact Hm]. destruct H as [tr H].
  assert (B : steps (p_step_by Q idle) (p_init maxw n tts clock) tr s).
  { assert (X : forall l, l ∈ tr -> forall u, l <> LStop u) by (intros l Hl u ->; apply (called_stop _ _ _ _ _ _ _ u H Hl); apply Z).
    clear -H X. revert H X. generalize tr s. apply (steps_trace_invariant (p_init maxw n tts clock) (p_step idle) (fun tr s => (forall l, l ∈ tr -> forall u, l <> LStop u) -> steps (p_step_by Q idle) (p_init maxw n tts clock) tr s)).
    - constructor.
    - intros tr0 s0 l s' _ IH HS X. econstructor; [apply IH; intros l' Hl'; apply X; apply elem_of_app; auto|]. split; [exact HS|]. intros u ->. destruct (X (LStop u) ltac:(apply elem_of_app; right; left) u eq_refl). }
  assert (P0 : phase s 0 = s).
  { destruct Z as [J G C D M T]. unfold phase, at_time. destruct s; cbn in *. subst. rewrite Z.add_0_r. reflexivity. }
  destruct (then_execution (p_step_by Q idle) _ tr s (phase s) (fun _ => LPTau) B P0) as (e & ls & E & De & Dl & _).
  { intros i. split; [apply phase_step; exact Z|]. intros u X. discriminate. }
  exists e, ls, (length tr). split; [exact E|]. split; [|split; [|split; [exact De|]]].
  - assert (AT : forall k, (length tr <= k)%nat -> exists x c, e k = at_time s x c /\ (c = CWait \/ c = CDrain [])).
    { intros k Hk. replace k with (length tr + (k - length tr))%nat by lia. rewrite De. unfold phase. eexists _, _. split; [reflexivity|]. case_decide; auto. }
    assert (NM : forall k l s', (length tr <= k)%nat -> p_go idle (e k) l s' -> p_job s' = p_job (e k) /\ p_gor s' = p_gor (e k) /\ p_st s' = p_st (e k)).
    { intros k l s' Hk [HS N]. destruct (AT k Hk) as (x & c & Ek & Hc). destruct Z as [J G C D M T].
      assert (J' : forall t, p_job (e k) t = JIdle \/ exists b, p_job (e k) t = JRet b) by (rewrite Ek; exact J).
      assert (G' : forall g, match p_gor (e k) g with GNone | GDone | GNil _ => True | _ => False end) by (rewrite Ek; exact G).
      assert (T' : forall u, p_st (e k) u = SIdle) by (rewrite Ek; exact T). clear AT Hk Ek E De. revert HS J' G' T'. generalize (e k). intros st HS J' G' T'.
      destruct HS; cbn in *; try (destruct N; fail); auto; exfalso.
      all: try (match goal with H : p_job _ ?t = _ |- _ => destruct (J' t) as [X|[b X]]; congruence end).
      all: try (match goal with H : p_gor _ ?g = _ |- _ => specialize (G' g); rewrite H in G'; destruct G' end).
      all: try (match goal with H : p_st _ ?u = _ |- _ => rewrite (T' u) in H; discriminate end). }
    assert (ST : forall P0 (v : pstate -> P0), (forall k l s', (length tr <= k)%nat -> p_go idle (e k) l s' -> v s' = v (e k)) -> strongly_fair (p_go idle) v e).
    { intros P1 v Hv j. exists (j `max` length tr)%nat. split; [lia|left]. intros k Hk (l & s' & HS & X). apply X. apply (Hv k l s'); [lia|exact HS]. }
    constructor; intros; try apply strong_weak; try (apply ST; intros k l s' Hk HS; destruct (NM k l s' Hk HS) as (X1 & X2 & X3); congruence).
    intros j. exists (length tr + 3 * j)%nat. split; [lia|right]. replace (1 + (length tr + 3 * j))%nat with (length tr + (1 + 3 * j))%nat by lia. rewrite !De. unfold phase, at_time. cbn [p_col set_clock set_col].
    replace (1 + 3 * j)%nat with (1 + j * 3)%nat by lia. replace (3 * j)%nat with (0 + j * 3)%nat by lia. rewrite !Nat.mod_add by lia. discriminate.
  - intros x. exists (length tr + 3 * Z.to_nat (x - p_clock s))%nat. rewrite De. unfold phase, at_time. cbn [p_clock set_clock set_col].
    replace (3 * Z.to_nat (x - p_clock s))%nat with (0 + Z.to_nat (x - p_clock s) * 3)%nat by lia. rewrite Nat.div_add by lia. cbn [Nat.add]. replace (0 / 3)%nat with 0%nat by reflexivity. lia.
  - intros j t Hj. replace j with (length tr + (j - length tr))%nat by lia. rewrite Dl. discriminate.
Qed.
(** a job is handled, its worker is collected at a tick after the time-out, and the pool
    ticks on: all the hypotheses are met *)
Definition unused : list move :=
  [MCall 0%nat; MRun 0%nat; MRun 0%nat; MGor 0%nat; MGor 0%nat; MGor 0%nat; MGor 0%nat; MGor 0%nat; MClock 100; MTick; MCol; MCol; MCol; MCol; MGor 0%nat; MGor 0%nat].
Example pool_idle_case : exists e ls i,
  execution (p_step_by (fun _ => False) 10) (p_init 2 0 (fun _ => 0) 0) e ls /\ pool_fair 10 e /\ (forall x, exists j, x <= p_clock (e j)) /\
  (forall j t, (i <= j)%nat -> ls j <> Some (LCall t)) /\ p_job (e i) 0%nat = JRet true /\ p_gor (e i) 0%nat = GDone.
Proof.
  destruct (execs 10 (p_init 2 0 (fun _ => 0) 0) unused) as [s|] eqn:H; [|vm_compute in H; discriminate].
  destruct (dormant_run (fun _ => False) 2 0 (fun _ => 0) 0 10 unused s ltac:(lia) H) as (e & ls & m & E & F & C & D & N).
  - vm_compute in H. injection H as <-. constructor.
    + intros [|t]; vm_compute; eauto.
    + intros [|g]; vm_compute; auto.
    + reflexivity.
    + reflexivity.
    + vm_compute. discriminate.
    + intros u. reflexivity.
  - exists e, ls, m. split; [exact E|]. split; [exact F|]. split; [exact C|]. split; [exact N|].
    specialize (D 0%nat). rewrite Nat.add_0_r in D. rewrite D. vm_compute in H. injection H as <-. vm_compute. auto.
Qed.
(** With preheated workers it is not so: a worker that is collected before its goroutine
    has begun is never heard of again, and counts against maxWorkers for ever. *)
Theorem pool_idle_shrinks_refuted : exists e ls i, execution (p_step_by (fun _ => False) 10) (p_init 1 1 (fun _ => 0) 100) e ls /\ pool_fair 10 e /\
  (forall x, exists j, x <= p_clock (e j)) /\ (forall j t, (i <= j)%nat -> ls j <> Some (LCall t)) /\
  forall j, (i <= j)%nat -> p_workers (e j) = 1.
Proof.
  destruct (execs 10 (p_init 1 1 (fun _ => 0) 100) [MTick; MCol; MCol; MCol; MCol; MGor 0%nat]) as [s|] eqn:H; [|vm_compute in H; discriminate].
  destruct (dormant_run (fun _ => False) 1 1 (fun _ => 0) 100 10 _ s ltac:(lia) H) as (e & ls & m & E & F & C & D & N).
  - vm_compute in H. injection H as <-. constructor.
    + intros t. left. reflexivity.
    + intros [|g]; vm_compute; auto.
    + reflexivity.
    + reflexivity.
    + vm_compute. discriminate.
    + intros u. reflexivity.
  - exists e, ls, m. split; [exact E|]. split; [exact F|]. split; [exact C|]. split; [exact N|].
    intros j Hj. replace j with (m + (j - m))%nat by lia. rewrite D. vm_compute in H. injection H as <-. reflexivity.
Qed.
Print Assumptions pool_idle_shrinks_refuted.
