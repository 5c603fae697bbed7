From Verif Require Import Base Conc PoolModel PoolProofs PoolProofs2 PoolProofs3 PoolProps PoolMuModel PoolMuProofs PoolMuProofs2.
Local Open Scope Z.

(** *** C167: the mutex of a TimedPool does what PoolModel takes for granted
    PoolModel makes every critical section one step.  Here the sections are made of their single
    accesses, and everyone else may move in between. *)

(** two states of the pool that differ in nothing but the bookkeeping of PoolModel *)
Record same (s a : pstate) : Prop := {
  same_max : p_max a = p_max s;
  same_stop : p_stop a = p_stop s;
  same_workers : p_workers a = p_workers s;
  same_dobby : p_dobby a = p_dobby s;
  same_pool : p_pool a = p_pool s;
  same_obj : forall w, p_obj a w = p_obj s w;
  same_tt : forall w, p_tt a w = p_tt s w;
  same_nobj : p_nobj a = p_nobj s;
  same_nch : p_nch a = p_nch s;
  same_ng : p_ng a = p_ng s;
  same_buf : forall c, p_buf a c = p_buf s c;
  same_closed : forall c, p_closed a c = p_closed s c;
  same_gor : forall g, p_gor a g = p_gor s g;
  same_job : forall t, p_job a t = p_job s t;
  same_st : forall u, p_st a u = p_st s u;
  same_col : p_col a = p_col s;
  same_clock : p_clock a = p_clock s;
  same_started : forall t, p_started a t = p_started s t }.
Lemma same_rel s a : RelP PNone s a -> same s a.
Proof.
  intros R. destruct (e_prn _ _ _ R) as [P1 P2].
  constructor; try apply R; try assumption; [rewrite (e_workers _ _ _ R); cbn; lia|rewrite (e_ng _ _ _ R); cbn; lia|].
  intros c. rewrite (e_closed _ _ _ R). apply close_all_nil.
Qed.
(** who is between Lock and Unlock *)
Definition inside (f : fstate) (h : holder) : Prop :=
  match h with
  | HRun t => f_run f t <> ROut
  | HGor g => f_gor f g <> GOut
  | HCol => f_col f <> COut /\ f_col f <> CTick
  | HWork u => f_wk f u <> WOut /\ f_wk f u <> WLock
  end.

Lemma rel_reach maxw n t0 clock idle tr f : 0 < maxw -> steps (f_step idle) (f_init maxw n t0 clock) tr f ->
  exists tr' a, steps (p_step idle) (p_init maxw n t0 clock) tr' a /\ seen_all tr' = fseen_all tr /\ Rel f a /\ pinv a.
Proof.
  intros Hm H. destruct (sim_trace idle _ _ _ _ (rel_init maxw n t0 clock) (pinv_init maxw n t0 clock Hm) H) as (tr' & a & S & E & R).
  exists tr', a. split; [exact S|]. split; [exact E|]. split; [exact R|]. eapply steps_pinv; [apply pinv_init, Hm|exact S].
Qed.

(** exactly the holder of the mutex is inside, and so nobody else *)
Theorem pool_mu_exclusive maxw n t0 clock idle f h : 0 < maxw -> reach (f_init maxw n t0 clock) (f_step idle) f ->
  inside f h <-> f_mu f = Some h.
Proof.
  intros Hm [tr H]. destruct (rel_reach _ _ _ _ _ _ _ Hm H) as (tr' & a & _ & _ & [X R] & _). split.
  - destruct h as [t|g| |u]; cbn.
    + destruct (x_run _ X t); tauto.
    + destruct (x_gor _ X g); tauto.
    + destruct (x_col _ X); tauto.
    + destruct (x_wk _ X u); tauto.
  - intros M. pose proof (e_facts _ _ _ R) as F. unfold fpos in F. rewrite M in F. destruct h as [t|g| |u]; cbn in *.
    + intros E. rewrite E in F. tauto.
    + intros E. rewrite E in F. tauto.
    + split; intros E; rewrite E in F; tauto.
    + split; intros E; rewrite E in F; tauto.
Qed.

(** whatever the step by step pool does, PoolModel does too, and when the mutex is free the states agree *)
Theorem pool_mu_refines maxw n t0 clock idle tr f : 0 < maxw -> steps (f_step idle) (f_init maxw n t0 clock) tr f ->
  exists tr' a, steps (p_step idle) (p_init maxw n t0 clock) tr' a /\ seen_all tr' = fseen_all tr /\ (f_mu f = None -> same (f_s f) a).
Proof.
  intros Hm H. destruct (rel_reach _ _ _ _ _ _ _ Hm H) as (tr' & a & S & E & [X R] & _). exists tr', a. split; [exact S|]. split; [exact E|].
  intros M. unfold fpos in R. rewrite M in R. apply same_rel, R.
Qed.
(** and whatever PoolModel does the step by step pool can do *)
Theorem pool_mu_realised maxw n t0 clock idle tr a : 0 < maxw -> steps (p_step idle) (p_init maxw n t0 clock) tr a ->
  exists tr' f, steps (f_step idle) (f_init maxw n t0 clock) tr' f /\ fseen_all tr' = seen_all tr /\ f_mu f = None /\ same (f_s f) a.
Proof.
  intros Hm H. assert (idle_rel (f_init maxw n t0 clock) (p_init maxw n t0 clock)) as R.
  { constructor; try reflexivity. apply (rel_init maxw n t0 clock). }
  destruct (real_trace idle _ _ _ _ R (pinv_init maxw n t0 clock Hm) H) as (tr' & f & S & E & F). exists tr', f.
  split; [exact S|]. split; [exact E|]. split; [apply F|]. apply same_rel, F.
Qed.

(** whoever holds the mutex can always go on, and lets it go after finitely many steps of its own *)
Theorem pool_mu_released maxw n t0 clock idle : 0 < maxw -> exists left_to_go : fstate -> nat, forall f h,
  reach (f_init maxw n t0 clock) (f_step idle) f -> f_mu f = Some h ->
  (exists l f', f_step idle f l f' /\ (f_mu f' = None \/ f_mu f' = Some h /\ (left_to_go f' < left_to_go f)%nat)) /\
  forall l f', f_step idle f l f' ->
    (f_mu f' = Some h /\ fpos f' = fpos f /\ left_to_go f' = left_to_go f) \/
    (f_mu f' = Some h /\ (left_to_go f' < left_to_go f)%nat) \/ f_mu f' = None.
Proof.
  intros Hm. exists hm. intros f h [tr H] M. destruct (rel_reach _ _ _ _ _ _ _ Hm H) as (tr' & a & _ & _ & R & A). split.
  - destruct (holder_moves idle f a h R A M) as (l & f' & S & D). exists l, f'. split; [exact S|]. tauto.
  - intros l f' S. exact (holder_step idle f a l f' h R A S M).
Qed.

Lemma col_place maxw n t0 clock idle tr f : 0 < maxw -> steps (f_step idle) (f_init maxw n t0 clock) tr f ->
  f_mu f = Some HCol -> p_col (f_s f) = CWait \/ p_col (f_s f) = CStop.
Proof.
  intros Hm. revert tr f. apply (steps_trace_invariant (f_init maxw n t0 clock) (f_step idle) (fun _ f => f_mu f = Some HCol -> p_col (f_s f) = CWait \/ p_col (f_s f) = CStop)); [discriminate|].
  intros tr f l f' H IH S. destruct (rel_reach _ _ _ _ _ _ _ Hm H) as (tr' & a & _ & _ & [X R] & A).
  destruct S; cbn in *; intros M; try discriminate; try (apply IH; assumption).
  - rewrite (o_step_col _ _ _ H0). apply IH, M.
  - exfalso. subst mu. exact (e_facts _ _ _ R).
  - destruct (r_step_pos _ _ _ _ _ H0) as (_ & _ & ->). apply IH, M.
  - destruct (g_step_pos _ _ _ _ _ H0) as (_ & _ & ->). apply IH, M.
  - left. apply (x_tick _ X). reflexivity.
  - right. assumption.
  - destruct H0; cbn; try (apply IH, M). exfalso. subst mu. destruct (e_facts _ _ _ R) as (_ & F). destruct (closable_cons _ _ _ _ F) as (c' & E1 & E2 & E3). rewrite (H0 c' E1) in E2. discriminate.
Qed.
(** nothing panics, inside the critical sections or outside *)
Theorem pool_mu_no_panic maxw n t0 clock idle f : 0 < maxw -> reach (f_init maxw n t0 clock) (f_step idle) f ->
  p_col (f_s f) <> CPanic /\ forall t, p_job (f_s f) t <> JPanic.
Proof.
  intros Hm [tr H]. destruct (rel_reach _ _ _ _ _ _ _ Hm H) as (tr' & a & _ & _ & [X R] & A). split.
  - intros E. destruct (f_mu f) as [[t|g| |u]|] eqn:M.
    3: { destruct (col_place _ _ _ _ _ _ _ Hm H M); congruence. }
    all: apply (a_cpanic a A); rewrite (e_col _ _ _ R); unfold fpos; rewrite M; exact E.
  - intros t E. apply (a_jpanic a A t). rewrite (job_same _ _ _ t R) by congruence. exact E.
Qed.

(** every accepted job is handled exactly once *)
Theorem pool_mu_exactly_once maxw n t0 clock idle tr f t : 0 < maxw -> steps (f_step idle) (f_init maxw n t0 clock) tr f ->
  let ev := fseen_all tr in let s := f_s f in
  (LRet t true ∈ ev /\ begins t ev = 1%nat /\ (forall c, p_buf s c <> Some t)) \/
  (LRet t true ∈ ev /\ begins t ev = 0%nat /\ exists c, p_buf s c = Some t /\ forall c', p_buf s c' = Some t -> c' = c) \/
  (LRet t true ∉ ev /\ begins t ev = 0%nat /\ (forall c, p_buf s c <> Some t)).
Proof.
  intros Hm H ev s. destruct (rel_reach _ _ _ _ _ _ _ Hm H) as (tr' & a & S & E & [X R] & A).
  pose proof (pool_exactly_once maxw n t0 clock idle tr' a t Hm S) as Q. rewrite (seen_elem _ tr') in Q by discriminate. rewrite (seen_begins t tr'), E in Q. fold ev in Q.
  assert (forall c x, p_buf a c = x <-> p_buf s c = x) as B by (intros c x; rewrite (e_buf _ _ _ R); reflexivity).
  setoid_rewrite B in Q. exact Q.
Qed.
(** a job that has begun and not ended is in the hands of one goroutine *)
Theorem pool_mu_handled_or_running maxw n t0 clock idle tr f t : 0 < maxw -> steps (f_step idle) (f_init maxw n t0 clock) tr f ->
  let ev := fseen_all tr in let s := f_s f in
  (ends t ev = begins t ev /\ (forall g w c, p_gor s g <> GHandle w c t)) \/
  (ends t ev = 0%nat /\ begins t ev = 1%nat /\ exists g w c, p_gor s g = GHandle w c t /\ forall g' w' c', p_gor s g' = GHandle w' c' t -> g' = g).
Proof.
  intros Hm H ev s. destruct (rel_reach _ _ _ _ _ _ _ Hm H) as (tr' & a & S & E & [X R] & A).
  pose proof (pool_handled_or_running maxw n t0 clock idle tr' a t Hm S) as Q. rewrite (seen_begins t tr'), (seen_ends t tr'), E in Q. fold ev in Q.
  assert (forall g w c, p_gor a g = GHandle w c t <-> p_gor s g = GHandle w c t) as B.
  { intros g w c. split; intros Eg.
    - rewrite (e_gor _ _ _ R) in Eg. destruct (ovg (fpos f) (f_s f)) as [[h x]|] eqn:O; [|exact Eg]. cbn in Eg. destruct (decide (g = h)) as [->|]; [|rewrite tset_ne in Eg by assumption; exact Eg].
      rewrite tset_eq in Eg. subst x. unfold ovg in O. destruct (fpos f) as [|u []|k []| |]; try discriminate. destruct (p_gor (f_s f) k); discriminate.
    - rewrite (gor_eq _ _ _ g R); [exact Eg|]. change (~ stable (p_gor s g)). rewrite Eg. apply stable_ne. exact I. }
  setoid_rewrite B in Q. exact Q.
Qed.
(** the number that Workers returns is the number of goroutines that are alive at that moment *)
Theorem pool_mu_workers maxw n t0 clock idle f u k f' : 0 < maxw -> reach (f_init maxw n t0 clock) (f_step idle) f -> f_step idle f (FWorkers u k) f' ->
  k = p_workers (f_s f) /\ k = total live (p_gor (f_s f)) (p_ng (f_s f)) /\ 0 <= k <= Z.max maxw (Z.of_nat n).
Proof.
  intros Hm [tr H] S. destruct (rel_reach _ _ _ _ _ _ _ Hm H) as (tr' & a & Sa & E & [X R] & A). inversion S; subst.
  destruct (x_wk _ X u) as [D|D]; cbn in D; [destruct D; congruence|]. subst mu. unfold fpos in R. cbn in R. match goal with Hu : fw u = _ |- _ => rewrite Hu in R end.
  pose proof (e_facts _ _ _ R) as F. pose proof (e_workers _ _ _ R) as W. pose proof (e_ng _ _ _ R) as NG. cbn in F, W, NG |- *.
  destruct (pool_workers_count maxw n t0 clock idle a Hm (ex_intro _ tr' Sa)) as [C _]. destruct (pool_bounded maxw n t0 clock idle a Hm (ex_intro _ tr' Sa)) as [_ B].
  assert (total live (p_gor a) (p_ng a) = total live (p_gor s) (p_ng s)) as T. { rewrite NG, Nat.add_0_r. apply total_ext. intros i _. apply R. }
  split; [exact F|]. split; [lia|]. split; [|lia]. rewrite F. replace (p_workers s) with (p_workers a) by lia. rewrite C. apply total_nonneg. intros []; cbn; lia.
Qed.
(** never more handlers at work than the limit, in the middle of a critical section either *)
Theorem pool_mu_bounded maxw n t0 clock idle f : 0 < maxw -> reach (f_init maxw n t0 clock) (f_step idle) f ->
  total handling (p_gor (f_s f)) (p_ng (f_s f)) <= Z.max maxw (Z.of_nat n).
Proof.
  intros Hm [tr H]. destruct (rel_reach _ _ _ _ _ _ _ Hm H) as (tr' & a & Sa & E & [X R] & A).
  pose proof (pool_bounded maxw n t0 clock idle a Hm (ex_intro _ tr' Sa)) as [B1 B2].
  enough (total handling (p_gor (f_s f)) (p_ng (f_s f)) <= total handling (p_gor a) (p_ng a)) by lia.
  assert (forall m, total handling (p_gor (f_s f)) m <= total handling (p_gor a) m) as T.
  { intros m. induction m as [|m IH]; cbn [total]; [lia|]. enough (handling (p_gor (f_s f) m) <= handling (p_gor a m)) by lia.
    destruct (p_gor (f_s f) m) as [| | | |w c t| | | |] eqn:Eg; cbn [handling]; try (destruct (p_gor a m); cbn; lia).
    rewrite (gor_eq _ _ _ m R), Eg; [cbn; lia|]. rewrite Eg. apply stable_ne. exact I. }
  rewrite (e_ng _ _ _ R). specialize (T (p_ng (f_s f))).
  assert (forall m k, total handling (p_gor a) m <= total handling (p_gor a) (m + k)) as Mono.
  { intros m k. induction k as [|k IH]; [rewrite Nat.add_0_r; lia|]. rewrite Nat.add_succ_r. cbn [total]. destruct (p_gor a (m + k)); cbn [handling]; lia. }
  specialize (Mono (p_ng (f_s f)) (dg (fpos f))). lia.
Qed.
(** once maxWorkers is -1, a Run that has not passed its check does not succeed any more *)
Theorem pool_mu_stopped maxw n t0 clock idle f tr f' t : 0 < maxw -> reach (f_init maxw n t0 clock) (f_step idle) f ->
  p_max (f_s f) = -1 -> p_job (f_s f) t = JIdle \/ p_job (f_s f) t = JLock /\ (f_run f t = ROut \/ f_run f t = RChk) ->
  steps (f_step idle) f tr f' -> FL (LRet t true) ∉ tr /\ p_max (f_s f') = -1.
Proof.
  intros Hm [tr0 H] M J S. destruct (rel_reach _ _ _ _ _ _ _ Hm H) as (tr' & a & Sa & E & R & A).
  destruct (sim_trace idle f a tr f' R A S) as (tr2 & a2 & S2 & E2 & R2). destruct R as [X R].
  assert (p_job a t = JIdle \/ p_job a t = JLock) as Ja.
  { destruct J as [J|[J1 J2]]; [left; rewrite (job_same _ _ _ t R) by congruence; exact J|right].
    rewrite (e_job _ _ _ R). destruct (ovj (fpos f)) as [[u x]|] eqn:O; [|exact J1]. cbn. destruct (decide (t = u)) as [->|]; [|rewrite tset_ne by assumption; exact J1].
    exfalso. unfold fpos in O. destruct (f_mu f) as [[v|v| |v]|]; cbn in O; try discriminate. destruct (f_run f v) eqn:Ev; try discriminate; injection O as -> _; rewrite Ev in J2; destruct J2; discriminate. }
  destruct (pool_stopped_run_false maxw n t0 clock idle a tr2 a2 t Hm (ex_intro _ tr' Sa) ltac:(rewrite (e_max _ _ _ R); exact M) Ja S2) as (Q1 & Q2 & _).
  split; [|rewrite <- (e_max _ _ _ (proj2 R2)); exact Q2].
  intros Hin. apply Q1. apply (seen_elem (LRet t true)); [discriminate|]. rewrite E2. clear - Hin.
  induction tr as [|l tr IH]; [inversion Hin|]. change (fseen_all (l :: tr)) with (fseen l ++ fseen_all tr). apply elem_of_app. apply elem_of_cons in Hin as [<-|Hin]; [left; left|right; apply IH; exact Hin].
Qed.
(** that workers counts the live goroutines does not hold at every moment: inside Run it is ahead of them *)
Theorem pool_mu_workers_always_refuted : exists f, reach (f_init 2 0 (fun _ => 0) 0) (f_step 10) f /\
  p_workers (f_s f) = 1 /\ total live (p_gor (f_s f)) (p_ng (f_s f)) = 0 /\ f_mu f = Some (HRun 0).
Proof.
  eexists. split; [eexists; eapply steps_cons; [apply fs_out, (os_call _ 0); reflexivity|]|].
  - eapply steps_cons; [apply (fs_run_lock _ _ _ _ _ _ 0); reflexivity|].
    eapply steps_cons; [apply (fs_run _ _ _ _ _ _ _ 0); cbn; apply rs_chk; discriminate|].
    eapply steps_cons; [apply (fs_run _ _ _ _ _ _ _ 0); cbn; apply rs_none; reflexivity|].
    eapply steps_cons; [apply (fs_run _ _ _ _ _ _ _ 0); cbn; apply rs_cap; reflexivity|].
    eapply steps_cons; [apply (fs_run _ _ _ _ _ _ _ 0); cbn; apply rs_inc|]. constructor.
  - cbn. auto.
Qed.

(** a whole run: a job is called, the worker made, the job handled *)
Example mu_run : exists tr f, steps (f_step 10) (f_init 2 0 (fun _ => 0) 0) tr f /\ fseen_all tr = [LCall 0; LRet 0 true; LBegin 0; LEnd 0] /\
  f_mu f = None /\ p_dobby (f_s f) = [0%nat] /\ p_workers (f_s f) = 1.
Proof.
  assert (exists s, steps (p_step 10) (p_init 2 0 (fun _ => 0) 0) [LCall 0; LPTau; LRet 0 true; LPTau; LBegin 0; LEnd 0; LPTau; LPTau] s /\ p_dobby s = [0%nat] /\ p_workers s = 1) as (s & S & D & W).
  { eexists. split.
    - eapply steps_cons; [apply (ps_call _ _ 0); reflexivity|]. eapply steps_cons; [apply (ps_new _ _ 0); try reflexivity; discriminate|].
      eapply steps_cons; [apply (ps_send _ _ 0 0 0); reflexivity|]. eapply steps_cons; [apply (ps_start _ _ 0 0 0); reflexivity|].
      eapply steps_cons; [apply (ps_recv _ _ 0 0 0 0); reflexivity|]. eapply steps_cons; [apply (ps_handled _ _ 0 0 0 0); reflexivity|].
      eapply steps_cons; [apply (ps_tt _ _ 0 0 0); reflexivity|]. eapply steps_cons; [apply (ps_free _ _ 0 0 0); [reflexivity|discriminate]|]. constructor.
    - split; reflexivity. }
  destruct (pool_mu_realised 2 0 (fun _ => 0) 0 10 _ s ltac:(lia) S) as (tr & f & S' & E & M & Q). exists tr, f.
  split; [exact S'|]. split; [exact E|]. split; [exact M|]. rewrite <- (same_dobby _ _ Q), <- (same_workers _ _ Q). auto.
Qed.

Print Assumptions pool_mu_exclusive.
Print Assumptions pool_mu_refines.
Print Assumptions pool_mu_realised.
Print Assumptions pool_mu_released.
Print Assumptions pool_mu_no_panic.
Print Assumptions pool_mu_exactly_once.
Print Assumptions pool_mu_handled_or_running.
Print Assumptions pool_mu_workers.
Print Assumptions pool_mu_bounded.
Print Assumptions pool_mu_stopped.
Print Assumptions pool_mu_workers_always_refuted.
