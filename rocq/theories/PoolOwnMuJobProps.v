(** What gopoolx promises of its jobs, with the code of sync.Mutex as pool.mu. *)
From Verif Require Import Base Conc MutexModel MutexProofs MutexProps OwnMuModel OwnMuProps OwnMuReProps PoolModel PoolProofs PoolProofs2 PoolProofs3 PoolProps PoolMuModel PoolMuProofs PoolMuProofs2 PoolMuProps PoolOwnMuProps.
Local Open Scope Z.

Section props.
Context (maxw : Z) (n : nat) (t0 : nat -> Z) (clock idle : Z) (N : nat) (HM : 0 < maxw).
Notation ostep := (ow_step (f_step idle) f_own f_forget N).
Notation oinit := (f_init maxw n t0 clock, mx_new).
Lemma pool_under ls f m : steps ostep oinit ls (f, m) -> steps (f_step idle) (f_init maxw n t0 clock) (o_proj ls) f.
Proof using. intros H. exact (proj1 (own_over_mutex (f_step idle) f_own f_forget (f_init maxw n t0 clock) eq_refl f_forget_none N ls f m H)). Qed.
(** C195: what Run accepts is handled exactly once or waits in the channel of exactly one
    worker; what it refuses is not handled *)
Theorem pool_over_mutex_exactly_once ls f m t : steps ostep oinit ls (f, m) ->
  let ev := fseen_all (o_proj ls) in let s := f_s f in
  (LRet t true ∈ ev /\ begins t ev = 1%nat /\ (forall c, p_buf s c <> Some t)) \/
  (LRet t true ∈ ev /\ begins t ev = 0%nat /\ exists c, p_buf s c = Some t /\ forall c', p_buf s c' = Some t -> c' = c) \/
  (LRet t true ∉ ev /\ begins t ev = 0%nat /\ (forall c, p_buf s c <> Some t)).
Proof using HM. intros H. exact (pool_mu_exactly_once maxw n t0 clock idle _ f t HM (pool_under ls f m H)). Qed.
(** C195: a handler that has begun is over, or runs in exactly one goroutine *)
Theorem pool_over_mutex_handled_or_running ls f m t : steps ostep oinit ls (f, m) ->
  let ev := fseen_all (o_proj ls) in let s := f_s f in
  (ends t ev = begins t ev /\ (forall g w c, p_gor s g <> GHandle w c t)) \/
  (ends t ev = 0%nat /\ begins t ev = 1%nat /\ exists g w c, p_gor s g = GHandle w c t /\ forall g' w' c', p_gor s g' = GHandle w' c' t -> g' = g).
Proof using HM. intros H. exact (pool_mu_handled_or_running maxw n t0 clock idle _ f t HM (pool_under ls f m H)). Qed.
(** C195: no more handlers at once than the larger of maxWorkers and preheat; neither
    Run nor the collector panics *)
Theorem pool_over_mutex_bounded ls f m : steps ostep oinit ls (f, m) ->
  total handling (p_gor (f_s f)) (p_ng (f_s f)) <= Z.max maxw (Z.of_nat n) /\ p_col (f_s f) <> CPanic /\ (forall t, p_job (f_s f) t <> JPanic) /\ x_bad m = false.
Proof using HM.
  intros H. assert (R : reach (f_init maxw n t0 clock) (f_step idle) f) by (eexists; exact (pool_under ls f m H)).
  split; [exact (pool_mu_bounded maxw n t0 clock idle f HM R)|]. destruct (pool_mu_no_panic maxw n t0 clock idle f HM R) as [A B]. split; [exact A|]. split; [exact B|].
  exact (proj1 (proj2 (proj2 (pool_over_mutex maxw n t0 clock idle N ls f m HM H)))).
Qed.
(** C195: what Workers answers is the number of goroutines that take jobs *)
Theorem pool_over_mutex_workers ls f m l f' m' u k : steps ostep oinit ls (f, m) -> ostep (f, m) l (f', m') -> l = inl (FWorkers u k) ->
  k = p_workers (f_s f) /\ k = total live (p_gor (f_s f)) (p_ng (f_s f)) /\ 0 <= k <= Z.max maxw (Z.of_nat n).
Proof using HM.
  intros H S ->. apply (pool_mu_workers maxw n t0 clock idle f u k f' HM); [eexists; exact (pool_under ls f m H)|].
  exact (own_step (f_step idle) f_own f_forget (f_init maxw n t0 clock) eq_refl f_forget_none N ls (f, m) _ (f', m') H S).
Qed.
(** C195: after Stop has marked the pool, Run accepts nothing that it has not accepted by
    then *)
Theorem pool_over_mutex_stopped ls f m ls' f' m' t : steps ostep oinit ls (f, m) ->
  p_max (f_s f) = -1 -> p_job (f_s f) t = JIdle \/ p_job (f_s f) t = JLock /\ (f_run f t = ROut \/ f_run f t = RChk) ->
  steps ostep (f, m) ls' (f', m') -> inl (FL (LRet t true)) ∉ ls' /\ p_max (f_s f') = -1.
Proof using HM.
  intros H M J S. destruct (own_suffix (f_step idle) f_own f_forget (f_init maxw n t0 clock) eq_refl f_forget_none N _ _ _ _ _ _ H S) as (K1 & K2 & _).
  destruct (pool_mu_stopped maxw n t0 clock idle f _ f' t HM (ex_intro _ _ K1) M J K2) as [A B]. split; [|exact B].
  intros Q. apply A. unfold o_proj. apply elem_of_list_omap. eexists. split; [exact Q|reflexivity].
Qed.
End props.
Print Assumptions pool_over_mutex_exactly_once.
Print Assumptions pool_over_mutex_handled_or_running.
Print Assumptions pool_over_mutex_bounded.
Print Assumptions pool_over_mutex_workers.
Print Assumptions pool_over_mutex_stopped.

(** a job is accepted, handled, and its handler is over *)
Example pool_over_mutex_job_case : exists N ls f m, steps (ow_step (f_step 10) f_own f_forget N) (f_init 2 0 (fun _ => 0) 0, mx_new) ls (f, m) /\
  fseen_all (o_proj ls) = [LCall 0; LRet 0 true; LBegin 0; LEnd 0] /\ p_workers (f_s f) = 1.
Proof. destruct mu_run as (tr & f & HS & E & _ & _ & W). destruct (pool_with_mutex _ _ _ _ _ _ _ HS) as (N & ls & m & A & <-). exists N, ls, f, m. auto. Qed.
(** the pool is stopped *)
Example pool_over_mutex_stopped_case : exists N ls f m, steps (ow_step (f_step 10) f_own f_forget N) (f_init 2 0 (fun _ => 0) 0, mx_new) ls (f, m) /\
  p_max (f_s f) = -1 /\ p_job (f_s f) 0%nat = JIdle.
Proof.
  assert (exists s ls, steps (p_step 10) (p_init 2 0 (fun _ => 0) 0) ls s /\ p_max s = -1 /\ p_job s 0%nat = JIdle) as (s & ls & HS & E1 & E2).
  { eexists _, _. split.
    - eapply steps_cons; [apply (ps_stop_call _ _ 0); reflexivity|]. eapply steps_cons; [apply (ps_stop_again _ _ 0); reflexivity|]. eapply steps_cons; [apply (ps_meet _ _ 0); reflexivity|].
      eapply steps_cons; [apply ps_stop; [reflexivity|split; [apply NoDup_nil_2|intros w Hw; inversion Hw]]|]. constructor.
    - split; reflexivity. }
  destruct (pool_mu_realised 2 0 (fun _ => 0) 0 10 _ s ltac:(lia) HS) as (tr & f & S' & E & M & Q). destruct (pool_with_mutex _ _ _ _ _ _ _ S') as (N & ls' & m & A & _).
  exists N, ls', f, m. split; [exact A|]. rewrite <- (same_max _ _ Q), <- (same_job _ _ Q). auto.
Qed.
(** Workers is called and answers *)
Example pool_over_mutex_workers_case : exists N ls f m, steps (ow_step (f_step 10) f_own f_forget N) (f_init 2 0 (fun _ => 0) 0, mx_new) ls (f, m) /\ inl (FWorkers 0 0) ∈ ls.
Proof.
  assert (exists f ls, steps (f_step 10) (f_init 2 0 (fun _ => 0) 0) ls f /\ FWorkers 0 0 ∈ ls) as (f & ls & HS & E).
  { eexists _, _. split.
    - eapply steps_cons; [apply (fs_wk_call _ _ _ _ _ _ _ 0); reflexivity|]. eapply steps_cons; [apply (fs_wk_lock _ _ _ _ _ _ 0); reflexivity|].
      eapply steps_cons; [apply (fs_wk_read _ _ _ _ _ _ _ 0); reflexivity|]. eapply steps_cons; [apply (fs_wk_ret _ _ _ _ _ _ _ 0); reflexivity|]. constructor.
    - cbn. set_solver. }
  destruct (pool_with_mutex _ _ _ _ _ _ _ HS) as (N & ls' & m & A & B). exists N, ls', f, m. split; [exact A|]. rewrite <- B in E. unfold o_proj in E.
  apply elem_of_list_omap in E as ([x|x] & E1 & E2); [injection E2 as ->; exact E1|discriminate].
Qed.
