(** gopoolx with the code of sync.Mutex in place of a mutex that has an owner or none. *)
From Verif Require Import Base Conc MutexModel MutexProofs MutexProps OwnMuModel OwnMuProps PoolModel PoolProofs PoolMuModel PoolMuProofs PoolMuProps.

(** *** gopoolx: the goroutines that take pool.mu, numbered *)
Definition h_nat (h : holder) : nat := match h with HRun t => 4 * t | HGor g => 4 * g + 1 | HCol => 2 | HWork u => 4 * u + 3 end.
Lemma h_nat_inj h h' : h_nat h = h_nat h' -> h = h'.
Proof. destruct h, h'; cbn; intros E; try (exfalso; lia); f_equal; lia. Qed.
Definition f_own (f : fstate) : option nat := h_nat <$> f_mu f.
Definition f_forget (f : fstate) : fstate := FS (f_s f) None (f_run f) (f_gor f) (f_col f) (f_wk f).
Lemma f_forget_none f : f_own f = None -> f_forget f = f.
Proof. destruct f as [s mu fr fg fc fw]. unfold f_own, f_forget. cbn. destruct mu; [discriminate|reflexivity]. Qed.
Theorem pool_over_mutex :
  forall maxw n t0 clock idle N ls f m, (0 < maxw)%Z -> steps (ow_step (f_step idle) f_own f_forget N) (f_init maxw n t0 clock, mx_new) ls (f, m) ->
    steps (f_step idle) (f_init maxw n t0 clock) (o_proj ls) f /\ (forall h, inside f h <-> x_pc m (h_nat h) = XHold) /\ x_bad m = false /\
    exists tr' a, steps (p_step idle) (p_init maxw n t0 clock) tr' a /\ seen_all tr' = fseen_all (o_proj ls) /\ (f_mu f = None -> same (f_s f) a).
Proof.
  intros maxw n t0 clock idle N ls f m Hm HS. destruct (own_over_mutex (f_step idle) f_own f_forget (f_init maxw n t0 clock) eq_refl f_forget_none N ls f m HS) as (Is & (ms & Im) & Il).
  split; [exact Is|]. split; [|split; [eapply mutex_never_aborts; exact Im|eapply pool_mu_refines; eassumption]].
  intros h. rewrite (pool_mu_exclusive maxw n t0 clock idle f h Hm) by (eexists; exact Is). rewrite <- Il. unfold f_own. destruct (f_mu f) as [h'|]; cbn; [|split; discriminate].
  split; [intros [= ->]; reflexivity|]. intros [= Q]. f_equal. apply h_nat_inj. exact Q.
Qed.
Theorem pool_with_mutex :
  forall maxw n t0 clock idle ls f, steps (f_step idle) (f_init maxw n t0 clock) ls f ->
    exists N ls' m, steps (ow_step (f_step idle) f_own f_forget N) (f_init maxw n t0 clock, mx_new) ls' (f, m) /\ o_proj ls' = ls.
Proof.
  intros maxw n t0 clock idle ls f. apply own_with_mutex; [reflexivity|apply f_forget_none|]. intros s1 l s2 H. destruct H; cbn; auto.
Qed.
Print Assumptions pool_over_mutex.
Print Assumptions pool_with_mutex.

(** one such execution, that stops inside of Run *)
Example pool_over_mutex_case : exists N ls f m, steps (ow_step (f_step 10) f_own f_forget N) (f_init 2 0 (fun _ => 0%Z) 0, mx_new) ls (f, m) /\ x_pc m 0 = XHold.
Proof.
  destruct pool_mu_workers_always_refuted as (f & [tr HS] & _ & _ & M). destruct (pool_with_mutex _ _ _ _ _ _ _ HS) as (N & ls & m & A & _).
  exists N, ls, f, m. split; [exact A|]. apply (own_over_mutex (f_step 10) f_own f_forget (f_init 2 0 (fun _ => 0%Z) 0) eq_refl f_forget_none N ls f m A). unfold f_own. rewrite M. reflexivity.
Qed.
