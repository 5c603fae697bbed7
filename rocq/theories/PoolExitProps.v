(** Properties of poolx/gopoolx with handlers that end their goroutine (C158). *)
From Verif Require Import Base Conc PoolModel PoolProofs PoolProofs2 PoolProofs3 PoolProps PoolExitModel.
Local Open Scope Z.

(** how many goroutines are gone *)
Definition gone (st : xstate) : Z := total (fun b : bool => if b then 1 else 0) st.2 (p_ng st.1).

Definition visible (l : plab) : bool := match l with LPTau => false | _ => true end.
Lemma exit_project idle st0 tr st : steps (exit_step idle) st0 tr st ->
  exists tr', steps (p_step idle) st0.1 tr' st.1 /\ filter visible tr' = filter visible tr.
Proof.
  induction 1 as [s|s tr s1 l s2 H IH H1].
  - exists []. split; [constructor|reflexivity].
  - destruct IH as (tr' & R & E). destruct H1 as [s1 d l s2 P _|s1 d g w c t _ _]; cbn [fst] in *.
    + exists (tr' ++ [l]). split; [eapply steps_snoc; eassumption|]. rewrite !filter_app, E. reflexivity.
    + exists tr'. split; [exact R|]. rewrite filter_app, E. cbn. rewrite app_nil_r. reflexivity.
Qed.
Lemma exit_reach idle maxw n tts clock st : reach (exit_init maxw n tts clock) (exit_step idle) st -> reach (p_init maxw n tts clock) (p_step idle) st.1.
Proof. intros [tr H]. destruct (exit_project idle _ _ _ H) as (tr' & R & _). exists tr'. exact R. Qed.
Lemma exit_in_handler idle maxw n tts clock st : reach (exit_init maxw n tts clock) (exit_step idle) st ->
  forall g, st.2 g = true -> exists w c t, p_gor st.1 g = GHandle w c t.
Proof.
  revert st. apply (reach_invariant (exit_init maxw n tts clock) (exit_step idle) (fun st => forall g, st.2 g = true -> exists w c t, p_gor st.1 g = GHandle w c t)); [discriminate|]. intros st l st' I H. destruct H as [s d l s' P K|s d g w c t G _]; cbn [fst snd] in *; intros g' D.
  - rewrite K by exact D. apply I, D.
  - destruct (decide (g' = g)) as [->|Hn]; [eauto|]. rewrite tset_ne in D by exact Hn. apply I, D.
Qed.
Lemma total_le {A B} (m : A -> Z) (m' : B -> Z) f f' n : (forall i, m (f i) <= m' (f' i)) -> total m f n <= total m' f' n.
Proof. intros H. induction n as [|n IH]; cbn [total]; [lia|]. specialize (H n). lia. Qed.
Lemma total_tight {A B} (m : A -> Z) (m' : B -> Z) f f' n i : (forall i, m (f i) <= m' (f' i)) -> total m' f' n <= total m f n ->
  (i < n)%nat -> m (f i) = m' (f' i).
Proof.
  intros H. induction n as [|n IH]; cbn [total]; intros T Hi; [lia|]. pose proof (total_le m m' f f' n H). pose proof (H n).
  destruct (decide (i = n)) as [->|]; [lia|]. apply IH; lia.
Qed.

Section Facts.
Context (idle maxw : Z) (n : nat) (tts : nat -> Z) (clock : Z) (Hm : 0 < maxw).
Lemma gone_live st i : reach (exit_init maxw n tts clock) (exit_step idle) st -> (if st.2 i then 1 else 0) <= live (p_gor st.1 i).
Proof.
  intros R. destruct (st.2 i) eqn:E; [|destruct (p_gor st.1 i); cbn; lia].
  destruct (exit_in_handler idle _ _ _ _ _ R i E) as (w & c & t & ->). cbn. lia.
Qed.
Lemma gone_workers st : reach (exit_init maxw n tts clock) (exit_step idle) st -> 0 <= gone st <= p_workers st.1.
Proof.
  intros R. split; [apply total_nonneg; intros []; lia|]. rewrite (cinv_reach idle maxw n tts clock _ Hm (exit_reach _ _ _ _ _ _ R)).
  apply (total_le (fun b : bool => if b then 1 else 0) live). intros i. apply gone_live, R.
Qed.
Lemma full_all_gone st g : reach (exit_init maxw n tts clock) (exit_step idle) st -> Z.max maxw (Z.of_nat n) <= gone st ->
  live (p_gor st.1 g) = 1 -> st.2 g = true.
Proof.
  intros R F L. pose proof (exit_reach _ _ _ _ _ _ R) as R'. pose proof (pinv_reach idle maxw n tts clock _ Hm R') as A.
  assert (Hg : (g < p_ng st.1)%nat) by (apply gor_lt; [exact A|]; intros E; rewrite E in L; discriminate).
  pose proof (proj2 (bound_reach maxw n tts clock idle _ Hm R')) as B. rewrite (cinv_reach idle maxw n tts clock _ Hm R') in B.
  pose proof (total_tight (fun b : bool => if b then 1 else 0) live st.2 (p_gor st.1) (p_ng st.1) g (fun i => gone_live st i R) ltac:(unfold gone in F; lia) Hg) as T.
  cbv beta in T. destruct (st.2 g); [reflexivity|]. lia.
Qed.
Lemma full_none_awaited st w : reach (exit_init maxw n tts clock) (exit_step idle) st -> Z.max maxw (Z.of_nat n) <= gone st ->
  awaited (p_own st.1 w) = false.
Proof.
  intros R F. destruct (awaited (p_own st.1 w)) eqn:E; [|reflexivity]. exfalso.
  destruct (dinv_reach idle maxw n tts clock _ Hm (exit_reach _ _ _ _ _ _ R) w E) as (g & S).
  assert (D : st.2 g = true) by (apply full_all_gone; [exact R|exact F|]; destruct S as [->|(c & _ & ->)]; reflexivity).
  destruct (exit_in_handler idle _ _ _ _ _ R g D) as (w' & c & t & G). destruct S as [S|(c' & _ & S)]; congruence.
Qed.
Lemma ng_mono s l s' : p_step idle s l s' -> (p_ng s <= p_ng s')%nat.
Proof. intros H. destruct H; cbn; lia. Qed.
Lemma total_grow {A} (m : A -> Z) f k k' : (forall p, 0 <= m p) -> (k <= k')%nat -> total m f k <= total m f k'.
Proof. intros H L. induction L as [|k' L IH]; [lia|]. cbn [total]. specialize (H (f k')). lia. Qed.
Lemma gone_mono st l st' : exit_step idle st l st' -> gone st <= gone st'.
Proof.
  intros H. destruct H as [s d l s' P _|s d g w c t _ D]; unfold gone; cbn [fst snd].
  - apply total_grow; [intros []; lia|eapply ng_mono, P].
  - apply total_le. intros i. destruct (decide (i = g)) as [->|]; [rewrite tset_eq, D; lia|rewrite tset_ne by assumption; lia].
Qed.
End Facts.

(** C158: whatever the handlers do, the pool goes through states it goes through with
    handlers that return (so that all that holds in those states still holds). *)
Theorem pool_goexit_project maxw n tts clock idle tr st : steps (exit_step idle) (exit_init maxw n tts clock) tr st ->
  exists tr', steps (p_step idle) (p_init maxw n tts clock) tr' st.1 /\ filter visible tr' = filter visible tr.
Proof. intros H. exact (exit_project idle _ _ _ H). Qed.
Print Assumptions pool_goexit_project.

(** A goroutine that is gone is counted for ever: Workers never falls below the number of
    those, not even after Stop. *)
Theorem pool_goexit_counted maxw n tts clock idle st : 0 < maxw -> reach (exit_init maxw n tts clock) (exit_step idle) st ->
  gone st <= p_workers st.1 /\ forall tr st', steps (exit_step idle) st tr st' -> gone st <= p_workers st'.1.
Proof.
  intros Hm R. split; [apply (gone_workers idle maxw n tts clock Hm st R)|]. intros tr st' H.
  assert (R' : reach (exit_init maxw n tts clock) (exit_step idle) st') by (destruct R as [t0 R]; exists (t0 ++ tr); eapply steps_app; eassumption).
  pose proof (gone_workers idle maxw n tts clock Hm st' R').
  enough (gone st <= gone st') by lia. clear R R' H0. revert tr st' H.
  apply (steps_invariant st (exit_step idle) (fun st' => gone st <= gone st')); [lia|]. intros s l s' I X. pose proof (gone_mono idle s l s' X). lia.
Qed.
Print Assumptions pool_goexit_counted.

(** Once as many are gone as the pool may have workers, it never again accepts a value:
    every Run returns false, at once. *)
Theorem pool_goexit_dead maxw n tts clock idle st : 0 < maxw -> reach (exit_init maxw n tts clock) (exit_step idle) st ->
  Z.max maxw (Z.of_nat n) <= gone st ->
  forall tr st', steps (exit_step idle) st tr st' ->
    (forall t, LRet t true ∉ tr) /\ (forall t, p_job st'.1 t = JLock -> exists st2, exit_step idle st' (LRet t false) st2).
Proof.
  intros Hm R F tr st' H.
  assert (I : reach (exit_init maxw n tts clock) (exit_step idle) st' /\ Z.max maxw (Z.of_nat n) <= gone st' /\ forall t, LRet t true ∉ tr).
  { revert tr st' H. apply (steps_trace_invariant st (exit_step idle) (fun tr st' => reach (exit_init maxw n tts clock) (exit_step idle) st' /\ Z.max maxw (Z.of_nat n) <= gone st' /\ forall t, LRet t true ∉ tr)).
    - split; [exact R|]. split; [exact F|]. intros t X. inversion X.
    - intros ls s l s' _ (R1 & F1 & N) X. split; [destruct R1 as [t0 R1]; exists (t0 ++ [l]); eapply steps_snoc; eassumption|].
      split; [pose proof (gone_mono idle s l s' X); lia|]. intros t Y. apply elem_of_app in Y as [Y|Y]; [exact (N t Y)|].
      apply elem_of_list_singleton in Y. subst l. inversion X as [s1 d l s2 P _|]; subst.
      assert (J : exists w, p_job s1 t = JSend w) by (inversion P; subst; eauto). destruct J as [w J].
      pose proof (full_none_awaited idle maxw n tts clock Hm _ w R1 F1) as W. cbn [fst] in W.
      pose proof (pinv_reach idle maxw n tts clock _ Hm (exit_reach _ _ _ _ _ _ R1)) as A. cbn [fst] in A.
      rewrite (proj2 (a_run _ A w t) J) in W. discriminate. }
  destruct I as (R' & F' & N). split; [exact N|]. intros t J. destruct st' as [s d]. cbn [fst] in *.
  pose proof (pinv_reach idle maxw n tts clock _ Hm (exit_reach _ _ _ _ _ _ R')) as A. cbn [fst] in A.
  destruct (bound_reach maxw n tts clock idle _ Hm (exit_reach _ _ _ _ _ _ R')) as [[M|M] B]; cbn [fst] in *.
  - eexists. apply xe_pool; [apply ps_full; [exact J|lia| |]|intros; reflexivity].
    + destruct (p_dobby s) as [|w ws] eqn:D; [reflexivity|]. exfalso.
      pose proof (full_none_awaited idle maxw n tts clock Hm _ w R' F') as W. cbn [fst] in W.
      rewrite (proj1 (a_dobby _ A ltac:(lia) w)) in W by (rewrite D; left). discriminate.
    + pose proof (gone_workers idle maxw n tts clock Hm _ R') as G. cbn [fst] in G. lia.
  - eexists. apply xe_pool; [apply ps_stopped; assumption|intros; reflexivity].
Qed.
Print Assumptions pool_goexit_dead.

(** two handlers of a pool of two end their goroutines *)
Definition two_jobs : list move := [MCall 0; MRun 0; MRun 0; MGor 0; MGor 0; MCall 1; MRun 1; MRun 1; MGor 1; MGor 1].
Example goexit_ex : exists st, reach (exit_init 2 0 (fun _ => 0) 0) (exit_step 10) st /\ gone st = 2.
Proof.
  destruct (execs 10 (p_init 2 0 (fun _ => 0) 0) two_jobs) as [s|] eqn:E; [|vm_compute in E; discriminate].
  destruct (execs_reach 2 0 (fun _ => 0) 0 10 two_jobs s ltac:(lia) E) as [tr R].
  assert (G : p_gor s 0%nat = GHandle 0 0 0 /\ p_gor s 1%nat = GHandle 1 1 1 /\ p_ng s = 2%nat) by (vm_compute in E; injection E as <-; vm_compute; auto).
  destruct G as (G0 & G1 & G2).
  assert (X : steps (exit_step 10) (exit_init 2 0 (fun _ => 0) 0) tr (s, fun _ => false)).
  { clear - R. unfold exit_init. remember (p_init 2 0 (fun _ => 0) 0) as s0 eqn:E0. clear E0.
    induction R as [|s0 tr s1 l s2 R IH P]; [constructor|]. eapply steps_snoc; [apply IH|]. apply xe_pool; [exact P|discriminate]. }
  exists (s, tset (tset (fun _ => false) 0%nat true) 1%nat true). split.
  - exists ((tr ++ [LPTau]) ++ [LPTau]). eapply steps_snoc; [eapply steps_snoc; [exact X|]|].
    + eapply xe_exit; [exact G0|reflexivity].
    + eapply xe_exit; [exact G1|reflexivity].
  - unfold gone. cbn [fst snd]. rewrite G2. reflexivity.
Qed.
