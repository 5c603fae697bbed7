(** C112: handlers that use the pool they run in. *)
From Verif Require Import Base Conc PoolModel PoolProofs PoolProofs2 PoolProofs3 PoolReModel PoolReProofs.
Local Open Scope Z.

(** Whatever the handlers do, the pool behaves as in some execution in which they do
    nothing but take time and the same calls are made by anybody: same calls, same
    results, same beginnings and ends of jobs.  So C58 to C62 hold unchanged. *)
Theorem pool_handlers_project maxw n tts clock idle code tr st :
  steps (re_step idle code) (re_init maxw n tts clock) tr st ->
  exists tr', steps (p_step idle) (p_init maxw n tts clock) tr' st.1 /\ filter visible tr' = filter visible tr.
Proof. intros H. exact (re_steps idle code _ _ _ H). Qed.
Print Assumptions pool_handlers_project.

(** A handler that calls Run of its own pool, any number of times and choosing by
    the results, never waits for anybody: from every state it is in, it can go on to
    its end while all other goroutines stand still. *)
Theorem pool_handler_runs maxw n tts clock idle code st t : 0 < maxw -> (forall t, only_run (code t)) ->
  reach (re_init maxw n tts clock) (re_step idle code) st -> st.2 t <> HNo ->
  exists tr st', steps (re_step idle code) st tr st' /\ st'.2 t = HNo /\
    (forall t', t' <> t -> st'.2 t' = st.2 t') /\ p_col st'.1 = p_col st.1 /\ (forall u, p_st st'.1 u = p_st st.1 u) /\
    forall g, (g < p_ng st.1)%nat -> (forall w c, p_gor st.1 g <> GHandle w c t) -> p_gor st'.1 g = p_gor st.1 g.
Proof.
  intros Hm HC R Ht. pose proof (only_run_reach idle code maxw n tts clock st HC R t) as O.
  destruct (st.2 t) as [|p|t' k|u k] eqn:E; [congruence| | |destruct O].
  - destruct (at_goes_on idle code maxw n tts clock Hm p O st t R E) as (tr & st' & T & (A1 & A2 & A3 & A4 & A5 & A6) & N).
    exists tr, st'. auto 10.
  - destruct (ran_goes_on idle code maxw n tts clock Hm st t t' k R E) as (tr1 & st1 & ok & T1 & B1 & E1).
    destruct (at_goes_on idle code maxw n tts clock Hm (k ok) (O ok) st1 t (rreach_more _ _ _ _ _ _ _ _ _ R T1) E1) as (tr2 & st2 & T2 & B2 & N).
    destruct (alone_trans _ _ _ _ B1 B2) as (A1 & A2 & A3 & A4 & A5 & A6).
    exists (tr1 ++ tr2), st2. split; [eapply steps_app; eassumption|]. auto 10.
Qed.
Print Assumptions pool_handler_runs.
(** an execution: job 0 is handed to a handler that runs another job *)
Definition run_one (t : nat) : hprog := if decide (t = 0)%nat then HRun (fun _ => HEnd) else HEnd.
Example run_one_ex : (forall t, only_run (run_one t)) /\
  exists st, reach (re_init 1 1 (fun _ => 0) 0) (re_step 10 run_one) st /\ st.2 0%nat = HInRun 1 (fun _ => HEnd).
Proof.
  split. { intros t. unfold run_one. case_decide; cbn; auto. }
  eexists. split.
  - eexists. eapply steps_cons; [eapply re_pool; [|apply (ps_call 10 _ 0)]; reflexivity|].
    eapply steps_cons; [eapply re_pool; [|apply (ps_pop 10 _ 0 [] 0)]; (reflexivity || discriminate)|].
    eapply steps_cons; [eapply re_pool; [|apply (ps_send 10 _ 0 0 0)]; reflexivity|].
    eapply steps_cons; [eapply re_pool; [|apply (ps_start 10 _ 0 0 0)]; reflexivity|].
    eapply steps_cons; [eapply re_begin; apply (ps_recv 10 _ 0 0 0 0); reflexivity|].
    eapply steps_cons; [eapply (re_run 10 run_one _ _ 0 1); [reflexivity|apply ps_call; reflexivity]|]. constructor.
  - reflexivity.
Qed.

(** Stop from inside a handler: when no other call of Stop is under way it can be
    carried through, with the pool stopped. *)
Theorem pool_handler_stop_partial maxw n tts clock idle code st t k : 0 < maxw ->
  reach (re_init maxw n tts clock) (re_step idle code) st -> st.2 t = HAt (HStop k) ->
  (forall u, p_st st.1 u = SIdle \/ p_st st.1 u = SDone) ->
  exists tr st', steps (re_step idle code) st tr st' /\ st'.2 t = HAt k /\ (forall t', t' <> t -> st'.2 t' = st.2 t') /\ p_max st'.1 = -1.
Proof.
  intros Hm R Ht NB. apply (stop_goes_on idle code maxw n tts clock Hm st t k R Ht). intros u [N1 N2]. destruct (NB u); congruence.
Qed.
Print Assumptions pool_handler_stop_partial.

(** It is not true that a handler may always stop its pool: of two that do, one waits
    for ever inside Stop, and its job never ends. *)
Definition both_stop (t : nat) : hprog := HStop HEnd.
Theorem pool_handler_stop_refuted : exists st, reach (re_init 2 2 (fun _ => 0) 0) (re_step 10 both_stop) st /\
  forall tr st', steps (re_step 10 both_stop) st tr st' -> st'.2 1%nat = HInStop 1 HEnd /\ LEnd 1 ∉ tr.
Proof.
  eexists. split.
  - eexists. eapply steps_cons; [eapply re_pool; [|apply (ps_call 10 _ 0)]; reflexivity|]; cbn -[tset].
    eapply steps_cons; [eapply re_pool; [|apply (ps_pop 10 _ 0 [0%nat] 1)]; (reflexivity || discriminate)|]; cbn -[tset].
    eapply steps_cons; [eapply re_pool; [|apply (ps_send 10 _ 0 1 1)]; reflexivity|]; cbn -[tset].
    eapply steps_cons; [eapply re_pool; [|apply (ps_call 10 _ 1)]; reflexivity|]; cbn -[tset].
    eapply steps_cons; [eapply re_pool; [|apply (ps_pop 10 _ 1 [] 0)]; (reflexivity || discriminate)|]; cbn -[tset].
    eapply steps_cons; [eapply re_pool; [|apply (ps_send 10 _ 1 0 0)]; reflexivity|]; cbn -[tset].
    eapply steps_cons; [eapply re_pool; [|apply (ps_start 10 _ 0 0 0)]; reflexivity|]; cbn -[tset].
    eapply steps_cons; [eapply re_pool; [|apply (ps_start 10 _ 1 1 1)]; reflexivity|]; cbn -[tset].
    eapply steps_cons; [eapply re_begin; apply (ps_recv 10 _ 1 1 1 0); reflexivity|]; cbn -[tset].
    eapply steps_cons; [eapply re_begin; apply (ps_recv 10 _ 0 0 0 1); reflexivity|]; cbn -[tset].
    eapply steps_cons; [eapply (re_stop 10 both_stop _ _ 0 0); [reflexivity|apply ps_stop_call; reflexivity]|]; cbn -[tset].
    eapply steps_cons; [eapply (re_stop 10 both_stop _ _ 1 1); [reflexivity|apply ps_stop_call; reflexivity]|]; cbn -[tset].
    eapply steps_cons; [eapply re_pool; [|apply (ps_stop_again 10 _ 0)]; reflexivity|]; cbn -[tset].
    eapply steps_cons; [eapply re_pool; [|apply (ps_stop_again 10 _ 1)]; reflexivity|]; cbn -[tset].
    eapply steps_cons; [eapply re_pool; [|apply (ps_meet 10 _ 0)]; reflexivity|]; cbn -[tset].
    eapply steps_cons; [eapply re_pool; [|apply (ps_stop 10); [reflexivity|split; [constructor|intros w Hw; inversion Hw]]]; reflexivity|].
    constructor.
  - intros tr st'. match goal with |- steps _ ?st0 _ _ -> _ => set (s0 := st0) end. intros H.
    set (inv := fun st' : rstate => p_col st'.1 = CDead /\ p_st st'.1 1%nat = SSend /\ (forall c, p_buf st'.1 c <> Some 1%nat) /\ p_job st'.1 1%nat = JRet true).
    enough (K : LEnd 1 ∉ tr /\ st'.2 1%nat = HInStop 1 HEnd /\ inv st') by tauto.
    revert tr st' H. apply (steps_trace_invariant s0 _ (fun tr st' => LEnd 1 ∉ tr /\ st'.2 1%nat = HInStop 1 HEnd /\ inv st')).
    { split; [apply not_elem_of_nil|]. split; [reflexivity|]. split; [reflexivity|]. split; [reflexivity|]. split; [|reflexivity].
      intros c. subst s0. cbn -[tset]. ts; try discriminate. }
    intros ls st1 l st2 _ (N & I3 & I1 & I2 & I4 & I5) H.
    assert (P : l <> LEnd 1 /\ st2.2 1%nat = HInStop 1 HEnd /\ (st2.1 = st1.1 \/ p_step 10 st1.1 l st2.1)).
    { destruct H; cbn in *; (split; [|split]); auto; try discriminate;
        try (intros [= ->]; congruence);
        try (destruct (decide (1%nat = t)) as [<-|]; [|rewrite tset_ne by assumption; exact I3]); try congruence.
      - intros ->. discriminate.
      - exfalso. inversion H; subst. eapply I4; eassumption. }
    destruct P as (P1 & P2 & P3). split; [|split; [exact P2|]].
    + intros X. apply elem_of_app in X as [X|X]; [auto|]. apply elem_of_list_singleton in X. congruence.
    + destruct P3 as [E|P3]; [unfold inv; rewrite E; auto|]. clear -I1 I2 I4 I5 P3. unfold inv.
      assert (K : forall a, p_job st1.1 a = JLock \/ p_job st1.1 a = JIdle \/ (exists w, p_job st1.1 a = JSend w) -> a <> 1%nat).
      { intros a Ha ->. rewrite I5 in Ha. destruct Ha as [Ha|[Ha|[w Ha]]]; discriminate. }
      assert (KU : forall u, p_st st1.1 u <> SSend -> u <> 1%nat) by (intros u Hu ->; exact (Hu I2)).
      destruct P3; cbn in *; try congruence.
      all: try (match goal with H : p_job _ ?t = _ |- _ => assert (t <> 1%nat) by (apply K; rewrite H; eauto) end).
      all: try (match goal with H : p_st _ ?t = _ |- _ => assert (t <> 1%nat) by (apply KU; rewrite H; discriminate) end).
      all: (split; [exact I1 || reflexivity|]); (split; [rewrite ?tset_ne by congruence; exact I2|]);
        (split; [|rewrite ?tset_ne by congruence; exact I5]); try exact I4.
      all: intros c'; destruct (decide (c' = c)) as [->|]; [rewrite tset_eq; congruence|rewrite tset_ne by assumption; apply I4].
Qed.
Print Assumptions pool_handler_stop_refuted.
