(** lazyx and closex with the code of sync.Mutex in place of a mutex that has an owner or none. *)
From Verif Require Import Base Conc MutexModel MutexProofs MutexProps OwnMuModel LazyModel LazyProofs LazyProps CloseConcModel CloseConcProps.

Section compose.
Context {S L : Type} (step : S -> L -> S -> Prop) (own : S -> option nat) (forget : S -> S) (init : S) (H0 : own init = None).
Context (HF : forall s, own s = None -> forget s = s).

Lemma oproj_l (ls : list (L + nat)) (l : L) : o_proj (ls ++ [inl l]) = o_proj ls ++ [l].
Proof using. unfold o_proj. rewrite omap_app. reflexivity. Qed.
Lemma oproj_r (ls : list (L + nat)) (t : nat) : o_proj (ls ++ [inr t]) = o_proj ls.
Proof using. unfold o_proj. rewrite omap_app. cbn. apply app_nil_r. Qed.
Lemma mx_other N m t m' u : mx_step N m t m' -> u <> t -> x_pc m' u = x_pc m u.
Proof using. intros H Hu. destruct H; cbn; try rewrite tset_ne by exact Hu; reflexivity. Qed.
Lemma mx_leaves N m t m' : mxinv N m -> mx_step N m t m' -> x_pc m t = XHold -> x_pc m' t <> XHold.
Proof using.
  intros IM H E. pose proof (mv_b _ _ (mxinv_step N m t m' IM H)) as BB.
  destruct H; cbn in *; try congruence. rewrite tset_eq. unfold unlock_next, free_next. repeat case_match; discriminate.
Qed.
(** *** What the program does with the mutex it does with an owner; the owner is who has the mutex *)
Lemma own_over0 N ls c : steps (ow_step step own forget N) (init, mx_new) ls c ->
  steps step init (o_proj ls) (fst c) /\ (exists ms, steps (mx_step N) mx_new ms (snd c)) /\ forall t, own (fst c) = Some t <-> x_pc (snd c) t = XHold.
Proof using H0 HF.
  intros H. revert ls c H. apply (steps_trace_invariant (init, mx_new) (ow_step step own forget N) (fun ls c => steps step init (o_proj ls) (fst c) /\ (exists ms, steps (mx_step N) mx_new ms (snd c)) /\ forall t, own (fst c) = Some t <-> x_pc (snd c) t = XHold)).
  - cbn. rewrite H0. split; [constructor|]. split; [exists []; constructor|]. intros t. split; discriminate.
  - intros ls c l c' _ (Is & (ms & Im) & Il) H. destruct H as [s m l s' HS E|s m t m' HM E1 E2|s m t m' l s' HM E1 E2 HS E|s m t m' l s' E1 E2 HM HS E]; cbn [fst snd] in *.
    + rewrite oproj_l. split; [econstructor; eassumption|]. split; [eauto|]. rewrite E. exact Il.
    + rewrite oproj_r. split; [exact Is|]. split; [eexists; econstructor; eassumption|]. intros u. rewrite Il. destruct (decide (u = t)) as [->|Ne]; [tauto|]. rewrite (mx_other _ _ _ _ _ HM Ne). reflexivity.
    + assert (Im' : steps (mx_step N) mx_new (ms ++ [t]) m') by (econstructor; eassumption).
      assert (W : own s = None).
      { destruct (own s) as [u|] eqn:W; [exfalso|reflexivity]. pose proof (proj1 (Il u) eq_refl) as Hu. destruct (decide (u = t)) as [->|Ne]; [congruence|].
        apply Ne. apply (mutex_exclusion N _ m' u t Im'); [rewrite (mx_other _ _ _ _ _ HM Ne); exact Hu|exact E2]. }
      rewrite HF in HS by exact W. rewrite oproj_l. split; [econstructor; eassumption|]. split; [eauto|]. intros u. rewrite E. destruct (decide (u = t)) as [->|Ne]; [tauto|].
      rewrite (mx_other _ _ _ _ _ HM Ne). rewrite <- Il, W. split; congruence.
    + rewrite oproj_l. split; [econstructor; eassumption|]. split; [eexists; econstructor; eassumption|]. intros u. rewrite E. destruct (decide (u = t)) as [->|Ne].
      * split; [discriminate|]. intros Q. destruct (mx_leaves N m t m' (mx_inv N _ _ Im) HM E2 Q).
      * rewrite (mx_other _ _ _ _ _ HM Ne). rewrite <- Il, E1. split; congruence.
Qed.
Lemma own_over_mutex N ls s m : steps (ow_step step own forget N) (init, mx_new) ls (s, m) ->
  steps step init (o_proj ls) s /\ (exists ms, steps (mx_step N) mx_new ms m) /\ forall t, own s = Some t <-> x_pc m t = XHold.
Proof using H0 HF. apply own_over0. Qed.
(** *** And what it does with an owner it can do with the mutex *)
Lemma mx_mono N N' m t m' : N <= N' -> mx_step N m t m' -> mx_step N' m t m'.
Proof using. intros LE H. destruct H; try (econstructor; eassumption). constructor; [lia|assumption]. Qed.
Lemma o_mono N N' c l c' : N <= N' -> ow_step step own forget N c l c' -> ow_step step own forget N' c l c'.
Proof using. intros L0 H. destruct H; [econstructor 1|econstructor 2|econstructor 3|econstructor 4]; eauto using mx_mono. Qed.
Lemma os_mono N N' c ls c' : N <= N' -> steps (ow_step step own forget N) c ls c' -> steps (ow_step step own forget N') c ls c'.
Proof using. intros L0 H. induction H; [constructor|econstructor; eauto using o_mono]. Qed.
Context (HC : forall s l s', step s l s' -> own s' = own s \/ own s' = None \/ own s = None).
Definition at_rest (m : mxstate) (o : option nat) : Prop :=
  x_sema m = 0%Z /\ x_bad m = false /\ match o with None => x_w m = mw0 /\ forall t, x_pc m t = XIdle | Some u => x_w m = MW true false false 0 /\ x_pc m u = XHold /\ forall t, t <> u -> x_pc m t = XIdle end.
Lemma own_with_mutex ls s : steps step init ls s -> exists N ls' m, steps (ow_step step own forget N) (init, mx_new) ls' (s, m) /\ o_proj ls' = ls.
Proof using H0 HF HC.
  intros HS. cut (exists N ls' m, steps (ow_step step own forget N) (init, mx_new) ls' (s, m) /\ o_proj ls' = ls /\ at_rest m (own s)); [intros (N & ls' & m & A & B & _); eauto|].
  remember init as s0 eqn:E0. revert E0. induction HS as [s|s ls s1 l s2 HS IH Hst]; intros ->.
  - exists 0, [], mx_new. split; [constructor|]. split; [reflexivity|]. rewrite H0. cbn. repeat split.
  - destruct (IH H0 eq_refl) as (N & ls' & m & A & B & C). destruct m as [w a b pc]. unfold at_rest in C. cbn in C.
    assert (D : own s2 = own s1 \/ (own s2 = None /\ exists t, own s1 = Some t) \/ (own s1 = None /\ exists t, own s2 = Some t)).
    { destruct (own s2) as [t|] eqn:E2, (own s1) as [u|] eqn:E1; eauto 6. destruct (HC _ _ _ Hst) as [Q|[Q|Q]]; rewrite ?E1, ?E2 in Q; try discriminate. auto. }
    destruct D as [D|[(D & t & Et)|(D & t & Et)]].
    + exists N, (ls' ++ [inl l]), (MX w a b pc). split; [econstructor; [exact A|apply om_other; assumption]|]. rewrite oproj_l, B. split; [reflexivity|]. rewrite D. exact C.
    + rewrite Et in C. destruct C as (-> & -> & -> & C1 & C2). exists N, (ls' ++ [inl l]), (MX mw0 0 false (tset pc t XIdle)). split; [econstructor; [exact A|]|].
      * eapply (om_give step own forget N s1 _ t); [exact Et|exact C1| |exact Hst|exact D]. apply (mx_unlock N (MW true false false 0) mw0 _ _ _ t C1 eq_refl). reflexivity.
      * rewrite oproj_l, B. split; [reflexivity|]. rewrite D. unfold at_rest; cbn -[tset]; repeat split. intros u. destruct (tset_cases pc t XIdle u) as [[_ ->]|[Ne ->]]; auto.
    + rewrite D in C. destruct C as (-> & -> & -> & C2). exists (Nat.max N (1 + t)), ((ls' ++ [inr t]) ++ [inl l]), (MX (MW true false false 0) 0 false (tset (tset pc t XFast) t XHold)). split; [econstructor; [econstructor|]|].
      * eapply os_mono; [|exact A]. lia.
      * eapply (om_inside step own forget _ s1 _ t); [apply mx_lock; [lia|apply C2]|cbn; rewrite C2; discriminate|cbn; rewrite tset_eq; discriminate].
      * eapply (om_take step own forget _ s1 _ t); [apply mx_fast, tset_eq|cbn; rewrite tset_eq; discriminate|cbn; apply tset_eq|rewrite HF by exact D; exact Hst|exact Et].
      * rewrite oproj_l, oproj_r, B. split; [reflexivity|]. rewrite Et. unfold at_rest; cbn -[tset]; repeat split; [apply tset_eq|]. intros u Hu. rewrite !tset_ne by auto. apply C2.
Qed.
End compose.

(** *** lazyx *)
Definition l_forget {A} (s : lstate A) : lstate A := LS (l_done s) None (l_value s) (l_calls s) (l_th s).
Lemma l_forget_none {A} (s : lstate A) : l_mutex s = None -> l_forget s = s.
Proof. destruct s. cbn. intros ->. reflexivity. Qed.
Theorem lazy_over_mutex :
  forall (A : Type) (zero : A) (ctor : nat -> res A) N ls s m, steps (ow_step (l_step ctor) l_mutex l_forget N) (l_new zero, mx_new) ls (s, m) ->
    reach (l_new zero) (l_step ctor) s /\ (forall t, l_mutex s = Some t <-> x_pc m t = XHold) /\ x_bad m = false /\
    (forall v, ctor 0 = Ret v -> l_calls s <= 1 /\ (forall t x, l_th s t = LRet x -> x = v /\ l_done s = true /\ l_calls s = 1) /\ forall t, l_th s t <> LPanicked) /\
    (forall t u n x, l_th s t = LRead -> l_th s u <> LRun n /\ l_th s u <> LAssign x).
Proof.
  intros A zero ctor N ls s m HS. destruct (own_over_mutex (l_step ctor) l_mutex l_forget (l_new zero) eq_refl l_forget_none N ls s m HS) as (Is & (ms & Im) & Il).
  assert (R : reach (l_new zero) (l_step ctor) s) by (eexists; exact Is). split; [exact R|]. split; [exact Il|]. split; [eapply mutex_never_aborts; exact Im|]. split.
  - intros v Hv. apply (lazy_once A zero ctor v Hv s R).
  - intros t u n x. apply (lazy_no_race A zero ctor s t u n x R).
Qed.
Theorem lazy_with_mutex :
  forall (A : Type) (zero : A) (ctor : nat -> res A) ls s, steps (l_step ctor) (l_new zero) ls s ->
    exists N ls' m, steps (ow_step (l_step ctor) l_mutex l_forget N) (l_new zero, mx_new) ls' (s, m) /\ o_proj ls' = ls.
Proof.
  intros A zero ctor ls s. apply own_with_mutex; [reflexivity|apply l_forget_none|]. intros s1 l s2 H. destruct H; cbn; auto.
Qed.
Print Assumptions lazy_over_mutex.
Print Assumptions lazy_with_mutex.

(** *** closex *)
Definition q_forget {E} (s : qstate E) : qstate E := QS (q_list s) None (q_th s).
Lemma q_forget_none {E} (s : qstate E) : q_mutex s = None -> q_forget s = s.
Proof. destruct s. cbn. intros ->. reflexivity. Qed.
Theorem close_over_mutex :
  forall (E : Type) (closer main : nat -> qcode E) N ls s m, steps (ow_step (q_step closer) q_mutex q_forget N) (q_init main, mx_new) ls (s, m) ->
    steps (q_step closer) (q_init main) (o_proj ls) s /\ (forall t, q_mutex s = Some t <-> x_pc m t = XHold) /\ x_bad m = false /\
    let evs := omap id (o_proj ls) in q_list s = appended evs /\
    forall pre t errs post, evs = pre ++ QvEnd t errs :: post ->
      exists pre' es, pre = pre' ++ QvBegin t :: closings t (appended pre') es /\ length es = length (appended pre') /\ errs = concat (option_list <$> es).
Proof.
  intros E closer main N ls s m HS. destruct (own_over_mutex (q_step closer) q_mutex q_forget (q_init main) eq_refl q_forget_none N ls s m HS) as (Is & (ms & Im) & Il).
  split; [exact Is|]. split; [exact Il|]. split; [eapply mutex_never_aborts; exact Im|]. split.
  - eapply close_conc_list. exact Is.
  - intros pre t errs post He. eapply close_conc_all; [exact Is|exact He].
Qed.
Theorem close_with_mutex :
  forall (E : Type) (closer main : nat -> qcode E) ls s, steps (q_step closer) (q_init main) ls s ->
    exists N ls' m, steps (ow_step (q_step closer) q_mutex q_forget N) (q_init main, mx_new) ls' (s, m) /\ o_proj ls' = ls.
Proof.
  intros E closer main ls s. apply own_with_mutex; [reflexivity|apply q_forget_none|]. intros s1 l s2 H. destruct H; cbn; auto.
Qed.
Print Assumptions close_over_mutex.
Print Assumptions close_with_mutex.

Local Tactic Notation "own" uconstr(c) := eapply steps_cons; [eapply om_other; [eapply c; (reflexivity || auto)|reflexivity]|]; cbn.
Local Tactic Notation "ins" constr(t) uconstr(c) := eapply steps_cons; [eapply (om_inside _ _ _ _ _ _ t); [eapply c; (reflexivity || (cbn; discriminate) || lia || auto)|cbn; discriminate|cbn; discriminate]|]; cbn.
(** two goroutines call Get; the second waits for the mutex in the semaphore while the first runs the constructor *)
Example lazy_over_mutex_case : exists ls s m, steps (ow_step (l_step (fun _ => Ret 7)) l_mutex l_forget 2) (l_new 0, mx_new) ls (s, m) /\ l_th s 1 = LRet 7 /\ l_calls s = 1 /\ In (inr 1) ls.
Proof.
  eexists _, _, _. split; [|split; [|split]].
  - unfold l_new, mx_new. own (ls_call _ _ _ _ _ _ 0). own (ls_load _ _ _ _ _ _ 0). ins 0 (mx_lock 2 _ _ _ _ 0).
    eapply steps_cons; [eapply (om_take _ _ _ _ _ _ 0); [eapply mx_fast; reflexivity|cbn; discriminate|reflexivity|eapply (ls_lock _ _ _ _ _ 0); reflexivity|reflexivity]|]. cbn.
    own (ls_call _ _ _ _ _ _ 1). own (ls_load _ _ _ _ _ _ 1). ins 1 (mx_lock 2 _ _ _ _ 1). ins 1 (mx_slow 2 _ _ _ _ 1). ins 1 (mx_load 2 _ _ _ _ 1). ins 1 (mx_cas 2 _ _ _ _ 1).
    own (ls_check_run _ _ _ _ _ 0). own (ls_ctor_ret _ _ _ _ _ _ 0). own (ls_assign _ _ _ _ _ _ 0). own (ls_set_done _ _ _ _ _ _ 0).
    eapply steps_cons; [eapply (om_give _ _ _ _ _ _ 0); [reflexivity|reflexivity|eapply (mx_unlock _ _ (MW false false false 1)); reflexivity|eapply (ls_unlock _ _ _ _ _ _ 0); reflexivity|reflexivity]|]. cbn.
    ins 0 (mx_free 2 _ _ _ _ 0). ins 0 (mx_rel 2 _ _ _ _ 0).
    eapply steps_cons; [eapply (om_inside _ _ _ _ _ _ 1); [eapply (mx_sem _ _ _ _ _ 1 _ false); [reflexivity|lia|auto]|cbn; discriminate|cbn; discriminate]|]. cbn.
    ins 1 (mx_woke 2 _ _ _ _ 1).
    eapply steps_cons; [eapply (om_take _ _ _ _ _ _ 1); [eapply mx_cas; [reflexivity|auto]|cbn; discriminate|reflexivity|eapply (ls_lock _ _ _ _ _ 1); reflexivity|reflexivity]|]. cbn.
    own (ls_check_done _ _ _ _ _ 1).
    eapply steps_cons; [eapply (om_give _ _ _ _ _ _ 1); [reflexivity|reflexivity|eapply (mx_unlock _ _ (MW false false false 0)); reflexivity|eapply (ls_unlock _ _ _ _ _ _ 1); reflexivity|reflexivity]|]. cbn.
    own (ls_read _ _ _ _ _ _ 1). apply steps_nil.
  - reflexivity.
  - reflexivity.
  - cbn. tauto.
Qed.
Example close_over_mutex_case : exists N ls s m, steps (ow_step (q_step qcloser) q_mutex q_forget N) (q_init qmain, mx_new) ls (s, m) /\ In (Some (QvEnd 0 [7; 7])) (o_proj ls).
Proof.
  destruct close_conc_case as (tr & s & HS & E). destruct (close_with_mutex _ _ _ _ _ HS) as (N & ls & m & A & B). exists N, ls, s, m. split; [exact A|]. rewrite B.
  assert (Q : In (QvEnd 0 [7; 7]) (omap id tr)) by (rewrite E; cbn; tauto). apply elem_of_list_In in Q. apply elem_of_list_omap in Q as (x & Hx & Q). unfold id in Q. subst x. apply elem_of_list_In. exact Hx.
Qed.
