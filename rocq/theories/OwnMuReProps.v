(** lazyx and closex whose own code uses them again, with the code of sync.Mutex: what
    hangs with a mutex that has an owner or none hangs there too. *)
From Verif Require Import Base Conc MutexModel MutexProofs MutexProps OwnMuModel OwnMuProps LazyReModel LazyReProps CloseConcModel CloseConcProps.

Section compose.
Context {S L : Type} (step : S -> L -> S -> Prop) (own : S -> option nat) (forget : S -> S) (init : S) (H0 : own init = None).
Context (HF : forall s, own s = None -> forget s = s).
(** *** Also from a state in the middle of an execution *)
Lemma own_step N ls c l c' : steps (ow_step step own forget N) (init, mx_new) ls c -> ow_step step own forget N c l c' ->
  match l with inl l => step (fst c) l (fst c') | inr _ => fst c' = fst c end.
Proof using H0 HF.
  intros HS H. destruct (own_over0 step own forget init H0 HF N ls c HS) as (_ & (ms & Im) & Il).
  destruct H as [s m l s' HS' E|s m t m' HM E1 E2|s m t m' l s' HM E1 E2 HS' E|s m t m' l s' E1 E2 HM HS' E]; cbn [fst snd] in *; try assumption; [reflexivity|].
  rewrite HF in HS'; [exact HS'|].
  assert (Im' : steps (mx_step N) mx_new (ms ++ [t]) m') by (econstructor; eassumption).
  destruct (own s) as [u|] eqn:W; [exfalso|reflexivity]. pose proof (proj1 (Il u) eq_refl) as Hu. destruct (decide (u = t)) as [->|Ne]; [congruence|].
  apply Ne. apply (mutex_exclusion N _ m' u t Im'); [rewrite (mx_other _ _ _ _ _ HM Ne); exact Hu|exact E2].
Qed.
Lemma own_suffix0 N ls c ls' c' : steps (ow_step step own forget N) (init, mx_new) ls c -> steps (ow_step step own forget N) c ls' c' ->
  steps step (fst c) (o_proj ls') (fst c').
Proof using H0 HF.
  intros H1 H2. induction H2 as [c|c ls' c1 l c2 HS IH Hst]; [constructor|]. specialize (IH H1).
  pose proof (own_step N _ _ _ _ (steps_app _ _ _ _ _ _ H1 HS) Hst) as K. destruct l as [l|u].
  - rewrite oproj_l. econstructor; eassumption.
  - rewrite oproj_r, K. exact IH.
Qed.
Lemma own_suffix N ls s m ls' s' m' : steps (ow_step step own forget N) (init, mx_new) ls (s, m) -> steps (ow_step step own forget N) (s, m) ls' (s', m') ->
  steps step init (o_proj ls) s /\ steps step s (o_proj ls') s' /\ (forall t, own s' = Some t <-> x_pc m' t = XHold).
Proof using H0 HF.
  intros H1 H2. split; [apply (own_over_mutex step own forget init H0 HF N ls s m H1)|]. split; [exact (own_suffix0 N _ _ _ _ H1 H2)|].
  exact (proj2 (proj2 (own_over0 step own forget init H0 HF N _ _ (steps_app _ _ _ _ _ _ H1 H2)))).
Qed.
End compose.

(** *** lazyx *)
(** lazy.go 17-23: what Get looks like when the mutex of its Once is free *)
Definition r_forget {A} (s : rstate A) : rstate A := RS (r_done s) None (r_value s) (r_calls s) (r_th s).
Lemma r_forget_none {A} (s : rstate A) : r_mutex s = None -> r_forget s = s.
Proof. destruct s. cbn. intros ->. reflexivity. Qed.
(** C194: a constructor that calls Get of its own Lazy never gets an answer from the code
    of sync.Mutex; it has the mutex for ever, and no Get of this Lazy returns or panics *)
Theorem lazy_over_mutex_reentrant_hangs :
  forall (A : Type) (zero : A) (ctor : nat -> lcode A) N ls s m t k ls' s' m',
    steps (ow_step (r_step ctor) r_mutex r_forget N) (r_new zero, mx_new) ls (s, m) -> r_th s t = RThr (RRun (LCGet k)) [] ->
    steps (ow_step (r_step ctor) r_mutex r_forget N) (s, m) ls' (s', m') ->
    at_get k (r_th s' t) /\ x_pc m' t = XHold /\ r_calls s' = r_calls s /\ forall u v, r_pc (r_th s' u) <> RRet v /\ r_pc (r_th s' u) <> RPanicked.
Proof.
  intros A zero ctor N ls s m t k ls' s' m' H1 HT H2.
  destruct (own_suffix (r_step ctor) r_mutex r_forget (r_new zero) eq_refl r_forget_none N _ _ _ _ _ _ H1 H2) as (K1 & K2 & K3).
  assert (HR : reach (r_new zero) (r_step ctor) s) by (eexists; exact K1).
  destruct (lazy_reentrant_hangs zero ctor s _ s' t k HR HT K2) as (E1 & E2 & E3). split; [exact E1|]. split; [|auto].
  apply K3. assert (HK : rinv s') by (eapply (rinv_steps zero); [eapply rinv_reach; exact HR|exact K2]). specialize (HK t). unfold tok in HK. destruct E1 as [E|[E|E]]; rewrite E in HK; cbn in HK; tauto.
Qed.
(** C194: if the first call of the constructor calls Get, no Get of this Lazy ever returns
    or panics *)
Theorem lazy_over_mutex_reentrant_never :
  forall (A : Type) (zero : A) (ctor : nat -> lcode A) N ls s m k t v,
    ctor 0 = LCGet k -> steps (ow_step (r_step ctor) r_mutex r_forget N) (r_new zero, mx_new) ls (s, m) -> r_pc (r_th s t) <> RRet v /\ r_pc (r_th s t) <> RPanicked.
Proof.
  intros A zero ctor N ls s m k t v HC H1. apply (lazy_reentrant_never zero ctor s k t v HC).
  eexists. exact (proj1 (own_over_mutex (r_step ctor) r_mutex r_forget (r_new zero) eq_refl r_forget_none N _ _ _ H1)).
Qed.

(** *** closex *)
(** C194: a closer that calls Append or Close of the manager that is closing it waits for
    ever in the code of sync.Mutex, and so does whoever calls the manager *)
Theorem close_over_mutex_reentrant_hangs :
  forall (E : Type) (closer main : nat -> qcode E) N ls s m t c fr ls' s' m',
    steps (ow_step (q_step closer) q_mutex q_forget N) (q_init main, mx_new) ls (s, m) -> q_th s t = QThr (QRun c) fr -> fr <> [] -> q_call c = true ->
    steps (ow_step (q_step closer) q_mutex q_forget N) (s, m) ls' (s', m') ->
    omap id (o_proj ls') = [] /\ q_list s' = q_list s /\ q_th s' t = QThr (QRun c) fr /\ x_pc m' t = XHold /\
    forall u c' fr', q_th s u = QThr (QRun c') fr' -> q_call c' = true -> q_th s' u = QThr (QRun c') fr'.
Proof.
  intros E closer main N ls s m t c fr ls' s' m' H1 HT HN HC H2.
  destruct (own_suffix (q_step closer) q_mutex q_forget (q_init main) eq_refl q_forget_none N _ _ _ _ _ _ H1 H2) as (K1 & K2 & K3).
  assert (HR : reach (q_init main) (q_step closer) s) by (eexists; exact K1).
  destruct (close_reentrant_hangs closer main s _ s' t c fr HR HT HN HC K2) as (E1 & E2 & E3 & E4). repeat split; auto.
  apply K3. assert (HK : qinv s') by (eapply (qinv_steps closer main); [eapply qinv_reach; exact HR|exact K2]). specialize (HK t). rewrite E3 in HK. unfold qok in HK. cbn in HK. destruct fr as [|g [|]]; [done|tauto|tauto].
Qed.
Print Assumptions lazy_over_mutex_reentrant_hangs.
Print Assumptions lazy_over_mutex_reentrant_never.
Print Assumptions close_over_mutex_reentrant_hangs.

(** the hypotheses are met: the runs of lazy_reentrant_case and close_reentrant_case, with
    the steps of the mutex *)
Example lazy_over_mutex_reentrant_case : exists N ls s m, steps (ow_step (r_step (fun _ => LCGet (fun v => LCRet (v + 1)))) r_mutex r_forget N) (r_new 0, mx_new) ls (s, m) /\
  r_th s 0 = RThr (RRun (LCGet (fun v => LCRet (v + 1)))) [] /\ x_pc m 0 = XHold.
Proof.
  destruct lazy_reentrant_case as (s & _ & _ & [ls HS] & E & _).
  destruct (own_with_mutex (r_step (fun _ => LCGet (fun v => LCRet (v + 1)))) r_mutex r_forget (r_new 0) eq_refl r_forget_none) with (ls := ls) (s := s) as (N & ls' & m & A & B).
  - intros s1 l s2 H. destruct H; cbn; auto.
  - exact HS.
  - exists N, ls', s, m. split; [exact A|]. split; [exact E|]. exact (proj1 (proj2 (lazy_over_mutex_reentrant_hangs _ _ _ N _ _ _ 0 _ [] _ _ A E (steps_nil _ _)))).
Qed.
Example close_over_mutex_reentrant_case : exists N ls s m fr, steps (ow_step (q_step qcloser) q_mutex q_forget N) (q_init qmain, mx_new) ls (s, m) /\
  q_th s 1 = QThr (QRun (QAppend 0 (QRet None))) fr /\ fr <> [] /\ exists k, q_th s 0 = QThr (QRun (QClose k)) [].
Proof.
  destruct close_reentrant_case as (s & fr & [ls HS] & E1 & E2 & E3). destruct (close_with_mutex _ _ _ _ _ HS) as (N & ls' & m & A & B). exists N, ls', s, m, fr. auto.
Qed.
