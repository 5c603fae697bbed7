(** Properties of typex/convx under concurrency (C106, C107). *)
From Verif Require Import Base Conc ConvModel ConvProofs ConvConcModel ConvConcProofs.
Local Open Scope Z.

Section props.
Context {V : Type} (conv : nat -> V -> code V) (main : nat -> code V).
Notation events ls := (omap id ls).

(** C106: whatever the goroutines and the converters call, and however they interleave:
    the runtime never finds two goroutines in the maps, and every call answers according
    to the converter registered last for its pair of types, at one moment between call and
    return; for Into this is still so at the moment the converter returns *)
Theorem conv_conc_latest ls s : (forall f v, concrete (conv f v)) -> (forall t, concrete (main t)) -> steps (k_step conv) (k_init main) ls s ->
  k_crash s = false /\
  forall pre e post, events ls = pre ++ e :: post ->
    match e with
    | EvFind _ T R _ f => f = latest T R (rev pre)
    | EvInto _ T R _ v f r => latest T R (rev pre) = Some f
    | EvExists _ T R b => b = true <-> latest T R (rev pre) <> None
    | _ => True
    end.
Proof.
  intros HC HM HS. split; [apply i_crash, (inv_reach conv main); exists ls; exact HS|]. intros pre e post E.
  destruct (atomic conv main ls s HS) as [_ HA]. specialize (HA _ _ _ E). destruct (concrete_steps conv main ls s HC HM HS) as [_ HE]. rewrite E in HE.
  apply Forall_app in HE as [HE1 HE2]. apply Forall_cons in HE2 as [HE2 _]. destruct e; cbn [ev_ok concrete_ev] in *; try exact I.
  - destruct HE2 as (H1 & H2 & ->). rewrite HA. apply find_latest; assumption.
  - destruct HE2 as (H1 & H2 & ->). rewrite <- HA. symmetry. apply find_latest; assumption.
  - destruct HE2 as (H1 & H2). rewrite HA, exists_latest by assumption. destruct (latest T R (rev pre)); split; congruence.
Qed.
(** no data race: while one goroutine is between Lock and Unlock, no other is about to look
    up, is inside a converter, or is between Lock and Unlock *)
Theorem conv_conc_no_race s t u : reach (k_init main) (k_step conv) s -> t <> u ->
  match t_pc (k_th s t) with PWrite _ | PTorn _ | PUnlock _ => True | _ => False end ->
  t_in (k_th s u) = [] /\ match t_pc (k_th s u) with PRun _ => True | _ => False end.
Proof.
  intros HR Hu HT. pose proof (inv_reach conv main s HR) as HI.
  assert (EX : excl (t_pc (k_th s t)) = true) by (destruct (t_pc (k_th s t)); try contradiction; reflexivity).
  assert (WT : wr (t_pc (k_th s t)) = true) by (destruct (t_pc (k_th s t)); try contradiction; reflexivity).
  pose proof (i_held _ HI u) as HH. rewrite (i_excl _ HI t EX) in HH. cbn in HH. unfold held in HH.
  split; [destruct (t_in (k_th s u)); [reflexivity|cbn in HH; lia]|].
  destruct (t_pc (k_th s u)) eqn:E; try exact I; try (exfalso; lia).
  all: exfalso; apply Hu; apply (i_pend _ HI) in WT; assert (WU : wr (t_pc (k_th s u)) = true) by (rewrite E; reflexivity); apply (i_pend _ HI) in WU; congruence.
Qed.
(** interface types included: the calls answer as the same calls, made one at a time in the
    order of these moments, answer in the sequential model (C69, C70) *)
Theorem conv_conc_serial ls s : steps (k_step conv) (k_init main) ls s ->
  k_crash s = false /\ k_reg s = reg_after (events ls) /\
  forall pre e post, events ls = pre ++ e :: post ->
    match e with
    | EvFind _ T R d f => f = find_conv (reg_after pre) T R d
    | EvInto _ T R d v f r => find_conv (reg_after pre) T R d = Some f
    | EvExists _ T R b => b = exists_conv (reg_after pre) T R
    | _ => True
    end.
Proof.
  intros HS. split; [apply i_crash, (inv_reach conv main); exists ls; exact HS|]. destruct (atomic conv main ls s HS) as [H1 H2]. split; [exact H1|].
  intros pre e post E. specialize (H2 _ _ _ E). destruct e; exact H2.
Qed.
(** converters that only compute: Into answers the value of that converter *)
Theorem conv_conc_value g ls s t T R d v f r : (forall f v, conv f v = KRet (g f v)) -> steps (k_step conv) (k_init main) ls s ->
  EvInto t T R d v f r ∈ events ls -> r = g f v.
Proof. intros HC HS. apply (leaf_steps conv g main ls s HC HS). Qed.

(** what a goroutine does in between is its own code, given the answers of the events, and
    nothing else: [goes_on t x evs y] says that a goroutine t which is to run x runs, after the
    events evs, y; the code comes with the calls of Into whose converters it is inside of *)
Inductive goes_on (t : nat) (x : code V * list (frame V)) : list (kev V) -> code V * list (frame V) -> Prop :=
| go_nil : goes_on t x [] x
| go_exists evs T R k b fr : goes_on t x evs (KExists T R k, fr) -> goes_on t x (evs ++ [EvExists t T R b]) (k b, fr)
| go_miss evs T R d v k fr : goes_on t x evs (KInto T R d v k, fr) -> goes_on t x (evs ++ [EvFind t T R d None]) (k None, fr)
| go_hit evs T R d v k f fr : goes_on t x evs (KInto T R d v k, fr) -> goes_on t x (evs ++ [EvFind t T R d (Some f)]) (conv f v, Fr T R d v f k :: fr)
| go_into evs T R d v k f r fr : goes_on t x evs (KRet r, Fr T R d v f k :: fr) -> goes_on t x (evs ++ [EvInto t T R d v f r]) (k (Some r), fr)
| go_panic evs g fr : goes_on t x evs (KPanic, g :: fr) -> goes_on t x evs (KPanic, fr)
| go_register evs T R f k fr : goes_on t x evs (KRegister T R f k, fr) -> goes_on t x (evs ++ [EvRegister t T R f]) (k, fr)
| go_unregister evs T R k fr : goes_on t x evs (KUnregister T R k, fr) -> goes_on t x (evs ++ [EvUnregister t T R]) (k, fr).
(** whose event it is *)
Definition ev_of (e : kev V) : nat := match e with EvFind t _ _ _ _ | EvInto t _ _ _ _ _ _ | EvExists t _ _ _ | EvRegister t _ _ _ | EvUnregister t _ _ => t end.
Definition own (t : nat) (evs : list (kev V)) : list (kev V) := filter (fun e => ev_of e = t) evs.
(** the call it is making, or the code it is about to run *)
Definition to_run (x : thr V) : code V * list (frame V) :=
  (match t_pc x with PRun c | PRead c | PRel c | PWait c | PWrite c | PTorn c | PUnlock c => c end, t_in x).
Lemma own_app t evs evs' : own t (evs ++ evs') = own t evs ++ own t evs'.
Proof. apply filter_app. Qed.

(** C106: every call of every goroutine returns to it what the event says, and Register and
    Unregister change the entry they were given: each goroutine is where its own code is after
    its own events *)
Theorem conv_conc_answers ls s t : steps (k_step conv) (k_init main) ls s -> goes_on t (main t, []) (own t (omap id ls)) (to_run (k_th s t)).
Proof.
  revert ls s. apply (steps_trace_invariant (k_init main) (k_step conv) (fun ls s => goes_on t (main t, []) (own t (omap id ls)) (to_run (k_th s t)))).
  - apply go_nil.
  - intros ls s l s' _ IH HS. rewrite omap_app, own_app.
    destruct HS; cbn [k_th] in *; cbn -[tset]; rewrite ?filter_cons, ?filter_nil; cbn [ev_of];
      (destruct (decide (t0 = t)) as [->|Hne];
        [rewrite ?tset_eq; try (rewrite H in IH; cbn in IH; unfold to_run; cbn) | rewrite ?tset_ne by congruence; try rewrite app_nil_r; exact IH]).
    all: try (rewrite app_nil_r; exact IH).
    all: first [eapply go_exists; exact IH|eapply go_miss; exact IH|eapply go_hit; exact IH|eapply go_into; exact IH|rewrite app_nil_r; eapply go_panic; exact IH|eapply go_register; exact IH|eapply go_unregister; exact IH].
Qed.

(** C107: a converter that calls Register or Unregister never gets past that call,
    whatever the other goroutines do *)
Theorem conv_reentrant_write_hangs s ls s' t c fr : reach (k_init main) (k_step conv) s ->
  k_th s t = Thr (PRun c) fr -> fr <> [] -> is_write c = true -> steps (k_step conv) s ls s' ->
  k_th s' t = Thr (PRun c) fr \/ k_th s' t = Thr (PWait c) fr.
Proof. intros HR. apply reentrant_write. eapply inv_reach. exact HR. Qed.
(** once it has called Lock, or once any goroutine has called Lock while another is inside
    a converter that is about to call convx: the registry never changes again, and no
    goroutine that is about to call convx ever gets an answer *)
Theorem conv_deadlock_forever s ls s' w u : reach (k_init main) (k_step conv) s -> dead w u s -> steps (k_step conv) s ls s' ->
  k_reg s' = k_reg s /\ k_th s' w = k_th s w /\ k_th s' u = k_th s u /\
  forall t c fr, k_th s t = Thr (PRun c) fr -> is_call c = true -> k_th s' t = Thr (PRun c) fr.
Proof.
  intros HR HD HS. destruct (dead_forever conv w u s ls s' (inv_reach conv main s HR) HD HS) as (_ & H2 & H3 & H4 & H5). split; [exact H2|]. split; [exact H3|]. split; [exact H4|].
  intros t c fr Ht Hc. rewrite <- Ht. apply (H5 t c); [rewrite Ht; reflexivity|exact Hc].
Qed.
(** no deadlock as long as converters do not call convx: some goroutine can always go on
    until all are done *)
Theorem conv_no_deadlock_partial s t : (forall f v, exists r, conv f v = KRet r \/ conv f v = KPanic) ->
  reach (k_init main) (k_step conv) s -> ~ finished (k_th s t) -> exists l s', k_step conv s l s' /\ k_crash s' = false.
Proof.
  intros HC HR. apply progress_computing; [eapply inv_reach; exact HR|]. revert s HR. apply reach_invariant; [intros u h fs E; discriminate E|].
  intros s l s' H HS. eapply computing_step; eauto.
Qed.
(** and none from any moment on at which only calls of Into and Exists are left, by the
    goroutines and by the converters *)
Theorem conv_no_deadlock_readers s0 ls s t : (forall f v, reads_only (conv f v)) -> reach (k_init main) (k_step conv) s0 -> reading s0 ->
  steps (k_step conv) s0 ls s -> ~ finished (k_th s t) -> exists l s', k_step conv s l s' /\ k_crash s' = false.
Proof.
  intros HC HR RD HS. cut (inv s /\ reading s); [intros [H1 H2]; apply progress_reading; assumption|]. revert HS. apply (steps_invariant _ _ (fun s => inv s /\ reading s)).
  - split; [eapply inv_reach; exact HR|exact RD].
  - intros s1 l s2 [H1 H2] H3. split; [eapply inv_step; eauto|eapply reading_step; eauto].
Qed.
End props.
Print Assumptions conv_conc_latest.
Print Assumptions conv_conc_no_race.
Print Assumptions conv_conc_serial.
Print Assumptions conv_conc_value.
Print Assumptions conv_conc_answers.
Print Assumptions conv_reentrant_write_hangs.
Print Assumptions conv_deadlock_forever.
Print Assumptions conv_no_deadlock_partial.
Print Assumptions conv_no_deadlock_readers.

(** *** a program *)
Definition cA := GTy 0 false. Definition cB := GTy 1 false. Definition cC := GTy 2 false.
(** converter 0 goes through B, as in func(a A) C { return Into[B, C](B(a)) }; converter 1
    computes *)
Definition cconv (f : nat) (v : Z) : code Z :=
  match f with
  | 0%nat => KInto cB cC (Some cB) v (fun r => KRet (default 0 r))
  | _ => KRet (v + 1)
  end.
Definition cmain (t : nat) : code Z :=
  match t with
  | 0%nat => KRegister cA cC 0 (KRegister cB cC 1 (KInto cA cC (Some cA) 5 (fun r => KRet (default 0 r))))
  | 1%nat => KUnregister cA cB (KRet 0)
  | _ => KRet 0
  end.
(** a converter that registers another one *)
Definition wconv (f : nat) (v : Z) : code Z := match f with 0%nat => KRegister cB cC 1 (KRet v) | _ => KRet (v + 1) end.
Ltac announce_ t := eapply steps_cons; [eapply (ks_announce _ _ _ _ _ _ t); reflexivity|].
Ltac write_ t := announce_ t; eapply steps_cons; [eapply (ks_lock _ _ _ _ _ _ t); reflexivity|]; eapply steps_cons; [eapply (ks_write _ _ _ _ _ _ t); reflexivity|];
  eapply steps_cons; [first [eapply (ks_register _ _ _ _ _ _ _ t); reflexivity|eapply (ks_unregister _ _ _ _ _ _ _ t); reflexivity]|];
  eapply steps_cons; [eapply (ks_unlock _ _ _ _ _ _ _ t); reflexivity|].
Ltac call_ t := eapply steps_cons; [eapply (ks_rlock _ _ _ _ _ _ t); reflexivity|]; eapply steps_cons; [eapply (ks_hit _ _ _ _ _ _ t); reflexivity|].
Ltac return_ t := eapply steps_cons; [eapply (ks_ret _ _ _ _ _ _ _ t); reflexivity|]; eapply steps_cons; [eapply (ks_runlock _ _ _ _ _ _ _ t); reflexivity|].
Lemma cprogram_concrete : (forall f v, concrete (cconv f v)) /\ (forall t, concrete (cmain t)).
Proof. split; [intros [|f] v|intros [|[|t]]]; cbn; repeat (constructor; auto). Qed.
Example conv_conc_case : exists ls s, steps (k_step cconv) (k_init cmain) ls s /\ t_pc (k_th s 0%nat) = PRun (KRet 6) /\ t_pc (k_th s 1%nat) = PRun (KRet 0) /\
  EvInto 0 cA cC (Some cA) 5 0 6 ∈ omap id ls /\ EvInto 0 cB cC (Some cB) 5 1 6 ∈ omap id ls.
Proof.
  eexists _, _. split; [|split; [|split; [|split]]].
  - unfold k_init. write_ 0%nat. write_ 1%nat. write_ 0%nat. call_ 0%nat. call_ 0%nat. return_ 0%nat. return_ 0%nat. apply steps_nil.
  - reflexivity.
  - reflexivity.
  - apply elem_of_list_In. vm_compute. tauto.
  - apply elem_of_list_In. vm_compute. tauto.
Qed.
(** a converter that calls Into: an Unregister, by a goroutine that holds nothing, between
    the two calls of RLock stops both for ever *)
Theorem conv_nested_into_refuted : exists (conv : nat -> Z -> code Z) main ls s,
  (forall f v, reads_only (conv f v)) /\ steps (k_step conv) (k_init main) ls s /\
  forall ls' s', steps (k_step conv) s ls' s' -> ~ finished (k_th s' 0%nat) /\ ~ finished (k_th s' 1%nat) /\ k_reg s' = k_reg s.
Proof.
  exists cconv, cmain. eexists _, _. split; [intros [|f] v; cbn; repeat (constructor; auto)|].
  match goal with |- ?A /\ _ => assert (HS : A) end.
  { unfold k_init. write_ 0%nat. write_ 0%nat. call_ 0%nat. announce_ 1%nat. apply steps_nil. }
  split; [exact HS|]. intros ls' s' H'.
  assert (HR : reach (k_init cmain) (k_step cconv) _) by (eexists; exact HS).
  destruct (conv_deadlock_forever cconv cmain _ ls' s' 1 0 HR) as (H1 & H2 & H3 & _); [|exact H'|].
  - split; [reflexivity|]. split; [eexists; reflexivity|]. split; [discriminate|]. right. eexists. split; reflexivity.
  - rewrite H2, H3. split; [intros [E _]; discriminate E|]. split; [intros [_ (c & E & _)]; discriminate E|]. exact H1.
Qed.
Print Assumptions conv_nested_into_refuted.
(** the hypotheses of conv_reentrant_write_hangs are met *)
Example conv_reentrant_write_case : exists s fr, reach (k_init cmain) (k_step wconv) s /\ k_th s 0%nat = Thr (PRun (KRegister cB cC 1 (KRet 5))) fr /\ fr <> [].
Proof.
  eexists _, _. split; [|split].
  - eexists. unfold k_init. write_ 0%nat. write_ 0%nat. call_ 0%nat. apply steps_nil.
  - reflexivity.
  - discriminate.
Qed.
