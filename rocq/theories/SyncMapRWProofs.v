From stdpp Require Import gmap.
From Verif Require Import Base Conc Lin Fair SyncMapModel SyncMapProofs RWModel RWProofs RWFairProofs SyncMapRWModel.

Section Proofs.
Context {K V : Type} `{Countable K} (zero : V) (N : nat) (HN : (Z.of_nat N <= max_readers)%Z).
Notation gomap := (gmap K V).
Notation mpc := (mpc K V).
Notation mstate := (mstate K V).
Notation xstate := (xstate K V).
Notation tr_t := (list (lev (mop K V) (mret K V))).

(** where a goroutine is in the code of syncmapx and in that of RWMutex *)
Definition coupled (p : mpc) (q : rwpc) : Prop :=
  match p with
  | MIdle => q = PIdle
  | MWant o => if is_write o then q = PIdle \/ q = PWWant \/ q = PWAnn \/ (exists r, q = PWWait r) \/ q = PWSem else q = PIdle \/ q = PRWant \/ q = PRSem
  | MHold o => q = if is_write o then PWHold else PRHold
  | MIter _ _ _ _ => q = PRHold
  | MWriting _ => q = PWHold
  | MRel o _ => q = if is_write o then PWHold else PRHold
  | MRet o _ => if is_write o then q = PIdle \/ exists r i, q = PWPost r i else q = PIdle \/ q = PRDec \/ q = PRPost
  end.
Record xinv (tr : tr_t) (s : xstate) : Prop := {
  xv_rw : rwinv N (x_rw s);
  xv_m : exists w rs, minv zero tr (MS (x_map s) (x_torn s) (x_crash s) w rs (x_th s));
  xv_c : forall t, coupled (x_th s t) (rw_pc (x_rw s) t);
  xv_N : forall t, x_th s t <> MIdle -> t < N }.

Lemma coupled_hr p q : coupled p q -> q = PRHold -> hr p.
Proof using. destruct p as [|o|o|o m0 rest dn|o|o r|o r]; cbn; intros C ->; try destruct (is_write o); try tauto; try discriminate; decompose [or ex] C; discriminate. Qed.
Lemma coupled_hw p q : coupled p q -> q = PWHold -> hw p.
Proof using. destruct p as [|o|o|o m0 rest dn|o|o r|o r]; cbn; intros C ->; try destruct (is_write o); try tauto; try discriminate; decompose [or ex] C; discriminate. Qed.
Lemma hr_coupled p q : coupled p q -> hr p -> q = PRHold.
Proof using. destruct p as [|o|o|o m0 rest dn|o|o r|o r]; cbn; intros C Hh; try tauto; rewrite Hh in C; exact C. Qed.
Lemma hw_coupled p q : coupled p q -> hw p -> q = PWHold.
Proof using. destruct p as [|o|o|o m0 rest dn|o|o r|o r]; cbn; intros C Hh; try tauto; rewrite Hh in C; exact C. Qed.

(** the lock excludes *)
Lemma rw_excl s t u : rwinv N s -> rw_pc s t = PWHold -> u <> t -> rw_pc s u <> PWHold /\ rw_pc s u <> PRHold.
Proof using.
  intros IV P Ne. assert (W : rw_w s = Some t) by (apply (rv_w _ _ IV); rewrite P; exact I). split; intros Q.
  - assert (W' : rw_w s = Some u) by (apply (rv_w _ _ IV); rewrite Q; exact I). congruence.
  - pose proof (rv_o _ _ IV) as O. rewrite W in O. cbn in O. rewrite P in O. cbn in O.
    assert (1 <= cs N n_hold (rw_pc s))%Z; [|lia]. replace 1%Z with (n_hold (rw_pc s u)) by (rewrite Q; reflexivity).
    apply (csum_ge N (fun t => n_hold (rw_pc s t))); [intros x; destruct (rw_pc s x); cbn; lia|].
    destruct (decide (u < N)) as [|G]; [assumption|]. rewrite (rv_N _ _ IV) in Q by lia. discriminate.
Qed.

Lemma minv_call (tr : tr_t) m tn c w rs (th : nat -> mpc) t o : minv zero tr (MS m tn c w rs th) -> th t = MIdle -> minv zero (tr ++ [Inv t o]) (MS m tn c w rs (tset th t (MWant o))).
Proof using. intros IV E. apply (minv_step zero _ _ (Some (Inv t o)) _ IV). apply ms_call, E. Qed.

Definition ev_list (l : nat * option (lev (mop K V) (mret K V))) : tr_t := match snd l with Some x => [x] | None => [] end.
Lemma xinv_step tr s l s' : xinv tr s -> x_step zero N s l s' -> xinv (tr ++ ev_list l) s'.
Proof using HN.
  intros [IR (w & rs & IM) IC IN] HS. unfold ev_list.
  (* a step that is one of SyncMapModel too and leaves the lock alone *)
  assert (BODY : forall t p e m' tn' c' w' rs', (exists p0, x_th s t = p0 /\ p0 <> MIdle /\ (forall q, coupled p0 q -> coupled p q)) \/ p = x_th s t ->
     m_step zero (MS (x_map s) (x_torn s) (x_crash s) w rs (x_th s)) e (MS m' tn' c' w' rs' (tset (x_th s) t p)) ->
     xinv (tr ++ (match e with Some x => [x] | None => [] end)) (XS m' tn' c' (x_rw s) (tset (x_th s) t p))).
  { intros t p e m' tn' c' w' rs' HC ST. split; cbn.
    - exact IR.
    - exists w', rs'. exact (minv_step zero _ _ _ _ IM ST).
    - intros u. destruct (decide (u = t)) as [->|Ne]; [rewrite tset_eq|rewrite tset_ne by auto; apply IC]. destruct HC as [(p0 & E0 & _ & HC)| ->]; [|apply IC].
      apply HC. rewrite <- E0. apply IC.
    - intros u. destruct (decide (u = t)) as [->|Ne]; [rewrite tset_eq|rewrite tset_ne by auto; apply IN]. intros NI. apply IN. destruct HC as [(p0 & E0 & N0 & HC)| ->]; [congruence|exact NI]. }
  destruct HS as [m tn c rw th t o L E|m tn c rw th t o rw' E P ST P'|m tn c rw th t o rw' E P ST|m c rw th t o r E Er|m c rw th t o l E Ei El
    |m c rw th t o p rest dn E|m m0 c rw th t o rest rest' dn p Hne E|m tn c rw th t o m0 dn r E Er|m c rw th t o E Eo
    |m tn c rw th t o m' E Ew|m c rw th t o E|m tn c rw th t o r rw' E P ST|m tn c rw th t o r rw' E P ST|m tn c rw th t o r E P];
    cbn [x_map x_torn x_crash x_rw x_th snd] in *; try rewrite app_nil_r.
  - (* call *) split; cbn; [exact IR|exists w, rs; apply minv_call; assumption| |].
    + intros u. destruct (decide (u = t)) as [->|Ne]; [rewrite tset_eq|rewrite tset_ne by auto; apply IC]. specialize (IC t). rewrite E in IC. cbn in IC. cbn. destruct (is_write o); auto.
    + intros u. destruct (decide (u = t)) as [->|Ne]; [auto|rewrite tset_ne by auto; apply IN].
  - (* RLock or Lock is called *) pose proof (rwinv_step N HN _ _ _ IR ST) as IR'. split; cbn; [exact IR'|eauto| |exact IN].
    intros u. destruct (decide (u = t)) as [->|Ne]; [|rewrite (rw_other N _ _ _ _ ST) by auto; apply IC]. rewrite E, P'. cbn. destruct (is_write o); auto.
  - (* in RLock or Lock *) pose proof (rwinv_step N HN _ _ _ IR ST) as IR'. pose proof (rw_self N _ _ _ IR ST) as SF. pose proof (IC t) as CT. rewrite E in CT. cbn in CT.
    assert (OTH : forall u, u <> t -> rw_pc rw' u = rw_pc rw u) by (intros u Nu; apply (rw_other N _ _ _ _ ST); auto).
    destruct (is_write o) eqn:Eo.
    + assert (CS : rw_pc rw' t = PWHold \/ has_lock (rw_pc rw' t) = false /\ (rw_pc rw' t = PIdle \/ rw_pc rw' t = PWWant \/ rw_pc rw' t = PWAnn \/ (exists r, rw_pc rw' t = PWWait r) \/ rw_pc rw' t = PWSem)).
      { destruct CT as [CT|[CT|[CT|[[r CT]|CT]]]]; rewrite CT in SF; [destruct (P CT)| | | |].
        - right. rewrite SF. split; [reflexivity|auto].
        - destruct SF as [SF|[r SF]]; [left; exact SF|right; rewrite SF; split; [reflexivity|eauto 6]].
        - destruct SF as [SF|SF]; [left; exact SF|right; rewrite SF; split; [reflexivity|eauto 6]].
        - left; exact SF. }
      destruct CS as [CS|[F CS]].
      * rewrite CS. cbn [has_lock].
        assert (NO : forall u, u <> t -> ~ hw (th u) /\ ~ hr (th u)).
        { intros u Nu. destruct (rw_excl rw' t u IR' CS Nu) as [X1 X2]. rewrite (OTH u Nu) in X1, X2. split; intros HH; [apply X1; apply (hw_coupled _ _ (IC u) HH)|apply X2; apply (hr_coupled _ _ (IC u) HH)]. }
        assert (WN : w = None).
        { destruct w as [u|]; [|reflexivity]. exfalso. pose proof (proj2 (iv_w _ _ _ IM u) eq_refl) as HW. cbn in HW. destruct (decide (u = t)) as [->|Nu]; [rewrite E in HW; destruct HW|destruct (NO u Nu); tauto]. }
        assert (RN : rs = []).
        { destruct rs as [|u rs]; [reflexivity|]. exfalso. pose proof (proj2 (iv_r _ _ _ IM u) ltac:(left)) as HR. cbn in HR. destruct (decide (u = t)) as [->|Nu]; [rewrite E in HR; destruct HR|destruct (NO u Nu); tauto]. }
        subst w rs. split; cbn; [exact IR'| | |].
        { exists (Some t), []. pose proof (minv_step zero _ _ None _ IM (ms_lock zero m tn c th t o E Eo)) as X. rewrite app_nil_r in X. exact X. }
        { intros u. destruct (decide (u = t)) as [->|Ne]; [rewrite tset_eq; cbn; rewrite Eo; exact CS|rewrite tset_ne by auto; rewrite OTH by auto; apply IC]. }
        { intros u. destruct (decide (u = t)) as [->|Ne]; [rewrite tset_eq; intros _; apply IN; rewrite E; discriminate|rewrite tset_ne by auto; apply IN]. }
      * rewrite F. split; cbn; [exact IR'|eauto| |exact IN].
        intros u. destruct (decide (u = t)) as [->|Ne]; [rewrite E; cbn; rewrite Eo; exact CS|rewrite OTH by auto; apply IC].
    + assert (CS : rw_pc rw' t = PRHold \/ has_lock (rw_pc rw' t) = false /\ (rw_pc rw' t = PIdle \/ rw_pc rw' t = PRWant \/ rw_pc rw' t = PRSem)).
      { destruct CT as [CT|[CT|CT]]; rewrite CT in SF; [destruct (P CT)| |].
        - destruct SF as [SF|SF]; [right; rewrite SF; split; [reflexivity|auto]|left; exact SF].
        - left; exact SF. }
      destruct CS as [CS|[F CS]].
      * rewrite CS. cbn [has_lock].
        assert (WN : w = None).
        { destruct w as [u|]; [|reflexivity]. exfalso. pose proof (proj2 (iv_w _ _ _ IM u) eq_refl) as HW. cbn in HW. destruct (decide (u = t)) as [->|Nu]; [rewrite E in HW; destruct HW|].
          apply (hw_coupled _ _ (IC u)) in HW. rewrite <- (OTH u Nu) in HW. destruct (rw_excl rw' u t IR' HW ltac:(auto)) as [_ X]. destruct (X CS). }
        subst w. split; cbn; [exact IR'| | |].
        { exists None, (t :: rs). pose proof (minv_step zero _ _ None _ IM (ms_rlock zero m tn c rs th t o E Eo)) as X. rewrite app_nil_r in X. exact X. }
        { intros u. destruct (decide (u = t)) as [->|Ne]; [rewrite tset_eq; cbn; rewrite Eo; exact CS|rewrite tset_ne by auto; rewrite OTH by auto; apply IC]. }
        { intros u. destruct (decide (u = t)) as [->|Ne]; [rewrite tset_eq; intros _; apply IN; rewrite E; discriminate|rewrite tset_ne by auto; apply IN]. }
      * rewrite F. split; cbn; [exact IR'|eauto| |exact IN].
        intros u. destruct (decide (u = t)) as [->|Ne]; [rewrite E; cbn; rewrite Eo; exact CS|rewrite OTH by auto; apply IC].
  - (* read *) eapply (BODY t _ (Some (Lin t o r))); [left; exists (MHold o); split; [exact E|split; [discriminate|intros q; cbn; auto]]|eapply ms_read; eassumption].
  - (* range *) pose proof (iter_not_write o [] Ei) as Eo.
    pose proof (BODY t (MIter o m l []) None m false c w rs) as X. cbn in X. rewrite app_nil_r in X. apply X; [left; exists (MHold o); split; [exact E|split; [discriminate|intros q; cbn; rewrite Eo; auto]]|eapply ms_range; eassumption].
  - (* next *) pose proof (BODY t (MIter o m rest (dn ++ [p])) None m false c w rs) as X. cbn in X. rewrite app_nil_r in X.
    apply X; [left; exists (MIter o m (p :: rest) dn); split; [exact E|split; [discriminate|intros q; cbn; auto]]|eapply ms_next; eassumption].
  - (* stale *) pose proof (BODY t (MIter o m0 rest' (dn ++ [p])) None m false c w rs) as X. cbn in X. rewrite app_nil_r in X.
    apply X; [left; exists (MIter o m0 rest dn); split; [exact E|split; [discriminate|intros q; cbn; auto]]|eapply ms_next_stale; eassumption].
  - (* range end *) pose proof (iter_some o dn r Er) as Eo.
    eapply (BODY t _ (Some (Lin t o r))); [left; exists (MIter o m0 [] dn); split; [exact E|split; [discriminate|intros q; cbn; rewrite Eo; auto]]|eapply ms_range_end; eassumption].
  - (* write begin *) pose proof (BODY t (MWriting o) None m true c w rs) as X. cbn in X. rewrite app_nil_r in X.
    apply X; [left; exists (MHold o); split; [exact E|split; [discriminate|intros q; cbn; rewrite Eo; auto]]|eapply ms_write_begin; eassumption].
  - (* write end *) pose proof (iv_pc _ _ _ IM t) as Ip. cbn in Ip. rewrite E in Ip. destruct Ip as [Eo _].
    eapply (BODY t _ (Some (Lin t o RetU))); [left; exists (MWriting o); split; [exact E|split; [discriminate|intros q; cbn; rewrite Eo; auto]]|eapply ms_write_end; eassumption].
  - (* race *) split; cbn; [exact IR| |exact IC|exact IN]. exists w, rs. pose proof (minv_step zero _ _ None _ IM (ms_race zero m c w rs th t o E)) as X. rewrite app_nil_r in X. exact X.
  - (* the first step of RUnlock or Unlock *) pose proof (rwinv_step N HN _ _ _ IR ST) as IR'. pose proof (rw_self N _ _ _ IR ST) as SF. pose proof (IC t) as CT. rewrite E in CT. cbn in CT.
    assert (OTH : forall u, u <> t -> rw_pc rw' u = rw_pc rw u) by (intros u Nu; apply (rw_other N _ _ _ _ ST); auto).
    split; cbn; [exact IR'| | |].
    + destruct (is_write o) eqn:Eo.
      * exists None, rs. pose proof (minv_step zero _ _ None _ IM (ms_unlock zero m tn c w rs th t o r E Eo)) as X. rewrite app_nil_r in X. exact X.
      * exists w, (list_difference rs [t]). pose proof (minv_step zero _ _ None _ IM (ms_runlock zero m tn c w rs th t o r E Eo)) as X. rewrite app_nil_r in X. exact X.
    + intros u. destruct (decide (u = t)) as [->|Ne]; [rewrite tset_eq; cbn|rewrite tset_ne by auto; rewrite OTH by auto; apply IC]. destruct (is_write o); rewrite CT in SF.
      * destruct SF as [r' SF]. right. eauto.
      * destruct SF as [SF|SF]; auto.
    + intros u. destruct (decide (u = t)) as [->|Ne]; [rewrite tset_eq; intros _; apply IN; rewrite E; discriminate|rewrite tset_ne by auto; apply IN].
  - (* the other steps of RUnlock or Unlock *) pose proof (rwinv_step N HN _ _ _ IR ST) as IR'. pose proof (rw_self N _ _ _ IR ST) as SF. pose proof (IC t) as CT. rewrite E in CT. cbn in CT.
    split; cbn; [exact IR'|eauto| |exact IN].
    intros u. destruct (decide (u = t)) as [->|Ne]; [|rewrite (rw_other N _ _ _ _ ST) by auto; apply IC]. rewrite E. cbn. destruct (is_write o).
    + destruct CT as [CT|(r' & i & CT)]; [destruct (P CT)|]. rewrite CT in SF. destruct SF as [(_ & SF & _)|[SF _]]; eauto.
    + destruct CT as [CT|[CT|CT]]; [destruct (P CT)| |]; rewrite CT in SF; tauto.
  - (* return *) split; cbn; [exact IR| | |].
    + exists w, rs. apply (minv_step zero _ _ (Some (Rsp t o r)) _ IM). apply ms_return, E.
    + intros u. destruct (decide (u = t)) as [->|Ne]; [rewrite tset_eq; exact P|rewrite tset_ne by auto; apply IC].
    + intros u. destruct (decide (u = t)) as [->|Ne]; [rewrite tset_eq; congruence|rewrite tset_ne by auto; apply IN].
Qed.
Lemma xinv_init : xinv [] x_new.
Proof using HN.
  split; cbn; auto.
  - assert (R : reach rw_new (rw_step N) rw_new) by apply reach_refl. apply (rwinv_reach N HN). exact R.
  - exists None, []. apply minv_init.
  - congruence.
Qed.
Lemma xinv_steps ls s : steps (x_step zero N) x_new ls s -> xinv (x_events ls) s.
Proof using HN.
  apply (steps_trace_invariant x_new (x_step zero N) (fun ls s => xinv (x_events ls) s)); [exact xinv_init|].
  intros ls' s' l s'' _ IH HS. pose proof (xinv_step _ _ _ _ IH HS) as G. unfold x_events in *. rewrite omap_app. destruct l as [t [x|]]; exact G.
Qed.
End Proofs.
