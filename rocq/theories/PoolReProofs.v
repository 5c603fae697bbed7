From Verif Require Import Base Conc PoolModel PoolProofs PoolProofs2 PoolProofs3 PoolReModel.
Local Open Scope Z.

Section P.
Context (idle : Z) (code : nat -> hprog).
Notation rstep := (re_step idle code).

Definition visible (l : plab) : bool := match l with LPTau => false | _ => true end.
Lemma re_one st l st' : rstep st l st' -> exists tr, steps (p_step idle) st.1 tr st'.1 /\ filter visible tr = filter visible [l].
Proof.
  intros H. destruct H; cbn [fst]; try (exists []; split; [constructor|reflexivity]);
    (eexists ([] ++ [_]); split; [eapply steps_snoc; [constructor|eassumption]|reflexivity]).
Qed.
Lemma re_steps st tr st' : steps rstep st tr st' -> exists tr', steps (p_step idle) st.1 tr' st'.1 /\ filter visible tr' = filter visible tr.
Proof.
  induction 1 as [|st tr st1 l st2 H (tr1 & IH & E1) HS]; [exists []; split; [constructor|reflexivity]|].
  destruct (re_one _ _ _ HS) as (tr2 & H2 & E2). exists (tr1 ++ tr2). split; [eapply steps_app; eassumption|].
  rewrite !filter_app, E1, E2. reflexivity.
Qed.

Section R.
Context (maxw : Z) (n : nat) (tts : nat -> Z) (clock : Z) (Hm : 0 < maxw).
Notation init := (re_init maxw n tts clock).
Lemma re_reach st : reach init rstep st -> reach (p_init maxw n tts clock) (p_step idle) st.1.
Proof. intros [tr H]. destruct (re_steps _ _ _ H) as (tr' & H' & _). exists tr'. exact H'. Qed.

(** what the handlers do is consistent with the pool *)
Definition only_run_state (h : hstate) : Prop :=
  match h with HNo => True | HAt p => only_run p | HInRun _ k => forall b, only_run (k b) | HInStop _ _ => False end.
Record hinv (st : rstate) : Prop := {
  h_handling : forall t, st.2 t <> HNo <-> exists g w c, p_gor st.1 g = GHandle w c t;
  h_job : forall t t' k, st.2 t = HInRun t' k -> p_job st.1 t' <> JIdle;
  h_st : forall t u k, st.2 t = HInStop u k -> p_st st.1 u <> SIdle }.

Lemma job_stays s l s' t : p_step idle s l s' -> p_job s t <> JIdle -> p_job s' t <> JIdle.
Proof. intros H Hj. destruct H; cbn; auto; ts; auto; discriminate. Qed.
Lemma st_stays s l s' u : p_step idle s l s' -> p_st s u <> SIdle -> p_st s' u <> SIdle.
Proof. intros H Hj. destruct H; cbn; auto; ts; auto; try discriminate; destruct (p_stop s); discriminate. Qed.
(** a step that neither begins nor ends a job keeps the set of handlers *)
Lemma handling_stays s l s' : p_step idle s l s' -> begin_or_end l = false -> pinv s ->
  forall g w c t, p_gor s g = GHandle w c t <-> p_gor s' g = GHandle w c t.
Proof.
  intros H Hl A g w c t. destruct H; try discriminate; cbn; try tauto.
  all: try (ts; split; intros; congruence).
  all: assert (G : p_gor s (p_ng s) = GNone) by (apply (a_gor s A); lia); ts; split; intros; congruence.
Qed.
Lemma hinv_step st l st' : pinv st.1 -> binv st.1 -> hinv st -> rstep st l st' -> hinv st'.
Proof.
  intros A B [I1 I2 I3] H. destruct H; cbn [fst snd] in *.
  - constructor; cbn [fst snd].
    + intros t. rewrite I1. split; intros (g & w & c & G); exists g, w, c; apply (handling_stays _ _ _ H0 H A); exact G.
    + intros t t' k Ht. eapply job_stays; [exact H0|]. eauto.
    + intros t t' k Ht. eapply st_stays; [exact H0|]. eauto.
  - constructor; cbn [fst snd].
    + intros t'. inversion H; subst; cbn. destruct (decide (t' = t)) as [->|Hn].
      * rewrite tset_eq. split; [|discriminate]. intros _. exists g, w, c. apply tset_eq.
      * rewrite tset_ne by exact Hn. rewrite I1. split; intros (g' & w' & c' & G); exists g', w', c'.
        -- rewrite tset_ne; [exact G|]. intros ->. congruence.
        -- destruct (decide (g' = g)) as [->|]; [rewrite tset_eq in G; congruence|rewrite tset_ne in G by assumption; exact G].
    + intros t1 t' k Ht. destruct (decide (t1 = t)) as [->|]; [rewrite tset_eq in Ht; discriminate|rewrite tset_ne in Ht by assumption].
      eapply job_stays; [exact H|]. eauto.
    + intros t1 t' k Ht. destruct (decide (t1 = t)) as [->|]; [rewrite tset_eq in Ht; discriminate|rewrite tset_ne in Ht by assumption].
      eapply st_stays; [exact H|]. eauto.
  - constructor; cbn [fst snd].
    + intros t1. transitivity (h t1 <> HNo).
      { destruct (decide (t1 = t)) as [->|]; [rewrite tset_eq, H; split; discriminate|rewrite tset_ne by assumption; reflexivity]. }
      rewrite I1. split; intros (g & w & c & G); exists g, w, c; apply (handling_stays _ _ _ H0 eq_refl A); exact G.
    + intros t1 t2 k1 Ht. destruct (decide (t1 = t)) as [->|].
      * rewrite tset_eq in Ht. injection Ht as -> ->. inversion H0; subst; cbn. rewrite tset_eq. discriminate.
      * rewrite tset_ne in Ht by assumption. eapply job_stays; [exact H0|]. eauto.
    + intros t1 t2 k1 Ht. destruct (decide (t1 = t)) as [->|]; [rewrite tset_eq in Ht; discriminate|rewrite tset_ne in Ht by assumption].
      eapply st_stays; [exact H0|]. eauto.
  - constructor; cbn [fst snd].
    + intros t1. rewrite <- I1. destruct (decide (t1 = t)) as [->|]; [rewrite tset_eq, H; split; discriminate|rewrite tset_ne by assumption; reflexivity].
    + intros t1 t2 k1 Ht. destruct (decide (t1 = t)) as [->|]; [rewrite tset_eq in Ht; discriminate|rewrite tset_ne in Ht by assumption]. eauto.
    + intros t1 t2 k1 Ht. destruct (decide (t1 = t)) as [->|]; [rewrite tset_eq in Ht; discriminate|rewrite tset_ne in Ht by assumption]. eauto.
  - constructor; cbn [fst snd].
    + intros t1. transitivity (h t1 <> HNo).
      { destruct (decide (t1 = t)) as [->|]; [rewrite tset_eq, H; split; discriminate|rewrite tset_ne by assumption; reflexivity]. }
      rewrite I1. split; intros (g & w & c & G); exists g, w, c; apply (handling_stays _ _ _ H0 eq_refl A); exact G.
    + intros t1 t2 k1 Ht. destruct (decide (t1 = t)) as [->|]; [rewrite tset_eq in Ht; discriminate|rewrite tset_ne in Ht by assumption].
      eapply job_stays; [exact H0|]. eauto.
    + intros t1 t2 k1 Ht. destruct (decide (t1 = t)) as [->|].
      * rewrite tset_eq in Ht. injection Ht as -> ->. inversion H0; subst; cbn. rewrite tset_eq. destruct (p_stop s); discriminate.
      * rewrite tset_ne in Ht by assumption. eapply st_stays; [exact H0|]. eauto.
  - constructor; cbn [fst snd].
    + intros t1. rewrite <- I1. destruct (decide (t1 = t)) as [->|]; [rewrite tset_eq, H; split; discriminate|rewrite tset_ne by assumption; reflexivity].
    + intros t1 t2 k1 Ht. destruct (decide (t1 = t)) as [->|]; [rewrite tset_eq in Ht; discriminate|rewrite tset_ne in Ht by assumption]. eauto.
    + intros t1 t2 k1 Ht. destruct (decide (t1 = t)) as [->|]; [rewrite tset_eq in Ht; discriminate|rewrite tset_ne in Ht by assumption]. eauto.
  - constructor; cbn [fst snd].
    + intros t1. inversion H0; subst; cbn. destruct (decide (t1 = t)) as [->|Hn].
      * rewrite tset_eq. split; [congruence|]. intros (g' & w' & c' & G).
        destruct (decide (g' = g)) as [->|Hg]; [rewrite tset_eq in G; discriminate|rewrite tset_ne in G by assumption].
        exfalso. apply Hg. match goal with E : p_gor s g = GHandle _ _ _ |- _ => exact (b_one s B _ _ _ _ _ _ _ G E) end.
      * rewrite tset_ne by exact Hn. rewrite I1. split; intros (g' & w' & c' & G); exists g', w', c'.
        -- rewrite tset_ne; [exact G|]. intros ->. congruence.
        -- destruct (decide (g' = g)) as [->|]; [rewrite tset_eq in G; discriminate|rewrite tset_ne in G by assumption; exact G].
    + intros t1 t2 k1 Ht. destruct (decide (t1 = t)) as [->|]; [rewrite tset_eq in Ht; discriminate|rewrite tset_ne in Ht by assumption].
      eapply job_stays; [exact H0|]. eauto.
    + intros t1 t2 k1 Ht. destruct (decide (t1 = t)) as [->|]; [rewrite tset_eq in Ht; discriminate|rewrite tset_ne in Ht by assumption].
      eapply st_stays; [exact H0|]. eauto.
Qed.
Lemma hinv_init : hinv init.
Proof.
  constructor; cbn; try discriminate. intros t. split; [congruence|]. intros (g & w & c & G). case_decide; discriminate.
Qed.
Lemma hinv_reach st : reach init rstep st -> hinv st.
Proof.
  intros R. assert (K : hinv st /\ reach init rstep st); [|tauto]. revert st R.
  intros st [tr H]. remember init as i0 eqn:E. revert E. induction H as [|s0 ls s1 l s2 H IH HS]; intros ->.
  - split; [apply hinv_init|apply reach_refl].
  - destruct (IH eq_refl) as [I1 R1]. split; [|eapply reach_snoc; eassumption].
    pose proof (re_reach _ R1) as RP. eapply hinv_step; [| |exact I1|exact HS].
    + eapply pinv_reach; eassumption.
    + eapply binv_reach; eassumption.
Qed.

(** numbers not yet used by a call *)
Lemma fresh_job s : reach (p_init maxw n tts clock) (p_step idle) s -> exists N, forall t, (N <= t)%nat -> p_job s t = JIdle /\ p_st s t = SIdle.
Proof.
  revert s. apply reach_invariant.
  - exists O. intros t _. split; reflexivity.
  - intros s l s' [N HN] H.
    assert (Hx : exists x, forall t, t <> x -> (p_job s t = JIdle -> p_job s' t = JIdle) /\ (p_st s t = SIdle -> p_st s' t = SIdle)).
    { destruct H; cbn; try (exists O; intros; split; auto; fail);
        first [exists t; intros; split; intros; rewrite ?tset_ne by assumption; auto; fail
              |exists u; intros; split; intros; rewrite ?tset_ne by assumption; auto; fail]. }
    destruct Hx as [x Hx]. exists (Nat.max N (S x)). intros t Ht. destruct (HN t ltac:(lia)) as [H1 H2].
    destruct (Hx t ltac:(lia)) as [H3 H4]. auto.
Qed.
End R.

(** *** A call of Run goes on whatever the others do *)
(** what a handler leaves alone while it runs by itself *)
Definition alone (t : nat) (st st' : rstate) : Prop :=
  p_col st'.1 = p_col st.1 /\ p_max st'.1 = p_max st.1 /\ (forall u, p_st st'.1 u = p_st st.1 u) /\
  (forall t', t' <> t -> st'.2 t' = st.2 t') /\
  (p_ng st.1 <= p_ng st'.1)%nat /\
  (forall g, (g < p_ng st.1)%nat -> (forall w c, p_gor st.1 g <> GHandle w c t) -> p_gor st'.1 g = p_gor st.1 g).
Lemma alone_refl t st : alone t st st.
Proof. repeat split; auto. Qed.

Lemma exists_last_or_nil {A} (l : list A) : l = [] \/ exists d w, l = d ++ [w].
Proof. destruct l using rev_ind; eauto. Qed.
Lemma run_goes_on s t' : pinv s -> p_job s t' = JLock -> exists l s', p_step idle s l s' /\ begin_or_end l = false /\
  ((exists ok, p_job s' t' = JRet ok) \/ exists w, p_job s' t' = JSend w) /\
  p_col s' = p_col s /\ p_max s' = p_max s /\ (forall u, p_st s' u = p_st s u) /\ (p_ng s <= p_ng s')%nat /\
  forall g, (g < p_ng s)%nat -> p_gor s' g = p_gor s g.
Proof.
  intros A J. destruct (decide (p_max s = -1)) as [M|M].
  { eexists _, _. split; [apply ps_stopped; eassumption|]. cbn. split; [reflexivity|]. split; [left; eexists; apply tset_eq|]. auto 6. }
  destruct (exists_last_or_nil (p_dobby s)) as [E|(d & w & E)].
  - destruct (decide (p_workers s < p_max s)) as [W|W].
    + eexists _, _. split; [apply ps_new; eassumption|]. cbn. split; [reflexivity|]. split; [right; eexists; apply tset_eq|].
      repeat split; auto. intros g Hg. apply tset_ne. lia.
    + eexists _, _. split; [apply ps_full; [eassumption..|lia]|]. cbn. split; [reflexivity|]. split; [left; eexists; apply tset_eq|]. auto 6.
  - eexists _, _. split; [eapply ps_pop; eassumption|]. cbn. split; [reflexivity|]. split; [right; eexists; apply tset_eq|]. auto 6.
Qed.
Lemma send_goes_on s t' w : pinv s -> p_job s t' = JSend w -> exists l s', p_step idle s l s' /\ begin_or_end l = false /\
  p_job s' t' = JRet true /\
  p_col s' = p_col s /\ p_max s' = p_max s /\ (forall u, p_st s' u = p_st s u) /\ (p_ng s <= p_ng s')%nat /\
  forall g, (g < p_ng s)%nat -> p_gor s' g = p_gor s g.
Proof.
  intros A J. destruct (send_ready s t' w A J) as (c & O & C & B).
  eexists _, _. split; [eapply ps_send; eassumption|]. cbn. split; [reflexivity|]. split; [apply tset_eq|]. auto 6.
Qed.

Lemma alone_trans t a b c : alone t a b -> alone t b c -> alone t a c.
Proof.
  intros (A1 & A2 & A3 & A4 & A5 & A6) (B1 & B2 & B3 & B4 & B5 & B6).
  split; [congruence|]. split; [congruence|]. split; [intros; rewrite B3; apply A3|]. split; [intros; rewrite B4 by assumption; auto|].
  split; [lia|]. intros g Hg Hn. rewrite <- A6 by assumption. apply B6; [lia|]. intros w d E. rewrite A6 in E by assumption. exact (Hn w d E).
Qed.
Lemma one_step (st : rstate) l st' : rstep st l st' -> exists tr, steps rstep st tr st'.
Proof. intros H. exists ([] ++ [l]). econstructor; [constructor|exact H]. Qed.
Lemma more_steps (st st1 st2 : rstate) tr : steps rstep st tr st1 -> (exists tr', steps rstep st1 tr' st2) -> exists tr', steps rstep st tr' st2.
Proof. intros H [tr' H']. eexists. eapply steps_app; eassumption. Qed.

Section F.
Context (maxw : Z) (n : nat) (tts : nat -> Z) (clock : Z) (Hm : 0 < maxw).
Notation init := (re_init maxw n tts clock).
Notation rreach := (reach init rstep).
Lemma rreach_more st tr st' : rreach st -> steps rstep st tr st' -> rreach st'.
Proof. intros [tr0 H] H'. exists (tr0 ++ tr). eapply steps_app; eassumption. Qed.
Lemma rreach_pinv st : rreach st -> pinv st.1.
Proof. intros R. eapply pinv_reach; [exact Hm|]. apply re_reach. exact R. Qed.

Lemma ran_goes_on st t t' k : rreach st -> st.2 t = HInRun t' k ->
  exists tr st' ok, steps rstep st tr st' /\ alone t st st' /\ st'.2 t = HAt (k ok).
Proof.
  intros R Ht.
  assert (Hret : forall st1, rreach st1 -> st1.2 t = HInRun t' k -> (exists ok, p_job st1.1 t' = JRet ok) ->
    exists tr st' ok, steps rstep st1 tr st' /\ alone t st1 st' /\ st'.2 t = HAt (k ok)).
  { intros [s h] R1 H1 [ok J]. cbn in *. destruct (one_step (s, h) LPTau (s, tset h t (HAt (k ok)))) as [tr T]; [eapply re_ran; eassumption|].
    exists tr, (s, tset h t (HAt (k ok))), ok. split; [exact T|]. split; [|apply tset_eq].
    repeat split; auto. intros t1 Hn. cbn. apply tset_ne. exact Hn. }
  assert (Hsend : forall st1, rreach st1 -> st1.2 t = HInRun t' k -> (exists w, p_job st1.1 t' = JSend w) ->
    exists tr st' ok, steps rstep st1 tr st' /\ alone t st1 st' /\ st'.2 t = HAt (k ok)).
  { intros [s h] R1 H1 [w J]. cbn in *. destruct (send_goes_on s t' w (rreach_pinv _ R1) J) as (l & s' & P1 & P2 & P3 & P4 & P5 & P6 & P7 & P8).
    destruct (one_step (s, h) l (s', h)) as [tr T]; [apply re_pool; assumption|].
    destruct (Hret (s', h)) as (tr2 & st' & ok & T2 & A2 & E2); [eapply rreach_more; eassumption|exact H1|eexists; exact P3|].
    exists (tr ++ tr2), st', ok. split; [eapply steps_app; eassumption|]. split; [|exact E2].
    eapply alone_trans; [|exact A2]. repeat split; auto. }
  destruct st as [s h]. cbn in Ht. pose proof (h_job _ (hinv_reach _ _ _ _ Hm _ R) _ _ _ Ht) as Hi. cbn in Hi.
  destruct (p_job s t') as [| |w|ok|] eqn:J; [congruence| | | |].
  - destruct (run_goes_on s t' (rreach_pinv _ R) J) as (l & s' & P1 & P2 & P3 & P4 & P5 & P6 & P7 & P8).
    destruct (one_step (s, h) l (s', h)) as [tr T]; [apply re_pool; assumption|].
    assert (R' : rreach (s', h)) by (eapply rreach_more; eassumption).
    assert (K : exists tr2 st' ok, steps rstep (s', h) tr2 st' /\ alone t (s', h) st' /\ st'.2 t = HAt (k ok)).
    { destruct P3 as [P3|P3]; [apply Hret|apply Hsend]; assumption. }
    destruct K as (tr2 & st' & ok & T2 & A2 & E2).
    exists (tr ++ tr2), st', ok. split; [eapply steps_app; eassumption|]. split; [|exact E2].
    eapply alone_trans; [|exact A2]. repeat split; auto.
  - apply Hsend; [exact R|exact Ht|]. eexists. exact J.
  - apply Hret; [exact R|exact Ht|]. eexists. exact J.
  - destruct (a_jpanic _ (rreach_pinv _ R) _ J).
Qed.
Lemma at_goes_on p : only_run p -> forall st t, rreach st -> st.2 t = HAt p ->
  exists tr st', steps rstep st tr st' /\ alone t st st' /\ st'.2 t = HNo.
Proof.
  induction p as [|k IH|k IH]; intros O [s h] t R Ht; cbn in Ht; [| |destruct O].
  - assert (Hh : h t <> HNo) by congruence. apply (h_handling _ (hinv_reach _ _ _ _ Hm _ R)) in Hh. destruct Hh as (g & w & c & G). cbn in G.
    pose proof (ps_handled idle s g w c t G) as P. edestruct (one_step (s, h)) as [tr T]; [eapply re_end; eassumption|].
    eexists tr, _. split; [exact T|]. cbn. split; [|apply tset_eq]. repeat split; cbn; auto.
    + intros t' Hn. apply tset_ne. exact Hn.
    + intros g' Hg Hn. apply tset_ne. intros ->. exact (Hn w c G).
  - destruct (fresh_job maxw n tts clock s (re_reach _ _ _ _ _ R)) as [N HN]. destruct (HN N ltac:(lia)) as [F _].
    edestruct (one_step (s, h)) as [tr T]; [eapply re_run; [exact Ht|apply ps_call; exact F]|].
    pose proof (rreach_more _ _ _ R T) as R1. edestruct (ran_goes_on _ t N k R1) as (tr2 & st2 & ok & T2 & A2 & E2); [apply tset_eq|].
    pose proof (rreach_more _ _ _ R1 T2) as R2. destruct (IH ok (O ok) st2 t R2 E2) as (tr3 & st3 & T3 & A3 & E3).
    exists ((tr ++ tr2) ++ tr3), st3. split; [eapply steps_app; [eapply steps_app; eassumption|exact T3]|]. split; [|exact E3].
    eapply alone_trans; [|exact A3]. eapply alone_trans; [|exact A2]. repeat split; cbn; auto. intros t1 Hn. apply tset_ne. exact Hn.
Qed.
Lemma only_run_reach st : (forall t, only_run (code t)) -> rreach st -> forall t, only_run_state (st.2 t).
Proof.
  intros HC. revert st. refine (reach_invariant _ _ _ _ _); [intros t; exact I|].
  intros st l st' IH H t0. destruct H; cbn in *; auto;
    (destruct (decide (t0 = t)) as [->|]; [rewrite tset_eq|rewrite tset_ne by assumption; auto]); cbn; auto;
    specialize (IH t); rewrite H in IH; cbn in IH; auto. destruct IH.
Qed.

(** *** Stop from a handler *)
Definition stop_busy (p : stpc) : Prop := p <> SIdle /\ p <> SDone.
Lemma stop_phase s : reach (p_init maxw n tts clock) (p_step idle) s ->
  ((p_col s = CStop \/ p_col s = CDead) -> p_stop s = true -> exists u, p_st s u = SNil) /\
  (p_stop s = false \/ (exists u, p_st s u = SNil) -> p_col s = CStop \/ p_col s = CDead).
Proof.
  intros R.
  assert (K : pinv s /\ ((p_col s = CStop \/ p_col s = CDead) -> p_stop s = true -> exists u, p_st s u = SNil) /\
    (p_stop s = false \/ (exists u, p_st s u = SNil) -> p_col s = CStop \/ p_col s = CDead)); [|tauto].
  revert s R. apply reach_invariant.
  { split; [apply pinv_init; exact Hm|]. cbn. split; [intros [H|H]; discriminate|]. intros [H|[u H]]; discriminate. }
  intros s l s' (A & I1 & I2) H. split; [eapply pinv_step; eassumption|].
  pose proof (a_max s A) as AM.
  destruct H; cbn; try (split; assumption); split; try (intros [?|?]; discriminate); try (intros; congruence).
  all: try (intros C S; destruct (I1 ltac:(tauto || (right; tauto) || (left; assumption)) S) as [u' U]; exists u';
            rewrite ?tset_ne; [assumption|intros ->; congruence]).
  all: try (intros C; specialize (I2 C); destruct I2; congruence).
  all: try (intros _ _; exists u; apply tset_eq).
  all: try (intros _; auto; fail).
  all: try (exfalso; rewrite AM in *; congruence).
  all: try (intros [C|[u' C]]; apply I2; [left; exact C|]; right; exists u'; revert C; ts; try (destruct (p_stop s)); intros; congruence).
  all: try (exfalso; match goal with N : ~ closable _ _ _ |- _ => apply N end; apply dobby_closable; [exact A|]; rewrite AM; congruence).
  all: try (intros _; apply I2; right; eexists; eassumption).
Qed.

(** the collector comes back to its select *)
Lemma drain_goes_on ws : forall s, pinv s -> p_col s = CDrain ws ->
  exists tr s', steps (p_step idle) s tr s' /\ Forall (fun l => l = LPTau) tr /\ p_col s' = CWait /\ p_st s' = p_st s /\ p_stop s' = p_stop s.
Proof.
  induction ws as [|w ws IH]; intros s A C.
  - exists ([] ++ [LPTau]), (set_col CWait s). split; [econstructor; [constructor|apply ps_drained; exact C]|]. split; [repeat constructor|]. auto.
  - destruct (a_open s A w) as (c & O & Cl). { assert (E : p_own s w = OCol) by (apply (a_col s A); rewrite C; left). rewrite E. reflexivity. }
    pose proof (ps_close idle s w ws c C O Cl) as S1. pose proof (pinv_step idle _ _ _ A S1) as A1.
    remember (set_closed (tset (p_closed s) c true) (set_col (CNil w ws) (set_own (tset (p_own s) w OClosing) s))) as s1 eqn:Es1.
    assert (C1 : p_col s1 = CNil w ws /\ p_st s1 = p_st s /\ p_stop s1 = p_stop s) by (subst s1; auto). destruct C1 as (C1 & C1' & C1'').
    pose proof (ps_nil idle s1 w ws C1) as S2.
    pose proof (pinv_step idle _ _ _ A1 S2) as A2.
    pose proof (ps_put idle (set_tt (tset (p_tt s1) w 0) (set_obj (tset (p_obj s1) w None) (set_col (CPut w ws) s1))) w ws eq_refl) as S3.
    pose proof (pinv_step idle _ _ _ A2 S3) as A3.
    destruct (IH _ A3 eq_refl) as (tr & s' & T & F & E1 & E2 & E3).
    exists (LPTau :: LPTau :: LPTau :: tr), s'. split; [eapply steps_cons; [exact S1|]; eapply steps_cons; [exact S2|]; eapply steps_cons; [exact S3|exact T]|].
    split; [repeat constructor; exact F|]. split; [exact E1|]. cbn in E2, E3. split; congruence.
Qed.
Lemma col_goes_on s : pinv s -> p_col s <> CStop -> p_col s <> CDead ->
  exists tr s', steps (p_step idle) s tr s' /\ Forall (fun l => l = LPTau) tr /\ p_col s' = CWait /\ p_st s' = p_st s /\ p_stop s' = p_stop s.
Proof.
  intros A N1 N2. destruct (p_col s) as [|ws|w ws|w ws| | |] eqn:C; try congruence.
  - exists [], s. repeat split; auto; constructor.
  - apply (drain_goes_on ws); assumption.
  - pose proof (ps_nil idle s w ws C) as S1. pose proof (pinv_step idle _ _ _ A S1) as A1.
    pose proof (ps_put idle (set_tt (tset (p_tt s) w 0) (set_obj (tset (p_obj s) w None) (set_col (CPut w ws) s))) w ws eq_refl) as S2.
    pose proof (pinv_step idle _ _ _ A1 S2) as A2. destruct (drain_goes_on ws _ A2 eq_refl) as (tr & s' & T & F & E1 & E2 & E3).
    exists (LPTau :: LPTau :: tr), s'. split; [eapply steps_cons; [exact S1|]; eapply steps_cons; [exact S2|exact T]|]. split; [repeat constructor; exact F|]. auto.
  - pose proof (ps_put idle s w ws C) as S1. pose proof (pinv_step idle _ _ _ A S1) as A1.
    destruct (drain_goes_on ws _ A1 eq_refl) as (tr & s' & T & F & E1 & E2 & E3).
    exists (LPTau :: tr), s'. split; [eapply steps_cons; [exact S1|exact T]|]. split; [repeat constructor; exact F|]. auto.
  - destruct (a_cpanic s A C).
Qed.
Lemma lift_tau s tr s' h : steps (p_step idle) s tr s' -> Forall (fun l => l = LPTau) tr -> steps rstep (s, h) tr (s', h).
Proof.
  induction 1 as [|s0 ls s1 l s2 H IH HS]; intros F; [constructor|]. apply Forall_app in F as [F1 F2]. inversion F2; subst.
  econstructor; [apply IH; exact F1|]. apply re_pool; [reflexivity|exact HS].
Qed.
Lemma stop_goes_on st t k : rreach st -> st.2 t = HAt (HStop k) -> (forall u, ~ stop_busy (p_st st.1 u)) ->
  exists tr st', steps rstep st tr st' /\ st'.2 t = HAt k /\ (forall t', t' <> t -> st'.2 t' = st.2 t') /\ p_max st'.1 = -1.
Proof.
  destruct st as [s h]. cbn. intros R Ht NB. pose proof (rreach_pinv _ R) as A. cbn in A.
  assert (RP : reach (p_init maxw n tts clock) (p_step idle) s) by exact (re_reach _ _ _ _ _ R).
  destruct (stop_phase s RP) as [P1 P2].
  destruct (fresh_job maxw n tts clock s RP) as [u HN]. destruct (HN u ltac:(lia)) as [_ F].
  destruct (p_stop s) eqn:S.
  - destruct (col_goes_on s A) as (tr & s1 & T & Fa & C1 & E1 & E2).
    { intros C. destruct (P1 (or_introl C) eq_refl) as [u' U]. apply (NB u'). rewrite U. split; discriminate. }
    { intros C. destruct (P1 (or_intror C) eq_refl) as [u' U]. apply (NB u'). rewrite U. split; discriminate. }
    assert (A1 : pinv s1). { eapply pinv_reach; [exact Hm|]. destruct RP as [tr0 RP]. exists (tr0 ++ tr). eapply steps_app; eassumption. }
    assert (D : closable (p_obj s1) (p_closed s1) (p_dobby s1)) by (apply dobby_closable; [exact A1|rewrite (a_max s1 A1); congruence]).
    assert (X1 : p_step idle s1 (LStop u) (set_st (tset (p_st s1) u SAgain) s1)).
    { pose proof (ps_stop_call idle s1 u ltac:(rewrite E1; exact F)) as X. rewrite E2, S in X. exact X. }
    eexists (tr ++ [LStop u; LPTau; LPTau; LPTau; LStopped u; LPTau]), _. split.
    + eapply steps_app; [apply (lift_tau _ _ _ h T Fa)|].
      eapply steps_cons; [eapply re_stop; [exact Ht|exact X1]|].
      eapply steps_cons; [eapply re_pool; [reflexivity|]; apply (ps_stop_again idle _ u); apply tset_eq|].
      cbn [p_stop set_st]. rewrite E2, S.
      eapply steps_cons; [eapply re_pool; [reflexivity|]; apply (ps_meet idle _ u); [exact C1|apply tset_eq]|].
      eapply steps_cons; [eapply re_pool; [reflexivity|]; apply (ps_stop idle); [reflexivity|exact D]|].
      eapply steps_cons; [eapply re_pool; [reflexivity|]; apply (ps_stop_nil idle _ u); apply tset_eq|].
      eapply steps_cons; [eapply (re_stopped idle code _ _ t u k); [apply tset_eq|apply tset_eq]|]. constructor.
    + cbn. split; [apply tset_eq|]. split; [|reflexivity]. intros t' Hn. rewrite !tset_ne by exact Hn. reflexivity.
  - assert (X1 : p_step idle s (LStop u) (set_st (tset (p_st s) u SDone) s)).
    { pose proof (ps_stop_call idle s u F) as X. rewrite S in X. exact X. }
    assert (T : steps rstep (s, h) [LStop u; LPTau] (set_st (tset (p_st s) u SDone) s, tset (tset h t (HInStop u k)) t (HAt k))).
    { eapply steps_cons; [eapply re_stop; [exact Ht|exact X1]|].
      eapply steps_cons; [eapply (re_stopped idle code _ _ t u k); [apply tset_eq|apply tset_eq]|]. constructor. }
    assert (FR : forall t', t' <> t -> tset (tset h t (HInStop u k)) t (HAt k) t' = h t').
    { intros t' Hn. rewrite !tset_ne by exact Hn. reflexivity. }
    destruct (P2 (or_introl eq_refl)) as [C|C].
    + eexists ([LStop u; LPTau] ++ [LPTau]), _. split.
      * eapply steps_app; [exact T|]. eapply steps_cons; [|constructor]. eapply re_pool; [reflexivity|]. apply ps_stop; [exact C|].
        apply (dobby_closable s A). rewrite (a_max s A). congruence.
      * cbn. split; [apply tset_eq|]. split; [exact FR|reflexivity].
    + eexists _, _. split; [exact T|]. cbn. split; [apply tset_eq|]. split; [exact FR|]. apply (a_max s A). exact C.
Qed.
End F.
End P.
