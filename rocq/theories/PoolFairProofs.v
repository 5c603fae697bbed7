From Verif Require Import Base Conc Fair PoolModel PoolProofs PoolProofs2 PoolProofs3 PoolRaceProps.
Local Open Scope Z.

(** the steps of the pool's goroutines and of the calls of Run and Stop; nobody has
    to call them *)
Definition p_go (idle : Z) (s : pstate) (l : plab) (s' : pstate) : Prop :=
  p_step idle s l s' /\ match l with LCall _ | LStop _ => False | _ => True end.
(** no goroutine is forgotten: the callers of Run, the workers, the collector.  A call
    of Stop that waits for the collector gets its turn if the collector is at its
    select again and again *)
Record pool_fair (idle : Z) (e : nat -> pstate) : Prop := {
  f_job : forall t, weakly_fair (p_go idle) (fun s => p_job s t) e;
  f_gor : forall g, weakly_fair (p_go idle) (fun s => p_gor s g) e;
  f_col : weakly_fair (p_go idle) p_col e;
  f_st : forall u, strongly_fair (p_go idle) (fun s => p_st s u) e }.
Lemma can_go {A} idle (v : pstate -> A) s l s' : p_step idle s l s' -> (match l with LCall _ | LStop _ => False | _ => True end) -> v s' <> v s -> can_move (p_go idle) v s.
Proof. intros H N M. exists l, s'. split; [split; assumption|exact M]. Qed.

(** *** what a step does to one goroutine *)
Lemma job_step idle s l s' t : p_step idle s l s' -> p_job s' t = p_job s t \/ (exists w, p_job s' t = JSend w) /\ p_job s t = JLock \/
  p_job s' t = JRet false /\ p_job s t = JLock \/ p_job s t = JIdle \/
  (exists w c, p_job s t = JSend w /\ p_obj s w = Some c /\ (p_closed s c = true \/ p_job s' t = JRet true /\ p_buf s' c = Some t)).
Proof.
  intros H. destruct H; unfold new_worker; cbn; try (left; reflexivity).
  all: match goal with |- context [tset (p_job ?s) ?x ?p ?y] => destruct (tset_cases (p_job s) x p y) as [[-> ->]|[_ ->]]; [|left; reflexivity] end; eauto 10.
  do 4 right. exists w, c. rewrite tset_eq. auto.
Qed.
Lemma gor_step idle s l s' g : pinv s -> p_step idle s l s' ->
  p_gor s' g = p_gor s g \/
  match p_gor s g with
  | GNone => p_max s <> -1
  | GStart w => match p_obj s w with Some c => p_gor s' g = GRecv w c | None => True end
  | GRecv w c => (exists t, p_buf s c = Some t /\ p_gor s' g = GHandle w c t /\ p_started s' t = S (p_started s t)) \/ p_closed s c = true /\ p_buf s c = None /\ p_gor s' g = GExit
  | GHandle w c t => p_gor s' g = GFree w c /\ (forall g', g' <> g -> p_gor s' g' = p_gor s g') /\ p_started s' = p_started s
  | GFree w c => p_gor s' g = GLock w c
  | GLock w c => if decide (p_max s = -1) then p_gor s' g = GDone else p_gor s' g = GRecv w c
  | GExit => p_gor s' g = GDone
  | GNil _ | GDone => False
  end.
Proof.
  intros A H. destruct H; unfold new_worker; cbn; try (left; reflexivity).
  all: match goal with |- context [tset (p_gor ?s) ?x ?p ?y] => destruct (tset_cases (p_gor s) x p y) as [[-> ->]|[_ ->]]; [right|left; reflexivity] end.
  all: repeat match goal with H : p_gor _ _ = _ |- _ => rewrite H | H : p_obj _ _ = _ |- _ => rewrite H end; auto.
  - rewrite (a_gor s A (p_ng s)) by lia. assumption.
  - rewrite (a_gor s A (p_ng s)) by lia. assumption.
  - left. exists t. rewrite tset_eq. auto.
  - split; [reflexivity|]. split; [|reflexivity]. intros g' N. apply tset_ne. exact N.
  - rewrite decide_False by assumption. reflexivity.
  - rewrite decide_True by assumption. reflexivity.
Qed.
Lemma buf_step idle s l s' c t : pinv s -> p_step idle s l s' -> p_buf s c = Some t ->
  (p_buf s' c = Some t /\ p_started s' t = p_started s t \/ p_started s' t = S (p_started s t)) /\ (forall w, p_obj s w = Some c -> p_obj s' w = Some c).
Proof.
  intros A H B. destruct (a_buf s A c t B) as (w0 & O & Q).
  split.
  - destruct H; unfold new_worker; cbn; try (left; split; [exact B|reflexivity]).
    + (* send *) left. split; [|reflexivity]. rewrite tset_ne; [exact B|congruence].
    + (* recv *) destruct (decide (t0 = t)) as [->|N]; [right; apply tset_eq|left]. rewrite !tset_ne by congruence. split; [exact B|reflexivity].
  - intros w Hw. pose proof (a_inj s A _ _ _ Hw O) as ->. destruct H; unfold new_worker; cbn; try exact Hw.
    + rewrite tset_ne; [exact Hw|]. intros ->. pose proof (a_new s A (p_nobj s) ltac:(lia)). congruence.
    + rewrite tset_ne; [exact Hw|]. intros ->. assert (I : w ∈ p_pool s) by (match goal with E : p_pool _ = _ |- _ => rewrite E end; apply elem_of_app; right; left).
      apply (a_pool s A) in I. destruct I. congruence.
    + rewrite tset_ne; [exact Hw|]. intros ->. assert (I : p_own s w = OClosing) by (apply (a_closing s A); match goal with E : p_col _ = _ |- _ => rewrite E end; reflexivity). congruence.
Qed.
Lemma col_step idle s l s' : pinv s -> p_step idle s l s' ->
  p_col s' = p_col s \/
  match p_col s with
  | CWait => True
  | CDrain (w :: ws) => p_col s' = CNil w ws
  | CDrain [] => p_col s' = CWait
  | CNil w ws => p_col s' = CPut w ws
  | CPut w ws => p_col s' = CDrain ws
  | CStop => p_col s' = CDead
  | CDead | CPanic => False
  end.
Proof.
  intros A H. pose proof (pinv_step idle s l s' A H) as A'. destruct H; unfold new_worker; cbn; try (left; reflexivity); right.
  all: match goal with E : p_col _ = _ |- _ => rewrite E; try exact I; try reflexivity end.
  - destruct (a_cpanic _ A' eq_refl).
  - destruct (a_cpanic _ A' eq_refl).
Qed.

Section live.
Context (P : nat -> Prop) (maxw : Z) (n : nat) (tts : nat -> Z) (clock idle : Z) (e : nat -> pstate) (ls : nat -> option plab).
Context (Hm : 0 < maxw) (E : execution (p_step_by P idle) (p_init maxw n tts clock) e ls) (F : pool_fair idle e).
Local Notation rch s := (reach (p_init maxw n tts clock) (p_step_by P idle) s).
Lemma lpinv s : rch s -> pinv s.
Proof using Hm. intros R. apply by_reach in R. eapply pinv_reach; eassumption. Qed.
Lemma lbinv s : rch s -> binv s.
Proof using Hm. intros R. apply by_reach in R. eapply binv_reach; eassumption. Qed.
Lemma ldinv s : rch s -> dinv s.
Proof using Hm. intros R. apply by_reach in R. eapply dinv_reach; eassumption. Qed.

(** *** Run returns *)
Lemma lock_leads i t : p_job (e i) t = JLock -> exists j, (i <= j)%nat /\ (p_job (e j) t = JRet false \/ exists w, p_job (e j) t = JSend w).
Proof using E F.
  intros H. refine (leads_weak _ _ e ls E (p_go idle) (fun s => p_job s t) (fun s => p_job s t = JLock) (fun s => p_job s t = JRet false \/ exists w, p_job s t = JSend w) (f_job _ _ F t) _ _ i H).
  - intros s l s' _ J [HS _]. destruct (job_step idle s l s' t HS) as [K|[[[w K] _]|[[K _]|[K|(w & c & K & _)]]]]; try congruence; eauto. left. split; congruence.
  - intros s R J. destruct (decide (p_max s = -1)) as [M|M].
    + eapply can_go; [eapply (ps_stopped idle s t); assumption|exact I|]. cbn. rewrite tset_eq. congruence.
    + destruct (p_dobby s) as [|x d] eqn:D using rev_ind.
      * destruct (Z_lt_le_dec (p_workers s) (p_max s)) as [W|W].
        { eapply can_go; [eapply (ps_new idle s t); assumption|exact I|]. cbn. rewrite tset_eq. congruence. }
        { eapply can_go; [eapply (ps_full idle s t); assumption|exact I|]. cbn. rewrite tset_eq. congruence. }
      * eapply can_go; [eapply (ps_pop idle s t); eassumption|exact I|]. cbn. rewrite tset_eq. congruence.
Qed.
Lemma send_leads i t w : p_job (e i) t = JSend w -> exists j, (i <= j)%nat /\ p_job (e j) t = JRet true.
Proof using E F Hm.
  intros H. refine (leads_weak _ _ e ls E (p_go idle) (fun s => p_job s t) (fun s => p_job s t = JSend w) (fun s => p_job s t = JRet true) (f_job _ _ F t) _ _ i H).
  - intros s l s' R J [HS _]. destruct (send_ready s t w (lpinv s R) J) as (c & O & C & B).
    destruct (job_step idle s l s' t HS) as [K|[[_ K]|[[_ K]|[K|(w' & c' & K & O' & [C'|[K' _]])]]]]; try congruence; auto. left. split; congruence.
  - intros s R J. destruct (send_ready s t w (lpinv s R) J) as (c & O & C & B).
    eapply can_go; [eapply (ps_send idle s t); eassumption|exact I|]. cbn. rewrite tset_eq. congruence.
Qed.
Lemma run_leads i t : p_job (e i) t <> JIdle -> exists j b, (i <= j)%nat /\ p_job (e j) t = JRet b.
Proof using E F Hm.
  intros H. pose proof (lpinv _ (exec_reach _ _ _ _ E i)) as A. destruct (p_job (e i) t) as [| |w|b|] eqn:J; try congruence.
  - destruct (lock_leads i t J) as (j & Hj & [K|[w K]]); [eauto|]. destruct (send_leads j t w K) as (k & Hk & K'). exists k, true. split; [lia|exact K'].
  - destruct (send_leads i t w J) as (k & Hk & K'). eauto.
  - exists i, b. split; [lia|exact J].
  - destruct (a_jpanic _ A t J).
Qed.

(** *** an accepted job is handled *)
Definition buffered (s : pstate) (w c t : nat) : Prop := p_buf s c = Some t /\ p_obj s w = Some c.
Lemma begin_leads i t : p_job (e i) t = JRet true -> exists j, (i <= j)%nat /\ p_started (e j) t = 1%nat.
Proof using E F Hm.
  intros J. pose proof (exec_reach _ _ _ _ E i) as R. pose proof (lpinv _ R) as A. pose proof (lbinv _ R) as B. pose proof (ldinv _ R) as D.
  destruct (b_ok _ B t J) as [S1|[c Bc]]; [exists i; split; [lia|exact S1]|].
  destruct (a_buf _ A c t Bc) as (w & O & Ow). destruct (D w ltac:(rewrite Ow; reflexivity)) as (g & G).
  assert (ONE : forall s l s', rch s -> p_step_by P idle s l s' -> p_started s' t = S (p_started s t) -> p_started s' t = 1%nat).
  { intros s l s' Rs HS H. pose proof (b_le s' (lbinv s' ltac:(eapply reach_snoc; eassumption)) t). lia. }
  assert (L2 : forall i, buffered (e i) w c t /\ p_gor (e i) g = GRecv w c -> exists j, (i <= j)%nat /\ p_started (e j) t = 1%nat).
  { intros i0 H0. refine (leads_weak _ _ e ls E (p_go idle) (fun s => p_gor s g) (fun s => buffered s w c t /\ p_gor s g = GRecv w c) (fun s => p_started s t = 1%nat) (f_gor _ _ F g) _ _ i0 H0).
    - intros s l s' Rs [[B1 O1] G1] HS. destruct (buf_step idle s l s' c t (lpinv s Rs) (proj1 HS) B1) as [[[B2 S2]|S2] OO]; [|right; eapply ONE; eassumption].
      pose proof (gor_step idle s l s' g (lpinv s Rs) (proj1 HS)) as K. rewrite G1 in K. destruct K as [K|[(t' & K1 & K2 & K3)|(K1 & K2 & K3)]]; [left|right|congruence].
      + repeat split; auto. congruence.
      + replace t' with t in K3 by congruence. eapply ONE; eassumption.
    - intros s Rs [[B1 O1] G1]. eapply can_go; [eapply (ps_recv idle s g); eassumption|exact I|]. cbn. rewrite tset_eq. congruence. }
  destruct G as [G|(c' & O' & G)]; [|apply L2; replace c' with c in G by congruence; repeat split; assumption].
  destruct (leads_weak _ _ e ls E (p_go idle) (fun s => p_gor s g) (fun s => buffered s w c t /\ p_gor s g = GStart w)
    (fun s => p_started s t = 1%nat \/ buffered s w c t /\ p_gor s g = GRecv w c) (f_gor _ _ F g)) with (i := i) as (j & Hj & [Q|Q]).
  - intros s l s' Rs [[B1 O1] G1] HS. destruct (buf_step idle s l s' c t (lpinv s Rs) (proj1 HS) B1) as [[[B2 S2]|S2] OO]; [|right; left; eapply ONE; eassumption].
    pose proof (gor_step idle s l s' g (lpinv s Rs) (proj1 HS)) as K. rewrite G1, O1 in K. destruct K as [K|K]; [left|right; right].
    + repeat split; auto. congruence.
    + repeat split; auto.
  - intros s Rs [[B1 O1] G1]. eapply can_go; [eapply (ps_start idle s g); eassumption|exact I|]. cbn. rewrite tset_eq. congruence.
  - repeat split; assumption.
  - exists j. auto.
  - destruct (L2 j Q) as (k & Hk & K). exists k. split; [lia|exact K].
Qed.
Lemma started_keeps t : forall i j, (i <= j)%nat -> p_started (e i) t = 1%nat -> p_started (e j) t = 1%nat.
Proof using E Hm.
  intros i j Hij Hi. refine (always _ _ e ls E (fun s => p_started s t = 1%nat) _ i Hi j Hij).
  intros s l s' R Q HS. pose proof (b_le _ (lbinv s' ltac:(eapply reach_snoc; eassumption)) t) as LE. destruct HS as [HS _].
  destruct HS; cbn in *; try exact Q. destruct (tset_cases (p_started s) t0 (S (p_started s t0)) t) as [[-> X]|[_ X]]; rewrite X in *; lia.
Qed.
Lemma end_leads i t : p_started (e i) t = 1%nat -> exists j, (i <= j)%nat /\ forall g w c, p_gor (e j) g <> GHandle w c t.
Proof using E F Hm.
  intros S1. pose proof (exec_reach _ _ _ _ E i) as R.
  assert (DEC : (forall g w c, p_gor (e i) g <> GHandle w c t) \/ exists g w c, p_gor (e i) g = GHandle w c t).
  { assert (X : forall m, (forall g w c, (g < m)%nat -> p_gor (e i) g <> GHandle w c t) \/ exists g w c, p_gor (e i) g = GHandle w c t).
    { induction m as [|m [IH|IH]]; [left; intros; lia| |right; exact IH].
      destruct (p_gor (e i) m) as [| | | |w c t'| | | |] eqn:G; try (left; intros g w' c' Hg; destruct (decide (g = m)) as [->|]; [congruence|apply IH; lia]).
      destruct (decide (t' = t)) as [->|N]; [right; eauto|]. left; intros g w' c' Hg; destruct (decide (g = m)) as [->|]; [congruence|apply IH; lia]. }
    destruct (X (p_ng (e i))) as [X1|X1]; [left|right; exact X1]. intros g w c G. apply (X1 g w c); [|exact G]. apply gor_lt; [exact (lpinv _ R)|congruence]. }
  destruct DEC as [DEC|(g & w & c & G)]; [exists i; split; [lia|exact DEC]|].
  refine (leads_weak _ _ e ls E (p_go idle) (fun s => p_gor s g) (fun s => p_gor s g = GHandle w c t) (fun s => forall g w c, p_gor s g <> GHandle w c t) (f_gor _ _ F g) _ _ i G).
  - intros s l s' Rs G1 HS. pose proof (gor_step idle s l s' g (lpinv s Rs) (proj1 HS)) as K. rewrite G1 in K. destruct K as [K|(K1 & K2 & K3)]; [left; split; congruence|right].
    intros g' w' c' G'. destruct (decide (g' = g)) as [->|N]; [congruence|]. rewrite K2 in G' by exact N. apply N. exact (b_one s (lbinv s Rs) _ _ _ _ _ _ _ G' G1).
  - intros s Rs G1. eapply can_go; [eapply (ps_handled idle s g); eassumption|exact I|]. cbn. rewrite tset_eq. congruence.
Qed.
End live.

(** *** Stop by the only goroutine that calls it *)
Record sole (u0 : nat) (s : pstate) : Prop := {
  so_before : p_st s u0 = SIdle \/ p_st s u0 = SAgain \/ p_st s u0 = SSend -> col_alive (p_col s) /\ p_stop s = true;
  so_after : p_st s u0 = SNil \/ p_st s u0 = SDone -> ~ col_alive (p_col s);
  so_stuck : p_st s u0 <> SStuck;
  so_other : forall u, u <> u0 -> p_st s u = SIdle }.
Lemma sole_step u0 idle s l s' : pinv s -> sole u0 s -> p_step_by (eq u0) idle s l s' -> sole u0 s'.
Proof.
  intros A S0 [H HP]. pose proof (pinv_step idle s l s' A H) as A'. destruct S0 as [S1 S2 S3 S4].
  assert (K : p_st s' = p_st s -> p_stop s' = p_stop s -> (col_alive (p_col s) <-> col_alive (p_col s')) -> sole u0 s').
  { intros E1 E2 E3. constructor; rewrite ?E1, ?E2; [|rewrite <- E3; exact S2|exact S3|exact S4]. rewrite <- E3. exact S1. }
  destruct H; try (apply K; [reflexivity|reflexivity|cbn; first [reflexivity|repeat match goal with E : p_col _ = _ |- _ => rewrite E end; cbn; tauto]]).
  all: try (destruct (a_cpanic _ A' eq_refl)).
  - (* the collector stops at a tick: only once stopped *) pose proof (a_max s A) as [X _]. exfalso. specialize (X ltac:(assumption)). congruence.
  - (* meet *) destruct (decide (u = u0)) as [->|N]; [|rewrite (S4 u N) in *; discriminate].
    constructor; cbn; rewrite ?tset_eq; [intros [?|[?|?]]; discriminate|auto|discriminate|]. intros u N. rewrite tset_ne by exact N. apply S4. exact N.
  - (* Stop is called *) specialize (HP u eq_refl). subst u. destruct (S1 ltac:(auto)) as [C1 C2].
    constructor; cbn; rewrite ?tset_eq, ?C2; [auto|intros [?|?]; discriminate|discriminate|]. intros u N. rewrite tset_ne by exact N. apply S4. exact N.
  - (* 211 *) destruct (decide (u = u0)) as [->|N]; [|rewrite (S4 u N) in *; discriminate]. destruct (S1 ltac:(auto)) as [C1 C2].
    constructor; cbn; rewrite ?tset_eq, ?C2; [auto|intros [?|?]; discriminate|discriminate|]. intros u N. rewrite tset_ne by exact N. apply S4. exact N.
  - (* 212 *) destruct (decide (u = u0)) as [->|N]; [|rewrite (S4 u N) in *; discriminate].
    constructor; cbn; rewrite ?tset_eq; [intros [?|[?|?]]; discriminate|intros _; apply S2; auto|discriminate|]. intros u N. rewrite tset_ne by exact N. apply S4. exact N.
Qed.

Lemma st_step u0 idle s l s' : p_step idle s l s' -> p_st s' u0 = p_st s u0 \/
  p_st s u0 = SIdle \/ p_st s u0 = SAgain /\ p_st s' u0 = (if p_stop s then SSend else SStuck) \/ p_st s u0 = SSend /\ p_st s' u0 = SNil \/ p_st s u0 = SNil /\ p_st s' u0 = SDone.
Proof.
  intros H. destruct H; unfold new_worker; cbn; try (left; reflexivity).
  all: match goal with |- context [tset (p_st ?s) ?x ?p ?y] => destruct (tset_cases (p_st s) x p y) as [[-> ->]|[_ ->]]; [|left; reflexivity] end; auto 6.
Qed.

Section stop.
Context (u0 : nat) (maxw : Z) (n : nat) (tts : nat -> Z) (clock idle : Z) (e : nat -> pstate) (ls : nat -> option plab).
Context (Hm : 0 < maxw) (E : execution (p_step_by (eq u0) idle) (p_init maxw n tts clock) e ls) (F : pool_fair idle e).
Local Notation rch s := (reach (p_init maxw n tts clock) (p_step_by (eq u0) idle) s).
Local Notation lpinv := (lpinv (eq u0) maxw n tts clock idle Hm).
Lemma lsole s : rch s -> sole u0 s.
Proof using Hm.
  intros R. assert (H : pinv s /\ sole u0 s); [|tauto]. revert s R. apply reach_invariant.
  - split; [apply pinv_init; exact Hm|]. constructor; cbn; try discriminate; auto. intros [?|?]; discriminate.
  - intros s l s' [A S0] HS. split; [exact (pinv_step idle s l s' A (proj1 HS))|exact (sole_step u0 idle s l s' A S0 HS)].
Qed.
Lemma col_leads_one (a b : cpc) i : p_col (e i) = a ->
  (forall s l s', rch s -> p_col s = a -> p_step idle s l s' -> p_col s' = a \/ p_col s' = b) ->
  (forall s, rch s -> p_col s = a -> exists l s', p_go idle s l s' /\ p_col s' = b) -> a <> b ->
  exists j, (i <= j)%nat /\ p_col (e j) = b.
Proof using E F.
  intros H K C N. refine (leads_weak _ _ e ls E (p_go idle) p_col (fun s => p_col s = a) (fun s => p_col s = b) (f_col _ _ F) _ _ i H).
  - intros s l s' R Ha [HS _]. destruct (K s l s' R Ha HS) as [?|?]; [left; split; congruence|right; assumption].
  - intros s R Ha. destruct (C s R Ha) as (l & s' & G & Hb). exists l, s'. split; [exact G|congruence].
Qed.
Lemma drain_leads ws : forall i, p_col (e i) = CDrain ws -> exists j, (i <= j)%nat /\ p_col (e j) = CWait.
Proof using E F Hm.
  induction ws as [|w ws IH]; intros i H.
  - refine (col_leads_one (CDrain []) CWait i H _ _ ltac:(discriminate)).
    + intros s l s' R Hc HS. pose proof (col_step idle s l s' (lpinv s R) HS) as K. rewrite Hc in K. destruct K; auto.
    + intros s R Hc. eexists _, _. split; [split; [apply (ps_drained idle s Hc)|exact I]|reflexivity].
  - destruct (col_leads_one (CDrain (w :: ws)) (CNil w ws) i H) as (j & Hj & J); [| |discriminate|].
    { intros s l s' R Hc HS. pose proof (col_step idle s l s' (lpinv s R) HS) as K. rewrite Hc in K. destruct K; auto. }
    { intros s R Hc. pose proof (lpinv s R) as A. assert (O : p_own s w = OCol) by (apply (a_col s A); rewrite Hc; left).
      destruct (a_open s A w ltac:(rewrite O; reflexivity)) as (c & O1 & O2).
      eexists _, _. split; [split; [eapply (ps_close idle s); eassumption|exact I]|reflexivity]. }
    destruct (col_leads_one (CNil w ws) (CPut w ws) j J) as (k & Hk & K); [| |discriminate|].
    { intros s l s' R Hc HS. pose proof (col_step idle s l s' (lpinv s R) HS) as K. rewrite Hc in K. destruct K; auto. }
    { intros s R Hc. eexists _, _. split; [split; [eapply (ps_nil idle s); eassumption|exact I]|reflexivity]. }
    destruct (col_leads_one (CPut w ws) (CDrain ws) k K) as (m & Hm' & M); [| |discriminate|].
    { intros s l s' R Hc HS. pose proof (col_step idle s l s' (lpinv s R) HS) as X. rewrite Hc in X. destruct X; auto. }
    { intros s R Hc. eexists _, _. split; [split; [eapply (ps_put idle s); eassumption|exact I]|reflexivity]. }
    destruct (IH m M) as (p & Hp & Q). exists p. split; [lia|exact Q].
Qed.
Lemma alive_leads i : col_alive (p_col (e i)) -> exists j, (i <= j)%nat /\ p_col (e j) = CWait.
Proof using E F Hm.
  intros H. destruct (p_col (e i)) as [|ws|w ws|w ws| | |] eqn:C; try destruct H.
  - exists i. auto.
  - exact (drain_leads ws i C).
  - destruct (col_leads_one (CNil w ws) (CPut w ws) i C) as (k & Hk & K); [| |discriminate|].
    { intros s l s' R Hc HS. pose proof (col_step idle s l s' (lpinv s R) HS) as K. rewrite Hc in K. destruct K; auto. }
    { intros s R Hc. eexists _, _. split; [split; [eapply (ps_nil idle s); eassumption|exact I]|reflexivity]. }
    destruct (col_leads_one (CPut w ws) (CDrain ws) k K) as (m & Hm' & M); [| |discriminate|].
    { intros s l s' R Hc HS. pose proof (col_step idle s l s' (lpinv s R) HS) as X. rewrite Hc in X. destruct X; auto. }
    { intros s R Hc. eexists _, _. split; [split; [eapply (ps_put idle s); eassumption|exact I]|reflexivity]. }
    destruct (drain_leads ws m M) as (p & Hp & Q). exists p. split; [lia|exact Q].
  - destruct (col_leads_one (CPut w ws) (CDrain ws) i C) as (m & Hm' & M); [| |discriminate|].
    { intros s l s' R Hc HS. pose proof (col_step idle s l s' (lpinv s R) HS) as X. rewrite Hc in X. destruct X; auto. }
    { intros s R Hc. eexists _, _. split; [split; [eapply (ps_put idle s); eassumption|exact I]|reflexivity]. }
    destruct (drain_leads ws m M) as (p & Hp & Q). exists p. split; [lia|exact Q].
Qed.
Lemma again_leads i : p_st (e i) u0 = SAgain -> exists j, (i <= j)%nat /\ p_st (e j) u0 = SSend.
Proof using E F Hm.
  intros H. refine (leads_weak _ _ e ls E (p_go idle) (fun s => p_st s u0) (fun s => p_st s u0 = SAgain) (fun s => p_st s u0 = SSend) (strong_weak _ _ _ (f_st _ _ F u0)) _ _ i H).
  - intros s l s' R Hs [HS _]. destruct (so_before u0 s (lsole s R) ltac:(auto)) as [_ C].
    destruct (st_step u0 idle s l s' HS) as [K|[K|[[_ K]|[[K _]|[K _]]]]]; try congruence; [left; split; congruence|]. rewrite C in K. auto.
  - intros s R Hs. destruct (so_before u0 s (lsole s R) ltac:(auto)) as [_ C].
    eapply can_go; [eapply (ps_stop_again idle s); eassumption|exact I|]. cbn. rewrite tset_eq, C. congruence.
Qed.
Lemma ssend_leads i : p_st (e i) u0 = SSend -> exists j, (i <= j)%nat /\ p_st (e j) u0 = SNil.
Proof using E F Hm.
  intros H. refine (leads_strong _ _ e ls E (p_go idle) (fun s => p_st s u0) (fun s => p_st s u0 = SSend) (fun s => p_st s u0 = SNil) (f_st _ _ F u0) _ _ i H).
  - intros s l s' R Hs [HS _]. destruct (st_step u0 idle s l s' HS) as [K|[K|[[K _]|[[_ K]|[K _]]]]]; try congruence; [left; split; congruence|auto].
  - intros j Hs. pose proof (exec_reach _ _ _ _ E j) as R. destruct (so_before u0 _ (lsole _ R) ltac:(auto)) as [C _].
    destruct (alive_leads j C) as (k & Hk & K).
    destruct (until _ _ e ls E (fun s => p_st s u0) (fun s => p_st s u0 = SSend) (fun s => p_st s u0 = SNil)) with (i := j) (j := k) as [[S1 _]|(m & Hm' & M)]; auto.
    + intros s l s' Rs Hs' [HS _]. destruct (st_step u0 idle s l s' HS) as [K'|[K'|[[K' _]|[[_ K']|[K' _]]]]]; try congruence; [left; split; congruence|auto].
    + exists k. split; [lia|left]. eapply can_go; [eapply (ps_meet idle (e k)); eassumption|exact I|]. cbn. rewrite tset_eq. congruence.
    + exists m. split; [lia|auto].
Qed.
Lemma snil_leads i : p_st (e i) u0 = SNil -> exists j, (i <= j)%nat /\ p_st (e j) u0 = SDone.
Proof using E F.
  intros H. refine (leads_weak _ _ e ls E (p_go idle) (fun s => p_st s u0) (fun s => p_st s u0 = SNil) (fun s => p_st s u0 = SDone) (strong_weak _ _ _ (f_st _ _ F u0)) _ _ i H).
  - intros s l s' R Hs [HS _]. destruct (st_step u0 idle s l s' HS) as [K|[K|[[K _]|[[K _]|[_ K]]]]]; try congruence; [left; split; congruence|auto].
  - intros s R Hs. eapply can_go; [eapply (ps_stop_nil idle s); eassumption|exact I|]. cbn. rewrite tset_eq. congruence.
Qed.
Lemma stop_leads i : p_st (e i) u0 <> SIdle -> exists j, (i <= j)%nat /\ p_st (e j) u0 = SDone.
Proof using E F Hm.
  intros H. pose proof (lsole _ (exec_reach _ _ _ _ E i)) as S0.
  assert (L3 : forall i, p_st (e i) u0 = SSend -> exists j, (i <= j)%nat /\ p_st (e j) u0 = SDone).
  { intros i0 H0. destruct (ssend_leads i0 H0) as (j & Hj & J). destruct (snil_leads j J) as (k & Hk & K). exists k. split; [lia|exact K]. }
  destruct (p_st (e i) u0) eqn:S; try congruence.
  - destruct (again_leads i S) as (j & Hj & J). destruct (L3 j J) as (k & Hk & K). exists k. split; [lia|exact K].
  - exact (L3 i S).
  - destruct (so_stuck _ _ S0 S).
  - exact (snil_leads i S).
  - exists i. auto.
Qed.
Lemma stopped_leads i : p_st (e i) u0 <> SIdle -> exists j, (i <= j)%nat /\ p_st (e j) u0 = SDone /\ p_max (e j) = -1.
Proof using E F Hm.
  intros H. destruct (stop_leads i H) as (j & Hj & J). pose proof (exec_reach _ _ _ _ E j) as R. pose proof (lpinv _ R) as A.
  pose proof (so_after _ _ (lsole _ R) ltac:(auto)) as C.
  assert (D : forall k, (j <= k)%nat -> p_st (e k) u0 = SDone).
  { intros k Hk. refine (always _ _ e ls E (fun s => p_st s u0 = SDone) _ j J k Hk). intros s l s' _ Q [HS _]. destruct (st_step u0 idle s l s' HS) as [K|[K|[[K _]|[[K _]|[K _]]]]]; congruence. }
  destruct (p_col (e j)) eqn:Cj; try (destruct C; exact I).
  - destruct (col_leads_one CStop CDead j Cj) as (k & Hk & K); [| |discriminate|].
    { intros s l s' Rs Hc HS. pose proof (col_step idle s l s' (lpinv s Rs) HS) as X. rewrite Hc in X. destruct X; auto. }
    { intros s Rs Hc. pose proof (lpinv s Rs) as As. eexists _, _. split; [split; [eapply (ps_stop idle s); [exact Hc|]|exact I]|reflexivity].
      apply dobby_closable; [exact As|]. intros M. apply (a_max s As) in M. congruence. }
    exists k. split; [lia|]. split; [apply D; exact Hk|]. apply (a_max _ (lpinv _ (exec_reach _ _ _ _ E k))). exact K.
  - exists j. split; [exact Hj|]. split; [exact J|]. apply (a_max _ A). exact Cj.
  - destruct (a_cpanic _ A Cj).
Qed.
End stop.

(** *** the workers of a stopped pool without preheated workers *)
Lemma close_step idle s l s' c : pinv s -> p_max s = -1 -> p_step idle s l s' -> p_closed s' c = p_closed s c.
Proof.
  intros A M H. pose proof (proj1 (a_max s A) M) as C. destruct H; unfold new_worker; cbn; try reflexivity; congruence.
Qed.
Lemma closed_step idle s l s' c : pinv s -> p_step idle s l s' -> p_closed s c = true -> p_closed s' c = true.
Proof.
  intros A H C. destruct H; unfold new_worker; cbn; try exact C.
  - apply close_all_true. auto.
  - destruct (tset_cases (p_closed s) c0 true c) as [[_ ->]|[_ ->]]; [reflexivity|exact C].
  - apply close_all_true. auto.
Qed.

Section drain.
Context (P : nat -> Prop) (maxw : Z) (tts : nat -> Z) (clock idle : Z) (e : nat -> pstate) (ls : nat -> option plab).
Context (Hm : 0 < maxw) (E : execution (p_step_by P idle) (p_init maxw 0 tts clock) e ls) (F : pool_fair idle e).
Local Notation rch s := (reach (p_init maxw 0 tts clock) (p_step_by P idle) s).
Local Notation lpinv := (lpinv P maxw 0 tts clock idle Hm).
Lemma leinv s : rch s -> einv s.
Proof using Hm. intros R. apply by_reach in R. eapply einv_reach; eassumption. Qed.
Lemma max_step s l s' : p_step idle s l s' -> p_max s = -1 -> p_max s' = -1.
Proof. intros H M. apply (stopped_stays idle s [l] s' M). apply (steps_cons _ _ _ _ _ _ H). constructor. Qed.
Lemma max_keeps i j : (i <= j)%nat -> p_max (e i) = -1 -> p_max (e j) = -1.
Proof using E.
  intros Hij H. refine (always _ _ e ls E (fun s => p_max s = -1) _ i H j Hij). intros s l s' _ M [HS _]. exact (max_step s l s' HS M).
Qed.
(** progress of goroutine g when what it is at stays possible *)
Lemma gor_leads (R Q : pstate -> Prop) g i : R (e i) -> p_max (e i) = -1 ->
  (forall s l s', rch s -> p_max s = -1 -> R s -> p_step idle s l s' -> R s' /\ p_gor s' g = p_gor s g \/ Q s') ->
  (forall s, rch s -> p_max s = -1 -> R s -> can_move (p_go idle) (fun s => p_gor s g) s) ->
  exists j, (i <= j)%nat /\ Q (e j).
Proof using E F.
  intros H M K C. refine (leads_weak _ _ e ls E (p_go idle) (fun s => p_gor s g) (fun s => R s /\ p_max s = -1) Q (f_gor _ _ F g) _ _ i (conj H M)).
  - intros s l s' Rs [HR M1] [HS _]. destruct (K s l s' Rs M1 HR HS) as [[K1 K2]|K1]; [left|right; exact K1]. split; [split; [exact K1|exact (max_step s l s' HS M1)]|exact K2].
  - intros s Rs [HR M1]. exact (C s Rs M1 HR).
Qed.
Local Notation gone g s := (live (p_gor s g) = 0).
Lemma exit_leads g i : p_gor (e i) g = GExit -> p_max (e i) = -1 -> exists j, (i <= j)%nat /\ gone g (e j).
Proof using E F Hm.
  intros H M. refine (gor_leads (fun s => p_gor s g = GExit) (fun s => gone g s) g i H M _ _).
  - intros s l s' Rs _ G HS. pose proof (gor_step idle s l s' g (lpinv s Rs) HS) as K. rewrite G in K. destruct K as [K|K]; [left; split; congruence|right; rewrite K; reflexivity].
  - intros s Rs _ G. eapply can_go; [eapply (ps_exit idle s g); eassumption|exact I|]. cbn. rewrite tset_eq. congruence.
Qed.
Lemma glock_leads g w c i : p_gor (e i) g = GLock w c -> p_max (e i) = -1 -> exists j, (i <= j)%nat /\ gone g (e j).
Proof using E F Hm.
  intros H M. refine (gor_leads (fun s => p_gor s g = GLock w c) (fun s => gone g s) g i H M _ _).
  - intros s l s' Rs M1 G HS. pose proof (gor_step idle s l s' g (lpinv s Rs) HS) as K. rewrite G, decide_True in K by exact M1. destruct K as [K|K]; [left; split; congruence|right; rewrite K; reflexivity].
  - intros s Rs M1 G. eapply can_go; [eapply (ps_free_stop idle s g); eassumption|exact I|]. cbn. rewrite tset_eq. congruence.
Qed.
Lemma gfree_leads g w c i : p_gor (e i) g = GFree w c -> p_max (e i) = -1 -> exists j, (i <= j)%nat /\ gone g (e j).
Proof using E F Hm.
  intros H M. destruct (gor_leads (fun s => p_gor s g = GFree w c) (fun s => p_gor s g = GLock w c) g i H M) as (j & Hj & J).
  - intros s l s' Rs M1 G HS. pose proof (gor_step idle s l s' g (lpinv s Rs) HS) as K. rewrite G in K. destruct K as [K|K]; [left; split; congruence|right; exact K].
  - intros s Rs M1 G. eapply can_go; [eapply (ps_tt idle s g); eassumption|exact I|]. cbn. rewrite tset_eq. congruence.
  - destruct (glock_leads g w c j J) as (k & Hk & K); [eapply max_keeps; eassumption|]. exists k. split; [lia|exact K].
Qed.
Lemma ghandle_leads g w c t i : p_gor (e i) g = GHandle w c t -> p_max (e i) = -1 -> exists j, (i <= j)%nat /\ gone g (e j).
Proof using E F Hm.
  intros H M. destruct (gor_leads (fun s => p_gor s g = GHandle w c t) (fun s => p_gor s g = GFree w c) g i H M) as (j & Hj & J).
  - intros s l s' Rs M1 G HS. pose proof (gor_step idle s l s' g (lpinv s Rs) HS) as K. rewrite G in K. destruct K as [K|(K & _)]; [left; split; congruence|right; exact K].
  - intros s Rs M1 G. eapply can_go; [eapply (ps_handled idle s g); eassumption|exact I|]. cbn. rewrite tset_eq. congruence.
  - destruct (gfree_leads g w c j J) as (k & Hk & K); [eapply max_keeps; eassumption|]. exists k. split; [lia|exact K].
Qed.
(** something has come for it: a job, or the end of its channel *)
Definition fed (s : pstate) (g w c : nat) : Prop := p_gor s g = GRecv w c /\ ((exists t, p_buf s c = Some t) \/ p_closed s c = true).
Lemma fed_leads g w c i : fed (e i) g w c -> p_max (e i) = -1 -> exists j, (i <= j)%nat /\ gone g (e j).
Proof using E F Hm.
  intros H M. destruct (gor_leads (fun s => fed s g w c) (fun s => (exists t, p_gor s g = GHandle w c t) \/ p_gor s g = GExit) g i H M) as (j & Hj & J).
  - intros s l s' Rs M1 [G D] HS. pose proof (lpinv s Rs) as A. pose proof (gor_step idle s l s' g A HS) as K. rewrite G in K.
    destruct K as [K|[(t & _ & K & _)|(_ & _ & K)]]; [|right; eauto|right; auto]. left. split; [|congruence]. split; [exact K|].
    destruct D as [[t B]|C]; [|right; exact (closed_step idle s l s' c A HS C)].
    destruct (buf_step idle s l s' c t A HS B) as [[[B' _]|S'] _]; [left; eauto|]. exfalso.
    (* another goroutine has taken the job: it would wait at the same channel *)
    destruct (a_buf s A c t B) as (w0 & O & Ow0).
    destruct HS; cbn in *; try lia.
    match goal with G' : p_gor s ?g' = GRecv ?w' ?c' |- _ => assert (X : g = g') end.
    { assert (Hc : c0 = c). { destruct (tset_cases (p_started s) t0 (S (p_started s t0)) t) as [[<- X]|[_ X]]; [|rewrite X in S'; lia].
        refine (b_uniq s (lbinv P maxw 0 tts clock idle Hm s Rs) _ _ t _ _); assumption. }
      subst c0. pose proof (leinv s Rs) as Ei. apply (e_uniq s Ei g g0 w0).
      - right. exists c. split; [exact O|left]. destruct (a_recv s A g w c G) as [_ [O2|O2]].
        + rewrite (a_inj s A _ _ _ O O2). exact G.
        + destruct (a_open s A w0 ltac:(rewrite Ow0; reflexivity)) as (c1 & O3 & O4). congruence.
      - right. exists c. split; [exact O|left]. match goal with G' : p_gor s g0 = GRecv ?w' c |- _ => destruct (a_recv s A g0 w' c G') as [_ [O2|O2]]; [rewrite (a_inj s A _ _ _ O O2); exact G'|] end.
        destruct (a_open s A w0 ltac:(rewrite Ow0; reflexivity)) as (c1 & O3 & O4). congruence. }
    subst g0. rewrite tset_eq in K. congruence.
  - intros s Rs M1 [G D]. destruct (p_buf s c) as [t|] eqn:B.
    + eapply can_go; [eapply (ps_recv idle s g); eassumption|exact I|]. cbn. rewrite tset_eq. congruence.
    + destruct D as [[t B']|C]; [congruence|]. eapply can_go; [eapply (ps_range_end idle s g); eassumption|exact I|]. cbn. rewrite tset_eq. congruence.
  - assert (Mj : p_max (e j) = -1) by (eapply max_keeps; eassumption).
    destruct J as [[t J]|J]; [destruct (ghandle_leads g w c t j J Mj) as (k & Hk & K)|destruct (exit_leads g j J Mj) as (k & Hk & K)]; exists k; (split; [lia|exact K]).
Qed.
Lemma recv_leads g w c i : p_gor (e i) g = GRecv w c -> p_max (e i) = -1 -> exists j, (i <= j)%nat /\ gone g (e j).
Proof using E F Hm.
  intros G M. pose proof (exec_reach _ _ _ _ E i) as R. pose proof (lpinv _ R) as A. pose proof (leinv _ R) as Ei.
  destruct (p_closed (e i) c) eqn:C; [apply (fed_leads g w c i); [split; auto|exact M]|].
  pose proof (e_open _ Ei g w c G C) as Ow. destruct (a_recv _ A g w c G) as [_ [O|O]]; [|congruence].
  destruct (p_own (e i) w) as [| |t| | | | |] eqn:Own; try discriminate.
  - destruct (a_dobby_stop _ A M w Own).
  - (* a call of Run is about to send *) apply (a_run _ A) in Own.
    destruct (leads_weak _ _ e ls E (p_go idle) (fun s => p_job s t) (fun s => p_gor s g = GRecv w c /\ p_job s t = JSend w /\ p_obj s w = Some c /\ p_max s = -1)
      (fun s => fed s g w c /\ p_max s = -1) (f_job _ _ F t)) with (i := i) as (j & Hj & J1 & J2).
    + intros s l s' Rs (G1 & J1 & O1 & M1) [HS _]. pose proof (lpinv s Rs) as As.
      destruct (send_ready s t w As J1) as (c' & O' & C' & B'). replace c' with c in * by congruence. clear c' O'.
      assert (GG : p_gor s' g = GRecv w c).
      { pose proof (gor_step idle s l s' g As HS) as K. rewrite G1 in K. destruct K as [K|[(t' & K & _)|(K & _)]]; congruence. }
      destruct (job_step idle s l s' t HS) as [K|[[_ K]|[[_ K]|[K|(w' & c' & K & O' & [C''|[K1 K2]])]]]]; try congruence.
      * left. split; [|exact K]. split; [exact GG|]. split; [congruence|]. split; [|exact (max_step s l s' HS M1)].
        assert (Ow1 : p_own s w = ORun t) by (apply (a_run s As); exact J1). pose proof (proj1 (a_max s As) M1) as Cd.
        destruct HS; unfold new_worker in *; cbn in *; try exact O1; try congruence.
      * right. split; [|exact (max_step s l s' HS M1)]. split; [exact GG|left]. exists t. congruence.
    + intros s Rs (G1 & J1 & O1 & M1). destruct (send_ready s t w (lpinv s Rs) J1) as (c' & O' & C' & B').
      eapply can_go; [eapply (ps_send idle s t); eassumption|exact I|]. cbn. rewrite tset_eq. congruence.
    + auto.
    + destruct (fed_leads g w c j J1 J2) as (k & Hk & K). exists k. split; [lia|exact K].
  - destruct (a_queued _ A w Own) as (c' & t & O' & B'). apply (fed_leads g w c i); [|exact M]. split; [exact G|left]. exists t. congruence.
  - apply (a_col _ A) in Own. rewrite (proj1 (a_max _ A) M) in Own. inversion Own.
Qed.
Lemma gor_gone g i : p_max (e i) = -1 -> exists j, (i <= j)%nat /\ gone g (e j).
Proof using E F Hm.
  intros M. pose proof (exec_reach _ _ _ _ E i) as R. pose proof (leinv _ R) as Ei.
  destruct (p_gor (e i) g) as [|w|w|w c|w c t|w c|w c| |] eqn:G.
  - exists i. rewrite G. auto.
  - destruct (gor_leads (fun s => p_gor s g = GStart w) (fun s => exists c, p_gor s g = GRecv w c) g i G M) as (j & Hj & [c J]).
    + intros s l s' Rs M1 G1 HS. pose proof (lpinv s Rs) as As. pose proof (gor_step idle s l s' g As HS) as K. rewrite G1 in K.
      destruct K as [K|K]; [left; split; congruence|right].
      assert (U : usable (p_own s w) = true) by (destruct (e_start s (leinv s Rs) g w G1) as [[t U]|U]; rewrite U; reflexivity).
      destruct (a_open s As w U) as (c & O & _). rewrite O in K. eauto.
    + intros s Rs M1 G1. assert (U : usable (p_own s w) = true) by (destruct (e_start s (leinv s Rs) g w G1) as [[t U]|U]; rewrite U; reflexivity).
      destruct (a_open s (lpinv s Rs) w U) as (c & O & _). eapply can_go; [eapply (ps_start idle s g); eassumption|exact I|]. cbn. rewrite tset_eq. congruence.
    + destruct (recv_leads g w c j J) as (k & Hk & K); [eapply max_keeps; eassumption|]. exists k. split; [lia|exact K].
  - destruct (e_nil _ Ei g w G).
  - exact (recv_leads g w c i G M).
  - exact (ghandle_leads g w c t i G M).
  - exact (gfree_leads g w c i G M).
  - exact (glock_leads g w c i G M).
  - exact (exit_leads g i G M).
  - exists i. rewrite G. auto.
Qed.
Lemma gone_keeps g i j : p_max (e i) = -1 -> (i <= j)%nat -> gone g (e i) -> gone g (e j).
Proof using E Hm.
  intros M Hij H. assert (X : gone g (e j) /\ p_max (e j) = -1); [|tauto].
  refine (always _ _ e ls E (fun s => gone g s /\ p_max s = -1) _ i (conj H M) j Hij).
  intros s l s' Rs [L1 M1] [HS _]. split; [|exact (max_step s l s' HS M1)].
  pose proof (gor_step idle s l s' g (lpinv s Rs) HS) as K. destruct K as [K|K]; [rewrite K; exact L1|]. destruct (p_gor s g); cbn in *; congruence || tauto.
Qed.
Lemma ng_keeps i j : p_max (e i) = -1 -> (i <= j)%nat -> p_ng (e j) = p_ng (e i).
Proof using E.
  intros M Hij. assert (X : p_ng (e j) = p_ng (e i) /\ p_max (e j) = -1); [|tauto].
  refine (always _ _ e ls E (fun s => p_ng s = p_ng (e i) /\ p_max s = -1) _ i (conj eq_refl M) j Hij).
  intros s l s' Rs [N1 M1] [HS _]. split; [|exact (max_step s l s' HS M1)].
  destruct HS; unfold new_worker; cbn; congruence.
Qed.
Lemma workers_leads i : p_max (e i) = -1 -> exists j, (i <= j)%nat /\ p_workers (e j) = 0 /\ forall g, live (p_gor (e j) g) = 0.
Proof using E F Hm.
  intros M. destruct (eventually_all e (fun g s => gone g s /\ p_max s = -1) (p_ng (e i)) i) as (j & Hj & Q).
  - intros g Hg j Hj. assert (Mj : p_max (e j) = -1) by (eapply max_keeps; eassumption). destruct (gor_gone g j Mj) as (k & Hk & K). exists k. split; [exact Hk|]. split; [exact K|eapply max_keeps; eassumption].
  - intros g j k Hg Hjk [G Mj]. split; [eapply gone_keeps; eassumption|eapply max_keeps; eassumption].
  - exists j. split; [exact Hj|]. pose proof (exec_reach _ _ _ _ E j) as R.
    assert (N : p_ng (e j) = p_ng (e i)) by (apply ng_keeps; assumption). split.
    + rewrite (cinv_reach idle maxw 0 tts clock _ Hm (by_reach _ _ _ _ _ _ _ R)). apply total_zero. intros g Hg. apply Q. lia.
    + intros g. destruct (decide (g < p_ng (e i))%nat) as [L|L]; [apply Q; exact L|]. rewrite (a_gor _ (lpinv _ R)) by lia. reflexivity.
Qed.
End drain.
