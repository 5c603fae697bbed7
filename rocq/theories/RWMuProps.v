(** sync.RWMutex whose w is a sync.Mutex with its own code, and syncmapx on it. *)
From stdpp Require Import gmap.
From Verif Require Import Base Conc Lin Fair SyncMapModel SyncMapProofs RWModel RWProofs RWFairProofs SyncMapRWModel SyncMapRWProofs SyncMapRWFairProofs SyncMapRWProps MutexModel MutexProofs MutexProps RWMuModel RWMuProofs.

Lemma rw_forget_none r : rw_w r = None -> rw_forget r = r.
Proof. destruct r. cbn. intros ->. reflexivity. Qed.
Lemma rwmu_inv N ls r m : (Z.of_nat N <= 2^30)%Z -> steps (rwmu_step N) (rw_new, mx_new) ls (r, m) -> cinv (rw_step N) (fun r => r) N rw_new ls (r, m).
Proof. intros HN. apply cinv_steps; [exact HN|reflexivity|auto|apply rw_forget_none]. Qed.
Lemma owner_hold N r m : rwinv N r -> (forall t, linked (rw_pc r t) (x_pc m t)) -> forall t, rw_w r = Some t <-> x_pc m t = XHold.
Proof.
  intros HR Il t. rewrite <- (rv_w _ _ HR t). specialize (Il t). destruct (rw_pc r t); cbn in *; split; intros Q; try tauto; try rewrite Q in Il; cbn in *; try discriminate Il; try tauto. destruct Il; [discriminate|tauto].
Qed.
(** *** Whatever the goroutines do, the RWMutex does what it does with an owner in place of the mutex; the mutex does what it
    does alone; who is the owner is who has the mutex, and the runtime never aborts *)
Theorem rwmutex_over_mutex :
  forall N ls r m, (Z.of_nat N <= 2^30)%Z -> steps (rwmu_step N) (rw_new, mx_new) ls (r, m) ->
    steps (rw_step N) rw_new (c_proj ls) r /\ (exists ms, steps (mx_step N) mx_new ms m) /\
    (forall t, rw_w r = Some t <-> x_pc m t = XHold) /\ x_bad m = false.
Proof.
  intros N ls r m HN HS. destruct (rwmu_inv N ls r m HN HS) as [Is [ms Im] Il]. cbn [fst snd] in *. split; [exact Is|]. split; [eauto|]. split; [|eapply mutex_never_aborts; exact Im].
  apply (owner_hold N); [apply rwinv_reach; [exact HN|eexists; exact Is]|exact Il].
Qed.
(** *** Whoever has it for writing has it alone *)
Theorem rwmutex_over_mutex_excludes :
  forall N ls r m t u, (Z.of_nat N <= 2^30)%Z -> steps (rwmu_step N) (rw_new, mx_new) ls (r, m) ->
    rw_pc r t = PWHold -> u <> t -> rw_pc r u <> PWHold /\ rw_pc r u <> PRHold.
Proof. intros N ls r m t u HN HS. destruct (rwmutex_over_mutex N ls r m HN HS) as [Is _]. apply (rwmutex_excludes N); [exact HN|eexists; exact Is]. Qed.
Print Assumptions rwmutex_over_mutex.
Print Assumptions rwmutex_over_mutex_excludes.

(** while somebody is in a call or has the lock, somebody of them can go on *)
Lemma rw_some N s t : rwinv N s -> rw_pc s t <> PIdle -> exists u, rw_pc s u <> PIdle /\ free_to_go s (rw_pc s u).
Proof.
  intros IV Ht. pose proof IV as [IN IW IO].
  assert (F : forall u p, rw_pc s u = p -> p <> PIdle -> free_to_go s p -> exists u, rw_pc s u <> PIdle /\ free_to_go s (rw_pc s u)) by (intros u p <-; eauto).
  assert (P : forall f p, (forall q, (0 < f q)%Z -> q = p) -> p <> PIdle -> free_to_go s p -> (0 < cs N f (rw_pc s))%Z -> exists u, rw_pc s u <> PIdle /\ free_to_go s (rw_pc s u)).
  { intros f p Hf Hp Hg L. destruct (csum_pos _ _ L) as (u & _ & Hu). apply (F u p); auto. }
  pose proof (fun L => P RWProofs.n_hold PRHold ltac:(intros []; cbn; auto; lia) ltac:(discriminate) I L) as P1.
  pose proof (fun L => P n_dec PRDec ltac:(intros []; cbn; auto; lia) ltac:(discriminate) I L) as P2.
  pose proof (fun L => P n_post PRPost ltac:(intros []; cbn; auto; lia) ltac:(discriminate) I L) as P3.
  pose proof (fun A L => P RWProofs.n_sem PRSem ltac:(intros []; cbn; auto; lia) ltac:(discriminate) A L) as P4. cbn [free_to_go] in P4.
  pose proof (cs_nonneg N RWProofs.n_hold (rw_pc s) ltac:(intros []; cbn; lia)) as B1. pose proof (cs_nonneg N n_dec (rw_pc s) ltac:(intros []; cbn; lia)) as B2.
  destruct (rw_w s) as [u|] eqn:W.
  - assert (U : is_w (rw_pc s u)) by (apply IW; reflexivity). cbn in IO. destruct (rw_pc s u) as [| | | | | | | |r| | |r i] eqn:E; cbn in U; try tauto; try (apply (F u _ E); [discriminate|exact I]).
    cbn in IO. destruct (Z_lt_dec 0 (rw_wsem s)) as [Q|Q]; [apply (F u _ E); [discriminate|exact Q]|].
    destruct (Z_lt_dec 0 (cs N n_post (rw_pc s))) as [Q1|Q1]; [auto|]. destruct (Z_lt_dec 0 (cs N RWProofs.n_hold (rw_pc s))) as [Q2|Q2]; [auto|].
    destruct (Z_lt_dec 0 (cs N n_dec (rw_pc s))) as [Q3|Q3]; [auto|]. apply P4; lia.
  - destruct (rw_pc s t) as [| | | | | | | |r| | |r i] eqn:E; try (apply (F t _ E); [discriminate|exact I]); try (assert (None = Some t) by (apply IW; rewrite E; exact I); discriminate).
    + destruct (Ht eq_refl).
    + cbn in IO. unfold quiet in IO. assert (L : (t < N)%nat) by (destruct (decide (t < N)) as [|L]; [assumption|]; rewrite IN in E by lia; discriminate).
      assert (RWProofs.n_sem (rw_pc s t) <= cs N RWProofs.n_sem (rw_pc s))%Z as Q by (apply (csum_ge N (fun t => RWProofs.n_sem (rw_pc s t))); [intros x; destruct (rw_pc s x); cbn; lia|exact L]). rewrite E in Q. cbn in Q. apply P4; lia.
    + apply (F t _ E); [discriminate|exact W].
Qed.
(** *** No wakeup is lost: while somebody is in a call of the RWMutex or has it, somebody of them can go on; when nobody has
    it, that is somebody in a call *)
Theorem rwmutex_over_mutex_progress :
  forall N ls r m t, (Z.of_nat N <= 2^30)%Z -> steps (rwmu_step N) (rw_new, mx_new) ls (r, m) ->
    rw_pc r t <> PIdle \/ x_pc m t <> XIdle ->
    exists l c', rwmu_step N (r, m) l c' /\ let u := match l with inl u => u | inr u => u end in rw_pc r u <> PIdle \/ x_pc m u <> XIdle.
Proof.
  intros N ls r m t HN HS Ht. destruct (rwmu_inv N ls r m HN HS) as [Is [ms Im] Il]. cbn [fst snd] in *.
  assert (IV : rwinv N r) by (apply rwinv_reach; [exact HN|eexists; exact Is]).
  assert (DI : rw_pc r t = PIdle \/ rw_pc r t <> PIdle) by (destruct (rw_pc r t); auto; right; discriminate). destruct DI as [DI|DI].
  - destruct Ht as [Ht|Ht]; [destruct (Ht DI)|]. specialize (Il t). rewrite DI in Il. cbn in Il. destruct Il as [Il|Il]; [destruct (Ht Il)|]. destruct m as [w a b pc]. cbn in *.
    assert (Q : exists m', mx_step N (MX w a b pc) t m').
    { destruct (pc t) eqn:P; cbn in Il; try tauto; [|eexists; apply mx_rel; exact P]. assert (X : enc w = enc old \/ enc w <> enc old) by lia.
      destruct X as [X|X]; [apply enc_inj in X; subst old; eexists; apply mx_free; exact P|eexists; eapply mx_free_fail; [exact P|congruence]]. }
    destruct Q as [m' Q]. exists (inr t), (r, m'). split; [eapply cs_unlocking; [exact Il|exact Q]|right; exact Ht].
  - destruct (rw_some N r t IV DI) as (u & Hu & FG). destruct (rw_can N r u IV FG) as (v & r' & [ST NI] & D).
    destruct (c_progress (rw_step N) (fun r => r) rw_forget (fun t => t) N HN rw_new eq_refl ltac:(auto) rw_forget_none) with (ls := ls) (s := r) (m := m) (l := v) (s' := r')
      as [(s2 & m2 & Q)|(l2 & c2 & Q & [B|B])]; try assumption.
    + intros ls0 s0 u0 _ E0 W0. destruct s0 as [c x w a b pc]. cbn in *. subst w. exists u0. eexists. split; [reflexivity|]. split; [apply rw_wlock; exact E0|]. cbn. apply tset_eq.
    + exists (inl v), (s2, m2). split; [exact Q|left; exact NI].
    + exists l2, c2. split; [exact Q|right; exact B].
    + exists l2, c2. split; [exact Q|left]. rewrite B. discriminate.
Qed.
Print Assumptions rwmutex_over_mutex_progress.
(** *** When nobody has it and nobody is in a call, nothing of what happened remains *)
Theorem rwmutex_over_mutex_at_rest :
  forall N ls r m, (Z.of_nat N <= 2^30)%Z -> steps (rwmu_step N) (rw_new, mx_new) ls (r, m) -> (forall t, rw_pc r t = PIdle /\ x_pc m t = XIdle) ->
    rw_count r = 0%Z /\ rw_wait r = 0%Z /\ rw_rsem r = 0%Z /\ rw_wsem r = 0%Z /\ x_w m = mw0 /\ x_sema m = 0%Z.
Proof.
  intros N ls r m HN HS HQ. destruct (rwmu_inv N ls r m HN HS) as [Is [ms Im] Il]. cbn [fst snd] in *.
  destruct (mutex_at_rest N ms m Im) as (A1 & A2 & _); [intros t; left; apply HQ|]. specialize (A2 (fun t => proj2 (HQ t))).
  assert (IV : rwinv N r) by (apply rwinv_reach; [exact HN|eexists; exact Is]). destruct IV as [IN IW IO].
  assert (W : rw_w r = None) by (destruct (rw_w r) as [u|] eqn:E; [exfalso; destruct (IW u) as [_ X]; specialize (X eq_refl); rewrite (proj1 (HQ u)) in X; exact X|reflexivity]).
  assert (Z0 : forall f, f PIdle = 0%Z -> cs N f (rw_pc r) = 0%Z). { intros f Hf. unfold cs. clear - Hf HQ. induction N as [|n IH]; [reflexivity|]. rewrite csum_S, IH, (proj1 (HQ n)). lia. }
  rewrite W in IO. cbn in IO. unfold quiet in IO. rewrite !Z0 in IO by reflexivity. intuition lia.
Qed.
Print Assumptions rwmutex_over_mutex_at_rest.

(** *** syncmapx on it *)
Section map.
Context {K V : Type} `{Countable K} (zero : V) (N : nat).
Definition x_forget (s : xstate K V) : xstate K V := XS (x_map s) (x_torn s) (x_crash s) (rw_forget (x_rw s)) (x_th s).
Definition xmu_step := c_step (x_step zero N) x_rw x_forget fst N.
Lemma x_forget_none s : rw_w (x_rw s) = None -> x_forget s = s.
Proof. destruct s. unfold x_forget. cbn. intros E. rewrite rw_forget_none by exact E. reflexivity. Qed.
Lemma xmu_inv ls s m : (Z.of_nat N <= 2^30)%Z -> steps xmu_step (x_new, mx_new) ls (s, m) -> cinv (x_step zero N) x_rw N x_new ls (s, m).
Proof. intros HN. apply cinv_steps; [exact HN|reflexivity|intros s1 [t l] s2; apply x_rw_step|apply x_forget_none]. Qed.
End map.
Theorem syncmap_over_mutex :
  forall (K V : Type) `{Countable K} (zero : V) N ls (s : xstate K V) m, (Z.of_nat N <= 2^30)%Z -> steps (xmu_step zero N) (x_new, mx_new) ls (s, m) ->
    linearizable (map_spec zero) ∅ (erase (x_events (c_proj ls))) /\ x_crash s = false /\ x_bad m = false.
Proof.
  intros K V ? ? zero N ls s m HN HS. destruct (xmu_inv zero N ls s m HN HS) as [Is [ms Im] Il]. cbn [fst snd] in *. split; [|split].
  - eapply syncmap_rw_linearizable; eassumption.
  - eapply syncmap_rw_no_race; [exact HN|eexists; exact Is].
  - eapply mutex_never_aborts. exact Im.
Qed.
Print Assumptions syncmap_over_mutex.
(** a goroutine that is in no call of the map is in none of the mutex *)
Lemma xmu_idle {K V : Type} `{Countable K} (zero : V) N ls (s : xstate K V) m : (Z.of_nat N <= 2^30)%Z -> steps (xmu_step zero N) (x_new, mx_new) ls (s, m) ->
  forall t, x_th s t = MIdle -> x_pc m t = XIdle.
Proof.
  intros HN HS. change s with (fst (s, m)). change m with (snd (s, m)) at 2. revert HS. generalize (s, m). clear s m.
  apply (steps_trace_invariant (x_new, mx_new) (xmu_step zero N) (fun _ c => forall t, x_th (fst c) t = MIdle -> x_pc (snd c) t = XIdle)); [reflexivity|].
  intros ls1 [s m] l c' HS IH HC. destruct (xmu_inv zero N ls1 s m HN HS) as [Is _ _]. cbn [fst snd] in *. pose proof (xinv_steps zero N HN _ _ Is) as XI. pose proof XI as [IR _ IC _].
  assert (BUSY : forall u, rw_pc (x_rw s) u <> PIdle -> x_th s u <> MIdle) by (intros u Hu E; specialize (IC u); rewrite E in IC; exact (Hu IC)).
  inversion HC; subst; cbn [fst snd].
  - intros u Hu. destruct l0 as [t l]. cbn [fst] in *. destruct (decide (u = t)) as [->|Ne].
    + match goal with A : x_step _ _ _ _ _, B : rw_pc _ t = PIdle -> _ |- _ => remember (t, l) as lb eqn:El; destruct A; injection El as <- <-; cbn in *; rewrite ?tset_eq in Hu; try congruence; try (apply IH; congruence); auto end.
      destruct (has_lock _); rewrite ?tset_eq in Hu; congruence.
    + apply IH. match goal with A : x_step _ _ _ _ _ |- _ => destruct (x_other _ _ _ _ _ _ u A Ne) as [<- _] end. exact Hu.
  - intros u Hu. destruct (decide (u = t)) as [->|Ne]; [exfalso; apply (BUSY t); [congruence|exact Hu]|]. match goal with A : mx_step _ _ _ _ |- _ => rewrite (mx_others _ _ _ _ _ A Ne) end. auto.
  - intros u Hu. destruct l0 as [t l]. cbn [fst] in *. match goal with A : takes _ _ _ _ |- _ => destruct A as [T1 T2] end.
    assert (XF : x_th (x_forget s) = x_th s) by reflexivity. destruct (decide (u = t)) as [->|Ne].
    + exfalso. match goal with A : x_step _ _ (x_forget s) _ _ |- _ => remember (x_forget s) as s1; remember (t, l) as lb eqn:El; destruct A; injection El as <- <-; cbn in *; rewrite ?tset_eq in Hu; try congruence end.
      all: try (apply (BUSY t0); congruence). destruct (has_lock _); rewrite ?tset_eq in Hu; congruence.
    + match goal with A : x_step _ _ _ _ _ |- _ => destruct (x_other _ _ _ _ _ _ u A Ne) as [X _] end. match goal with A : mx_step _ _ _ _ |- _ => rewrite (mx_others _ _ _ _ _ A Ne) end. apply IH. congruence.
  - intros u Hu. destruct l0 as [t l]. cbn [fst] in *. match goal with A : gives _ _ _ _ |- _ => destruct A as (r & i & T1 & T2) end. destruct (decide (u = t)) as [->|Ne].
    + exfalso. match goal with A : x_step _ _ _ _ _ |- _ => remember (t, l) as lb eqn:El; destruct A; injection El as <- <-; cbn in *; rewrite ?tset_eq in Hu; try congruence end.
      all: try (apply (BUSY t0); congruence). destruct (has_lock _); rewrite ?tset_eq in Hu; congruence.
    + match goal with A : x_step _ _ _ _ _ |- _ => destruct (x_other _ _ _ _ _ _ u A Ne) as [X _] end. match goal with A : mx_step _ _ _ _ |- _ => rewrite (mx_others _ _ _ _ _ A Ne) end. apply IH. congruence.
  - intros u Hu. destruct (decide (u = t)) as [->|Ne]; [exfalso; specialize (IH t Hu); match goal with A : in_unlock _ |- _ => rewrite IH in A; exact A end|].
    match goal with A : mx_step _ _ _ _ |- _ => rewrite (mx_others _ _ _ _ _ A Ne) end. auto.
Qed.
(** *** While somebody is in a call of the map, somebody in a call can go on *)
Theorem syncmap_over_mutex_progress :
  forall (K V : Type) `{Countable K} (zero : V) N ls (s : xstate K V) m t, (Z.of_nat N <= 2^30)%Z -> steps (xmu_step zero N) (x_new, mx_new) ls (s, m) ->
    x_th s t <> MIdle -> exists l c', xmu_step zero N (s, m) l c' /\ x_th s (match l with inl l => fst l | inr u => u end) <> MIdle.
Proof.
  intros K V ? ? zero N ls s m t HN HS Ht. destruct (xmu_inv zero N ls s m HN HS) as [Is [ms Im] Il]. cbn [fst snd] in *.
  pose proof (xinv_steps zero N HN _ _ Is) as XI. pose proof XI as [IR IM IC IN]. pose proof (xmu_idle zero N ls s m HN HS) as IDLE.
  assert (BUSY : forall u, rw_pc (x_rw s) u <> PIdle -> x_th s u <> MIdle) by (intros u Hu E; specialize (IC u); rewrite E in IC; exact (Hu IC)).
  assert (X : exists u l s', x_step zero N s (u, l) s' /\ x_th s u <> MIdle).
  { assert (CM : forall u, can_move (x_go zero N) (x_view u) s -> x_th s u <> MIdle -> exists u l s', x_step zero N s (u, l) s' /\ x_th s u <> MIdle).
    { intros u ([v l] & s' & [A _] & D) Hu. exists u, l, s'. split; [|exact Hu]. destruct (decide (u = v)) as [->|Ne]; [exact A|]. exfalso. apply D. destruct (x_other _ _ _ _ _ _ u A Ne) as [X1 X2]. unfold x_view. congruence. }
    destruct (decide (rw_pc (x_rw s) t = PIdle)) as [E|E].
    - pose proof (IC t) as C. rewrite E in C. pose proof (IN t Ht) as LT. clear CM. destruct s as [mp tn c [rc rx w a b pc] th]. cbn in *. destruct (th t) as [|o|o|o m0 rest dn|o|o r|o r] eqn:P; cbn in C; try congruence; try (destruct (is_write o); discriminate).
      + exists t, None. destruct (is_write o) eqn:Wo; eexists; (split; [|congruence]).
        * eapply xs_lock; [exact P|exact E|apply rw_lock; [exact LT|exact E]|]. cbn. rewrite tset_eq, Wo. reflexivity.
        * eapply xs_lock; [exact P|exact E|apply rw_rlock; [exact LT|exact E]|]. cbn. rewrite tset_eq, Wo. reflexivity.
      + exists t, (Some (Rsp t o r)). eexists. split; [|congruence]. apply xs_return; [exact P|exact E].
    - destruct (rw_some N _ t IR E) as (u & Hu & FG). apply (CM u); [|auto]. eapply x_can; [exact HN|exact XI|]. apply rw_can; assumption. }
  destruct X as (u & l & s' & ST & Hu).
  assert (HA : forall (s1 : xstate K V) l s2, x_step zero N s1 l s2 -> x_rw s2 = x_rw s1 \/ rw_step N (x_rw s1) (fst l) (x_rw s2)) by (intros s1 [v e] s2; apply x_rw_step).
  destruct (c_progress (x_step zero N) x_rw x_forget fst N HN x_new eq_refl HA x_forget_none) with (ls := ls) (s := s) (m := m) (l := (u, l)) (s' := s')
    as [(s2 & m2 & Q)|(l2 & c2 & Q & B)]; try assumption.
  - intros ls0 s0 v S0 E0 W0. pose proof (xv_c _ _ _ _ (xinv_steps zero N HN _ _ S0) v) as C. rewrite E0 in C. destruct s0 as [mp tn c [rc rx w a b pc] th]. cbn in *. subst w.
    destruct (th v) as [|o|o|o m0 rest dn|o|o r|o r] eqn:P; cbn in C; try discriminate C; try (destruct (is_write o); discriminate C); try (destruct (is_write o); decompose [or ex] C; discriminate).
    eexists (v, None), _. split; [reflexivity|]. split; [eapply xs_locking; [exact P|cbn; rewrite E0; discriminate|apply rw_wlock; exact E0]|]. cbn. apply tset_eq.
  - exists (inl (u, l)), (s2, m2). split; [exact Q|exact Hu].
  - exists l2, c2. split; [exact Q|]. destruct B as [B|B]; [intros Y; apply B, IDLE; exact Y|apply BUSY; rewrite B; discriminate].
Qed.
Print Assumptions syncmap_over_mutex_progress.

Local Tactic Notation "oth" uconstr(c) := eapply steps_cons; [eapply cs_other; [eapply c; (reflexivity || (cbn; lia))|unfold takes; cbn; intros [? ?]; discriminate|unfold gives; cbn; intros (? & ? & ? & ?); discriminate|reflexivity || (cbn; discriminate)]|]; cbn.
Local Tactic Notation "lk" constr(t) uconstr(c) := eapply steps_cons; [eapply (cs_locking _ _ _ _ _ _ _ t); [reflexivity|eapply c; (reflexivity || (cbn; discriminate) || lia || auto)|cbn; discriminate]|]; cbn.
(** two goroutines in Lock, the second through the slow path of the mutex: woken by the first, it has the lock *)
Example rwmutex_over_mutex_case : exists ls r m, steps (rwmu_step 2) (rw_new, mx_new) ls (r, m) /\ rw_pc r 1 = PWHold /\ rw_pc r 0 = PIdle /\ In (inr 1) ls /\ In (inl 1) ls.
Proof.
  eexists _, _, _. split; [|split; [|split; [|split]]].
  - unfold rw_new, mx_new. oth (rw_lock 2 _ _ _ _ _ _ 0). lk 0 (mx_lock 2 _ _ _ _ 0). oth (rw_lock 2 _ _ _ _ _ _ 1). lk 1 (mx_lock 2 _ _ _ _ 1).
    eapply steps_cons; [eapply (cs_take _ _ _ _ _ _ _ 0); [eapply mx_fast; reflexivity|reflexivity|eapply rw_wlock; reflexivity|split; reflexivity]|]. cbn.
    lk 1 (mx_slow 2 _ _ _ _ 1). lk 1 (mx_load 2 _ _ _ _ 1). lk 1 (mx_cas 2 _ _ _ _ 1).
    oth (rw_wann 2 _ _ _ _ _ _ 0). oth (rw_wunlock 2 _ _ _ _ _ _ 0).
    eapply steps_cons; [eapply (cs_give _ _ _ _ _ _ _ 0); [eapply rw_wfree; [reflexivity|lia]|eexists _, _; split; reflexivity|reflexivity|eapply (mx_unlock _ _ (MW false false false 1) _ _ _ 0); reflexivity]|]. cbn.
    eapply steps_cons; [eapply (cs_unlocking _ _ _ _ _ _ _ 0); [exact I|eapply mx_free; reflexivity]|]. cbn.
    eapply steps_cons; [eapply (cs_unlocking _ _ _ _ _ _ _ 0); [exact I|eapply mx_rel; reflexivity]|]. cbn.
    eapply steps_cons; [eapply (cs_locking _ _ _ _ _ _ _ 1); [reflexivity|eapply (mx_sem _ _ _ _ _ 1 _ false); [reflexivity|lia|auto]|cbn; discriminate]|]. cbn.
    lk 1 (mx_woke 2 _ _ _ _ 1).
    eapply steps_cons; [eapply (cs_take _ _ _ _ _ _ _ 1); [eapply mx_cas; [reflexivity|auto]|reflexivity|eapply rw_wlock; reflexivity|split; reflexivity]|]. cbn.
    oth (rw_wann 2 _ _ _ _ _ _ 1). apply steps_nil.
  - reflexivity.
  - reflexivity.
  - cbn. tauto.
  - cbn. tauto.
Qed.
