(** Properties of syncmapx on sync.RWMutex, whose code is transcribed in RWModel (C139), and
    the liveness of both (C140).  [N], the number of goroutines, is at most 2^30, the most that
    sync.RWMutex allows. *)
From stdpp Require Import gmap.
From Verif Require Import Base Conc Lin Fair SyncMapModel SyncMapProofs RWModel RWProofs RWFairProofs SyncMapRWModel SyncMapRWProofs SyncMapRWFairProofs.

(** *** C139: the lock *)
(** whoever has the lock for writing has it alone *)
Theorem rwmutex_excludes :
  forall N (s : rwstate) t u, (Z.of_nat N <= 2^30)%Z -> reach rw_new (rw_step N) s -> rw_pc s t = PWHold -> u <> t ->
    rw_pc s u <> PWHold /\ rw_pc s u <> PRHold.
Proof. intros N s t u HN R. apply rw_excl with (N := N). apply rwinv_reach; assumption. Qed.
Print Assumptions rwmutex_excludes.
(** the int32 counters do not wrap, the semaphores stay within them too, and neither of the two
    calls of throw is reached: RUnlock, when what it gets is negative, does not get -1 or
    -rwmutexMaxReaders - 1, and Unlock gets less than rwmutexMaxReaders *)
Theorem rw_counters :
  forall N (s : rwstate), (Z.of_nat N <= 2^30)%Z -> reach rw_new (rw_step N) s ->
    (- 2^30 <= rw_count s <= 2^30 /\ - 2^30 <= rw_wait s <= 2^30 /\ 0 <= rw_rsem s <= 2^30 /\ 0 <= rw_wsem s <= 1)%Z /\
    (forall t, rw_pc s t = PRHold -> (rw_count s - 1 < 0)%Z -> rw_count s <> 0%Z /\ rw_count s <> (- 2^30)%Z) /\
    (forall t, rw_pc s t = PWHold -> (rw_count s + 2^30 < 2^30)%Z).
Proof.
  intros N s HN R. pose proof (rwinv_reach N HN s R) as IV. pose proof IV as [IN IW IO].
  assert (B : forall f, (forall p, 0 <= f p)%Z -> (forall p, f p <= 1)%Z -> (0 <= cs N f (rw_pc s) <= Z.of_nat N)%Z).
  { intros f H0 H1. split; [apply cs_nonneg, H0|apply csum_le; intros t; apply H1]. }
  assert (FW : forall t, is_w (rw_pc s t) -> (cs N n_sem (rw_pc s) + cs N n_hold (rw_pc s) < Z.of_nat N)%Z).
  { intros t Ht. apply (few N _ t); [|exact Ht]. destruct (decide (t < N)) as [|G]; [assumption|]. rewrite IN in Ht by lia. destruct Ht. }
  assert (SH : (cs N n_sem (rw_pc s) + cs N n_hold (rw_pc s) + cs N n_dec (rw_pc s) <= Z.of_nat N)%Z).
  { transitivity (csum N (fun t => (n_sem (rw_pc s t) + n_hold (rw_pc s t) + n_dec (rw_pc s t)))%Z).
    - apply Z.eq_le_incl. unfold cs. clear. induction N as [|n IH]; [reflexivity|]. rewrite !csum_S. lia.
    - apply csum_le. intros t. destruct (rw_pc s t); cbn; lia. }
  pose proof (B n_sem ltac:(intros []; cbn; lia) ltac:(intros []; cbn; lia)) as Bs. pose proof (B n_hold ltac:(intros []; cbn; lia) ltac:(intros []; cbn; lia)) as Bh.
  pose proof (B n_dec ltac:(intros []; cbn; lia) ltac:(intros []; cbn; lia)) as Bd. pose proof (B n_post ltac:(intros []; cbn; lia) ltac:(intros []; cbn; lia)) as Bp.
  assert (H1 : forall t, rw_pc s t = PRHold -> (1 <= cs N n_hold (rw_pc s))%Z).
  { intros t Ht. replace 1%Z with (n_hold (rw_pc s t)) by (rewrite Ht; reflexivity). apply (csum_ge N (fun t => n_hold (rw_pc s t))); [intros x; destruct (rw_pc s x); cbn; lia|].
    destruct (decide (t < N)) as [|G]; [assumption|]. rewrite IN in Ht by lia. discriminate. }
  unfold max_readers in *. destruct (rw_w s) as [t|] eqn:W.
  - pose proof (FW t ltac:(apply IW; reflexivity)) as Fw. cbn in IO. destruct (rw_pc s t) as [| | | | | | | |r| | |r i] eqn:Pt; cbn in IO; unfold quiet, max_readers in IO; try tauto.
    all: split; [lia|]; split; [intros u Hu; specialize (H1 u Hu); lia|]; intros u Hu; assert (Some u = Some t) as [= ->] by (symmetry; apply IW; rewrite Hu; exact I); try congruence; lia.
  - cbn in IO. unfold quiet in IO. split; [lia|]. split; [intros u Hu; specialize (H1 u Hu); lia|]. intros u Hu. exfalso. assert (None = Some u) by (apply IW; rewrite Hu; exact I). discriminate.
Qed.
Print Assumptions rw_counters.
(** *** C139: the map *)
(** every history is linearizable with respect to a plain map *)
Theorem syncmap_rw_linearizable :
  forall (K V : Type) `{Countable K} (zero : V) N ls (s : xstate K V), (Z.of_nat N <= 2^30)%Z ->
    steps (x_step zero N) x_new ls s -> linearizable (map_spec zero) ∅ (erase (x_events ls)).
Proof.
  intros K V ? ? zero N ls s HN HS. destruct (xv_m _ _ _ _ (xinv_steps zero N HN ls s HS)) as (w & rs & I).
  exists (x_events ls). split; [reflexivity|]. split.
  - intros t. eexists. apply (iv_seq _ _ _ I).
  - eexists. apply (iv_legal _ _ _ I).
Qed.
Print Assumptions syncmap_rw_linearizable.
(** no two goroutines ever touch the Go map in a conflicting way *)
Theorem syncmap_rw_no_race :
  forall (K V : Type) `{Countable K} (zero : V) N (s : xstate K V), (Z.of_nat N <= 2^30)%Z -> reach x_new (x_step zero N) s -> x_crash s = false.
Proof. intros K V ? ? zero N s HN [ls HS]. destruct (xv_m _ _ _ _ (xinv_steps zero N HN ls s HS)) as (w & rs & I). exact (iv_crash _ _ _ I). Qed.
Print Assumptions syncmap_rw_no_race.
Theorem syncmap_rw_exclusion :
  forall (K V : Type) `{Countable K} (zero : V) N (s : xstate K V), (Z.of_nat N <= 2^30)%Z -> reach x_new (x_step zero N) s ->
    (forall t u o, t <> u -> is_write o = true -> (x_th s t = MHold o \/ x_th s t = MWriting o \/ exists r, x_th s t = MRel o r) ->
      x_th s u = MIdle \/ (exists o', x_th s u = MWant o') \/ exists o' r', x_th s u = MRet o' r') /\
    (x_torn s = true -> exists t o, x_th s t = MWriting o /\ is_write o = true).
Proof.
  intros K V ? ? zero N s HN [ls HS]. pose proof (xinv_steps zero N HN ls s HS) as XI. split.
  - intros t u o Ne W Ht. assert (Hw : rw_pc (x_rw s) t = PWHold).
    { destruct Ht as [Ht|[Ht|(r & Ht)]]; (apply (hw_coupled (x_th s t)); [apply (xv_c _ _ _ _ XI)|rewrite Ht; cbn; auto]). }
    destruct (rw_excl N (x_rw s) t u (xv_rw _ _ _ _ XI) Hw) as [E1 E2]; [congruence|].
    pose proof (xv_c _ _ _ _ XI u) as C. destruct (x_th s u) as [|o'|o'|o' m0 rest dn|o'|o' r'|o' r'] eqn:Eu; eauto 10; exfalso.
    + destruct (is_write o') eqn:W'; [apply E1, (hw_coupled _ _ C); exact W'|apply E2, (hr_coupled _ _ C); exact W'].
    + apply E2, (hr_coupled _ _ C). exact I.
    + apply E1, (hw_coupled _ _ C). exact I.
    + destruct (is_write o') eqn:W'; [apply E1, (hw_coupled _ _ C); exact W'|apply E2, (hr_coupled _ _ C); exact W'].
  - intros T. destruct (xv_m _ _ _ _ XI) as (w & rs & I). destruct (iv_torn _ _ _ I T) as (t & o & E). exists t, o. split; [exact E|]. pose proof (iv_pc _ _ _ I t) as P. cbn in E, P. rewrite E in P. apply P.
Qed.
Print Assumptions syncmap_rw_exclusion.

(** *** C140: everybody gets the lock, as long as everybody gives it back *)
Theorem rwmutex_returns :
  forall N e ls, (Z.of_nat N <= 2^30)%Z -> execution (rw_step N) rw_new e ls -> rw_fair N e ->
    forall t i, match rw_pc (e i) t with
    | PIdle => True
    | PRWant | PRSem => exists j, i <= j /\ rw_pc (e j) t = PRHold
    | PWWant | PWAnn | PWWait _ | PWSem => exists j, i <= j /\ rw_pc (e j) t = PWHold
    | _ => exists j, i <= j /\ rw_pc (e j) t = PIdle
    end.
Proof.
  intros N e ls HN E F t i. destruct (rw_pc (e i) t) as [| | | | | | | |r| | |r q] eqn:P; auto;
    try (eapply (rlock_leads N HN e ls E F); auto); try (eapply (lock_leads N HN e ls E F); eauto); try (eapply (unlock_leads N HN e ls E F); eauto 8).
Qed.
Print Assumptions rwmutex_returns.
(** every call of syncmapx returns *)
Theorem syncmap_returns :
  forall (K V : Type) `{Countable K} (zero : V) N e ls, (Z.of_nat N <= 2^30)%Z -> execution (x_step zero N) (@x_new K V _ _) e ls -> x_fair zero N e ->
    forall t i, exists j, i <= j /\ x_th (e j) t = MIdle.
Proof. intros K V ? ? zero N e ls HN E F t i. exact (x_returns zero N HN e ls E F t i). Qed.
Print Assumptions syncmap_returns.

(** a reader has the lock, a writer waits for it, a second reader waits for the writer; all of
    them return in the end *)
Definition case_labels : list (nat * option (lev (mop nat nat) (mret nat nat))) :=
  [(1, Some (Inv 1 (MGet 5))); (1, None); (1, None); (0, Some (Inv 0 (MSet 5 7))); (0, None); (0, None); (0, None); (0, None);
   (2, Some (Inv 2 MSize)); (2, None); (2, None); (1, Some (Lin 1 (MGet 5) (RetV 0))); (1, None); (1, None); (1, None); (1, Some (Rsp 1 (MGet 5) (RetV 0)));
   (0, None); (0, None); (0, Some (Lin 0 (MSet 5 7) RetU)); (0, None); (0, None); (2, None); (0, None); (0, Some (Rsp 0 (MSet 5 7) RetU));
   (2, Some (Lin 2 MSize (RetN 1))); (2, None); (2, Some (Rsp 2 MSize (RetN 1)))].
Example syncmap_rw_case :
  (exists s, steps (x_step 0 3) (@x_new nat nat _ _) (take 11 case_labels) s /\ rw_pc (x_rw s) 0 = PWSem /\ rw_pc (x_rw s) 1 = PRHold /\ rw_pc (x_rw s) 2 = PRSem) /\
  exists e ls, execution (x_step 0 3) (@x_new nat nat _ _) e ls /\ x_fair 0 3 e /\ (forall j, ls j = case_labels !! j).
Proof.
  assert (A : exists s, steps (x_step 0 3) (@x_new nat nat _ _) (take 11 case_labels) s /\ rw_pc (x_rw s) 0 = PWSem /\ rw_pc (x_rw s) 1 = PRHold /\ rw_pc (x_rw s) 2 = PRSem /\
     exists s', steps (x_step 0 3) s (drop 11 case_labels) s' /\ forall t, x_th s' t = MIdle).
  { eexists. split; [|split; [|split; [|split]]].
    - cbn [take case_labels].
      eapply steps_cons; [apply xs_call; [lia|reflexivity]|].
      eapply steps_cons; [eapply xs_lock; [reflexivity|reflexivity|apply rw_rlock; [lia|reflexivity]|reflexivity]|].
      eapply steps_cons; [eapply xs_locking; [reflexivity|discriminate|apply rw_radd; reflexivity]|]. cbn [Z.add Z.ltb Z.compare has_lock rw_pc tset].
      eapply steps_cons; [apply xs_call; [lia|reflexivity]|].
      eapply steps_cons; [eapply xs_lock; [reflexivity|reflexivity|apply rw_lock; [lia|reflexivity]|reflexivity]|].
      eapply steps_cons; [eapply xs_locking; [reflexivity|discriminate|apply rw_wlock; reflexivity]|].
      eapply steps_cons; [eapply xs_locking; [reflexivity|discriminate|apply rw_wann; reflexivity]|].
      eapply steps_cons; [eapply xs_locking; [reflexivity|discriminate|eapply rw_wwait; reflexivity]|].
      eapply steps_cons; [apply xs_call; [lia|reflexivity]|].
      eapply steps_cons; [eapply xs_lock; [reflexivity|reflexivity|apply rw_rlock; [lia|reflexivity]|reflexivity]|].
      eapply steps_cons; [eapply xs_locking; [reflexivity|discriminate|apply rw_radd; reflexivity]|]. apply steps_nil.
    - reflexivity.
    - reflexivity.
    - reflexivity.
    - eexists. split.
      + cbn [drop case_labels].
        eapply steps_cons; [apply xs_read; reflexivity|].
        eapply steps_cons; [eapply xs_unlock; [reflexivity|discriminate|apply rw_runlock; reflexivity]|].
        eapply steps_cons; [eapply xs_unlocking; [reflexivity|discriminate|apply rw_rdec; reflexivity]|].
        eapply steps_cons; [eapply xs_unlocking; [reflexivity|discriminate|apply rw_rpost; reflexivity]|].
        eapply steps_cons; [apply xs_return; reflexivity|].
        eapply steps_cons; [eapply xs_locking; [reflexivity|discriminate|apply rw_wsem_acq; reflexivity]|].
        eapply steps_cons; [eapply xs_write_begin; reflexivity|].
        eapply steps_cons; [eapply xs_write_end; reflexivity|].
        eapply steps_cons; [eapply xs_unlock; [reflexivity|discriminate|apply rw_wunlock; reflexivity]|].
        eapply steps_cons; [eapply xs_unlocking; [reflexivity|discriminate|eapply rw_wpost; reflexivity]|].
        eapply steps_cons; [eapply xs_locking; [reflexivity|discriminate|apply rw_rsem_acq; reflexivity]|].
        eapply steps_cons; [eapply xs_unlocking; [reflexivity|discriminate|eapply rw_wfree; [reflexivity|discriminate]]|].
        eapply steps_cons; [apply xs_return; reflexivity|].
        eapply steps_cons; [apply xs_read; reflexivity|].
        eapply steps_cons; [eapply xs_unlock; [reflexivity|discriminate|apply rw_runlock; reflexivity]|].
        eapply steps_cons; [apply xs_return; reflexivity|]. apply steps_nil.
      + intros [|[|[|t]]]; reflexivity. }
  destruct A as (s & S1 & P0 & P1 & P2 & s' & S2 & ID). split; [eauto|].
  assert (G : exists e ls, execution (x_step 0 3) (@x_new nat nat _ _) e ls /\ (forall j, length case_labels <= j -> e j = s') /\ (forall j, ls j = case_labels !! j)).
  { apply settled_execution. replace case_labels with (take 11 case_labels ++ drop 11 case_labels) by apply take_drop. eapply steps_app; eassumption. }
  destruct G as (e & ls & E & D & L). exists e, ls. split; [exact E|]. split; [|exact L].
  intros t. apply (settled_fair _ _ e (length case_labels) s' D). intros ([u l] & s'' & [HS NI] & _).
  remember (u, l) as lb. pose proof (ID u) as X. destruct HS; injection Heqlb as -> <-; cbn in *; try congruence; try tauto.
  match goal with G : _ \/ (exists _, _) |- _ => destruct G as [Y|(? & ? & ? & ? & Y)]; congruence end.
Qed.

(** with a lock that merely excludes, as that of SyncMapModel, Set need not return, even if the
    goroutines are scheduled strongly fairly and every call that has the lock gives it back:
    two readers that overlap keep it out for ever.  It is RWMutex's letting writers announce
    themselves that makes [syncmap_returns] true *)
Definition m_go {K V : Type} `{Countable K} (zero : V) (s : mstate K V) (l : option (lev (mop K V) (mret K V))) (s' : mstate K V) : Prop :=
  m_step zero s l s' /\ match l with Some (Inv _ _) => False | _ => True end.
Definition ov_lab (p : nat) : option (lev (mop nat nat) (mret nat nat)) :=
  match p with 0 => Some (Inv 2 (MHas 5)) | 2 => Some (Lin 1 (MHas 5) (RetB false)) | 4 => Some (Rsp 1 (MHas 5) (RetB false)) | 5 => Some (Inv 1 (MHas 5))
  | 7 => Some (Lin 2 (MHas 5) (RetB false)) | 9 => Some (Rsp 2 (MHas 5) (RetB false)) | _ => None end.
Definition ov_next (p : nat) (s : mstate nat nat) : mstate nat nat :=
  let set t q := tset (m_th s) t q in let at_ rs th := MS ∅ false false None rs th in
  match p with
  | 0 => at_ (m_readers s) (set 2 (MWant (MHas 5))) | 1 => at_ (2 :: m_readers s) (set 2 (MHold (MHas 5)))
  | 2 => at_ (m_readers s) (set 1 (MRel (MHas 5) (RetB false))) | 3 => at_ (list_difference (m_readers s) [1]) (set 1 (MRet (MHas 5) (RetB false)))
  | 4 => at_ (m_readers s) (set 1 MIdle) | 5 => at_ (m_readers s) (set 1 (MWant (MHas 5))) | 6 => at_ (1 :: m_readers s) (set 1 (MHold (MHas 5)))
  | 7 => at_ (m_readers s) (set 2 (MRel (MHas 5) (RetB false))) | 8 => at_ (list_difference (m_readers s) [2]) (set 2 (MRet (MHas 5) (RetB false)))
  | _ => at_ (m_readers s) (set 2 MIdle) end.
Definition ov_start : mstate nat nat := MS ∅ false false None [1] (tset (tset (tset (fun _ => MIdle) 1 (MWant (MHas 5))) 1 (MHold (MHas 5))) 0 (MWant (MSet 5 7))).
Fixpoint overlap (n : nat) : mstate nat nat := match n with O => ov_start | S n => ov_next (n mod 10) (overlap n) end.
Definition ov_readers (p : nat) : list nat := match p with 0 | 1 | 9 => [1] | 2 | 3 => [2; 1] | 4 | 5 | 6 => [2] | _ => [1; 2] end.
Definition ov_1 (p : nat) : mpc nat nat := match p with 3 => MRel (MHas 5) (RetB false) | 4 => MRet (MHas 5) (RetB false) | 5 => MIdle | 6 => MWant (MHas 5) | _ => MHold (MHas 5) end.
Definition ov_2 (p : nat) : mpc nat nat := match p with 0 => MIdle | 1 => MWant (MHas 5) | 8 => MRel (MHas 5) (RetB false) | 9 => MRet (MHas 5) (RetB false) | _ => MHold (MHas 5) end.
Lemma overlap_inv n : exists th, overlap n = MS ∅ false false None (ov_readers (n mod 10)) th /\ th 0 = MWant (MSet 5 7) /\ th 1 = ov_1 (n mod 10) /\ th 2 = ov_2 (n mod 10) /\ forall t, 3 <= t -> th t = MIdle.
Proof.
  induction n as [|n (th & Eo & T0 & T1 & T2 & O)]; [eexists; split; [reflexivity|]; repeat split; intros [|[|[|t]]] Ht; solve [lia|reflexivity]|].
  assert (M : n mod 10 < 10) by (apply Nat.mod_upper_bound; lia).
  assert (S5 : S n mod 10 = S (n mod 10) mod 10) by (rewrite <- (Nat.add_1_l n), <- (Nat.add_1_l (n mod 10)), Nat.add_mod_idemp_r by lia; reflexivity).
  rewrite S5. change (overlap (S n)) with (ov_next (n mod 10) (overlap n)). rewrite Eo.
  destruct (n mod 10) as [|[|[|[|[|[|[|[|[|[|p]]]]]]]]]]; [..|lia]; cbn in *; eexists; (split; [reflexivity|]); repeat split; auto; intros t Ht; rewrite tset_ne by lia; auto.
Qed.
Lemma overlap_step n : m_step 0 (overlap n) (ov_lab (n mod 10)) (overlap (1 + n)).
Proof.
  destruct (overlap_inv n) as (th & Eo & T0 & T1 & T2 & O). assert (M : n mod 10 < 10) by (apply Nat.mod_upper_bound; lia). change (overlap (1 + n)) with (ov_next (n mod 10) (overlap n)). rewrite Eo.
  destruct (n mod 10) as [|[|[|[|[|[|[|[|[|[|p]]]]]]]]]]; [..|lia]; cbn in *; unfold ov_next; cbn [m_th m_readers].
  - apply ms_call; assumption.
  - apply ms_rlock; [assumption|reflexivity].
  - apply ms_read; [assumption|reflexivity].
  - exact (ms_runlock 0 _ _ _ _ _ th 1 _ _ T1 eq_refl).
  - eapply ms_return; eassumption.
  - apply ms_call; assumption.
  - apply ms_rlock; [assumption|reflexivity].
  - apply ms_read; [assumption|reflexivity].
  - exact (ms_runlock 0 _ _ _ _ _ th 2 _ _ T2 eq_refl).
  - eapply ms_return; eassumption.
Qed.
Theorem syncmap_naive_lock_refuted :
  exists e ls, execution (m_step 0) (@m_new nat nat _ _) e ls /\ (forall t, strongly_fair (m_go 0) (fun s => m_th s t) e) /\
    (forall t i, t <> 0 -> exists j, i <= j /\ m_th (e j) t = MIdle) /\ forall i, 3 <= i -> m_th (e i) 0 = MWant (MSet 5 7).
Proof.
  assert (H : steps (m_step 0) (@m_new nat nat _ _) [Some (Inv 1 (MHas 5)); None; Some (Inv 0 (MSet 5 7))] ov_start).
  { eapply steps_cons; [apply (ms_call 0 _ _ _ _ _ _ 1 (MHas 5)); reflexivity|]. eapply steps_cons; [apply (ms_rlock 0 _ _ _ _ _ 1 (MHas 5)); reflexivity|].
    eapply steps_cons; [apply (ms_call 0 _ _ _ _ _ _ 0 (MSet 5 7)); reflexivity|]. apply steps_nil. }
  destruct (then_execution (m_step 0) m_new _ _ overlap (fun n => ov_lab (n mod 10)) H eq_refl overlap_step) as (e & ls & E & D & _).
  change (length _) with 3 in D. exists e, ls.
  assert (AT : forall p i, p < 10 -> exists n, i <= 3 + n /\ n mod 10 = p).
  { intros p i Hp. exists (p + i * 10). split; [lia|]. rewrite Nat.mod_add by lia. apply Nat.mod_small. exact Hp. }
  split; [exact E|]. split; [|split].
  - intros t i. destruct t as [|[|[|t]]].
    + exists (3 `max` i). split; [lia|left]. intros k Hk. replace k with (3 + (k - 3)) by lia. rewrite D. destruct (overlap_inv (k - 3)) as (th & -> & T0 & T1 & T2 & O).
      assert (M : (k - 3) mod 10 < 10) by (apply Nat.mod_upper_bound; lia). intros (l & s' & [HS NI] & X).
      assert (RN : ov_readers ((k - 3) mod 10) <> []) by (destruct ((k - 3) mod 10) as [|[|[|[|[|[|[|[|[|[|p]]]]]]]]]]; discriminate).
      revert HS X RN. generalize (ov_readers ((k - 3) mod 10)). clear - T0. intros rs HS X RN. inversion HS; subst; cbn in X; try congruence;
        match type of X with tset _ ?u _ 0 <> _ => destruct (decide (u = 0)) as [->|]; [|rewrite tset_ne in X by auto; congruence] end; try congruence.
      match goal with A : th 0 = MWant ?o, B : is_write ?o = false |- _ => rewrite T0 in A; injection A as <-; discriminate end.
    + destruct (AT 4 i ltac:(lia)) as (n & Hn & M). exists (3 + n). split; [lia|right]. rewrite (D n). change (1 + (3 + n)) with (3 + S n). rewrite (D (S n)).
      change (overlap (S n)) with (ov_next (n mod 10) (overlap n)). destruct (overlap_inv n) as (th & -> & T0 & T1 & T2 & O). rewrite M in *. cbn. rewrite tset_eq, T1. discriminate.
    + destruct (AT 9 i ltac:(lia)) as (n & Hn & M). exists (3 + n). split; [lia|right]. rewrite (D n). change (1 + (3 + n)) with (3 + S n). rewrite (D (S n)).
      change (overlap (S n)) with (ov_next (n mod 10) (overlap n)). destruct (overlap_inv n) as (th & -> & T0 & T1 & T2 & O). rewrite M in *. cbn. rewrite tset_eq, T2. discriminate.
    + exists (3 `max` i). split; [lia|left]. intros k Hk. replace k with (3 + (k - 3)) by lia. rewrite D. destruct (overlap_inv (k - 3)) as (th & -> & T0 & T1 & T2 & O).
      specialize (O (S (S (S t))) ltac:(lia)). intros (l & s' & [HS NI] & X). revert HS X. generalize (ov_readers ((k - 3) mod 10)). clear - O NI. intros rs HS X.
      inversion HS; subst; cbn in X; try congruence; try tauto;
        match type of X with tset _ ?u _ (S (S (S t))) <> _ => destruct (decide (u = S (S (S t)))) as [->|]; [|rewrite tset_ne in X by auto; congruence] end; congruence.
  - intros t i Ht. destruct t as [|[|[|t]]]; [congruence| | |].
    + destruct (AT 5 i ltac:(lia)) as (n & Hn & M). exists (3 + n). split; [lia|]. rewrite D. destruct (overlap_inv n) as (th & -> & T0 & T1 & T2 & O). rewrite M in *. exact T1.
    + destruct (AT 0 i ltac:(lia)) as (n & Hn & M). exists (3 + n). split; [lia|]. rewrite D. destruct (overlap_inv n) as (th & -> & T0 & T1 & T2 & O). rewrite M in *. exact T2.
    + exists (3 `max` i). split; [lia|]. replace (3 `max` i) with (3 + (3 `max` i - 3)) by lia. rewrite D. destruct (overlap_inv (3 `max` i - 3)) as (th & -> & T0 & T1 & T2 & O). apply O. lia.
  - intros i Hi. replace i with (3 + (i - 3)) by lia. rewrite D. destruct (overlap_inv (i - 3)) as (th & -> & T0 & T1 & T2 & O). exact T0.
Qed.
Print Assumptions syncmap_naive_lock_refuted.
