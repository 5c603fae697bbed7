(** Liveness of sync.RWMutex (RWModel): if those that have the lock give it back, everybody
    who wants it gets it, for reading and for writing. *)
From Verif Require Import Base Conc Fair RWModel RWProofs.
Local Open Scope Z.

(** nobody has to call RLock or Lock; those that have the lock have to give it back *)
Definition rw_go (N : nat) (s : rwstate) (t : nat) (s' : rwstate) : Prop := rw_step N s t s' /\ rw_pc s t <> PIdle.
(** sync.Mutex and semaphores starve nobody *)
Definition rw_fair (N : nat) (e : nat -> rwstate) : Prop := forall t, strongly_fair (rw_go N) (fun s => rw_pc s t) e.

Section live.
Context (N : nat) (HN : Z.of_nat N <= max_readers).
Local Notation rch s := (reach rw_new (rw_step N) s).

Lemma rw_other s u s' t : rw_step N s u s' -> t <> u -> rw_pc s' t = rw_pc s t.
Proof using. intros H Ne. destruct H; cbn; apply tset_ne; auto. Qed.
(** what a step does to the goroutine that makes it *)
Lemma rw_self s t s' : rwinv N s -> rw_step N s t s' ->
  match rw_pc s t with
  | PIdle => rw_pc s' t = PRWant \/ rw_pc s' t = PWWant
  | PRWant => rw_pc s' t = PRSem \/ rw_pc s' t = PRHold
  | PRSem => rw_pc s' t = PRHold
  | PRHold => rw_pc s' t = PRDec \/ rw_pc s' t = PIdle
  | PRDec => (rw_pc s' t = PRPost \/ rw_pc s' t = PIdle) /\ rw_wait s' = rw_wait s - 1
  | PRPost => rw_pc s' t = PIdle /\ 0 < rw_wsem s'
  | PWWant => rw_pc s' t = PWAnn
  | PWAnn => rw_pc s' t = PWHold \/ exists r, rw_pc s' t = PWWait r
  | PWWait r => rw_pc s' t = PWHold \/ rw_pc s' t = PWSem
  | PWSem => rw_pc s' t = PWHold
  | PWHold => exists r, rw_pc s' t = PWPost r 0
  | PWPost r i => i < r /\ rw_pc s' t = PWPost r (i + 1) /\ 0 < rw_rsem s' \/ rw_pc s' t = PIdle /\ rw_w s' = None
  end.
Proof using.
  intros IV H. destruct IV as [_ IW IO].
  destruct H as [c x w a b pc t L E|c x w a b pc t L E|c x w a b pc t E|c x w a b pc t E A|c x w a b pc t E|c x w a b pc t E|c x w a b pc t E
    |c x a b pc t E|c x w a b pc t E|c x w a b pc t r E|c x w a b pc t E A|c x w a b pc t E|c x w a b pc t r i E A|c x w a b pc t r i E A];
    cbn [rw_pc rw_w rw_count rw_wait rw_rsem rw_wsem] in *; rewrite E; rewrite ?tset_eq; auto.
  - destruct (c + 1 <? 0); auto.
  - destruct (c - 1 <? 0); auto.
  - destruct (x - 1 =? 0); auto.
  - split; [reflexivity|]. destruct w as [u|]; cbn in IO; [destruct (pc u); cbn in IO|]; unfold quiet in IO; try lia; destruct IO.
  - subst r. destruct (_ =? 0); eauto.
  - destruct (_ =? 0); eauto.
  - eauto.
  - left. split; [exact A|]. split; [reflexivity|]. destruct (IW t) as [W _]. rewrite E in W. rewrite (W I) in IO. cbn in IO. rewrite E in IO. cbn in IO. unfold quiet in IO. lia.
Qed.
(** who can always move *)
Definition free_to_go (s : rwstate) (p : rwpc) : Prop :=
  match p with PIdle => False | PRSem => 0 < rw_rsem s | PWWant => rw_w s = None | PWSem => 0 < rw_wsem s | _ => True end.
Lemma rw_can s t : rwinv N s -> free_to_go s (rw_pc s t) -> can_move (rw_go N) (fun s => rw_pc s t) s.
Proof using.
  intros IV H. assert (M : forall s', rw_step N s t s' -> can_move (rw_go N) (fun s => rw_pc s t) s).
  { intros s' HS. exists t, s'. assert (NI : rw_pc s t <> PIdle) by (intros X; rewrite X in H; exact H). split; [split; assumption|].
    pose proof (rw_self s t s' IV HS) as X. intros Eq. rewrite Eq in X. destruct (rw_pc s t); try (intuition congruence); try (destruct X as [?|[? ?]]; congruence); try (destruct X; congruence).
    destruct X as [(_ & X & _)|[X _]]; [injection X; lia|congruence]. }
  destruct s as [c x w a b pc]. cbn in *. destruct (pc t) as [| | | | | | | |r| | |r i] eqn:E; cbn in H.
  - destruct H.
  - eapply M, rw_radd, E.
  - eapply M, rw_rsem_acq; eassumption.
  - eapply M, rw_runlock, E.
  - eapply M, rw_rdec, E.
  - eapply M, rw_rpost, E.
  - subst w. eapply M, rw_wlock, E.
  - eapply M, rw_wann, E.
  - eapply M, rw_wwait, E.
  - eapply M, rw_wsem_acq; eassumption.
  - eapply M, rw_wunlock, E.
  - destruct (Z_lt_dec i r); [eapply M, rw_wpost; eassumption|eapply M, rw_wfree; eassumption].
Qed.

Context (e : nat -> rwstate) (ls : nat -> option nat) (E : execution (rw_step N) rw_new e ls) (F : rw_fair N e).
Lemma iv i : rwinv N (e i). Proof using E HN. apply rwinv_reach; [exact HN|]. apply (exec_reach _ _ e ls E). Qed.
(** a goroutine that can move as long as [C] *)
Lemma rw_leads t p (C Q : rwstate -> Prop) i : rw_pc (e i) t = p -> C (e i) ->
  (forall s, rwinv N s -> rw_pc s t = p -> C s -> free_to_go s p) ->
  (forall s u s', rwinv N s -> rwinv N s' -> rw_pc s t = p -> C s -> rw_step N s u s' -> u <> t -> C s' \/ Q s') ->
  (forall s s', rwinv N s -> rwinv N s' -> rw_pc s t = p -> C s -> rw_step N s t s' -> Q s') ->
  exists j, (i <= j)%nat /\ Q (e j).
Proof using E F HN.
  intros H HC FG KO KS. refine (leads_weak _ _ e ls E (rw_go N) (fun s => rw_pc s t) (fun s => rw_pc s t = p /\ C s) Q (strong_weak _ _ _ (F t)) _ _ i (conj H HC)).
  - intros s u s' R [Hs Cs] HS. pose proof (rwinv_reach N HN s R) as I. pose proof (rwinv_step N HN s u s' I HS) as I'. destruct (decide (u = t)) as [->|Ne].
    + right. exact (KS s s' I I' Hs Cs HS).
    + destruct (KO s u s' I I' Hs Cs HS Ne) as [C'|Q']; [left|right; exact Q']. rewrite (rw_other s u s' t HS) by auto. auto.
  - intros s R [Hs Cs]. pose proof (rwinv_reach N HN s R) as I. apply rw_can; [exact I|]. rewrite Hs. apply FG; assumption.
Qed.
Lemma rw_leads1 t p (Q : rwstate -> Prop) i : rw_pc (e i) t = p -> (forall s, free_to_go s p) ->
  (forall s s', rwinv N s -> rwinv N s' -> rw_pc s t = p -> rw_step N s t s' -> Q s') -> exists j, (i <= j)%nat /\ Q (e j).
Proof using E F HN. intros H FG KS. apply (rw_leads t p (fun _ => True) Q i H I); auto. intros s s' I1 I2 P _ HS. exact (KS s s' I1 I2 P HS). Qed.
Lemma rw_keep t p i j : (i <= j)%nat -> rw_pc (e i) t = p -> rw_pc (e j) t = p \/ exists k, (i <= k < j)%nat /\ rw_pc (e k) t = p /\ rw_step N (e k) t (e (1 + k)%nat).
Proof using E.
  intros Hij H. induction Hij as [|j Hij [IH|(k & Hk & K)]]; [auto| |right; exists k; split; [lia|exact K]].
  change (S j) with (1 + j)%nat. pose proof (proj2 E j) as ES. destruct (ls j) as [u|]; [|left; rewrite ES; exact IH].
  destruct (decide (u = t)) as [->|Ne]; [right; exists j; split; [lia|auto]|left]. rewrite (rw_other _ _ _ _ ES) by auto. exact IH.
Qed.

(** *** Unlock comes to its end, and lets those in that wait for readerSem *)
Lemma post_leads t r i n : rw_pc (e n) t = PWPost r i -> exists m, (n <= m)%nat /\ rw_pc (e m) t = PIdle /\ rw_w (e m) = None.
Proof using E F HN.
  remember (Z.to_nat (r - i)) as k eqn:Hk. revert i n Hk. induction k as [k IH] using (well_founded_induction lt_wf). intros i n Hk H.
  destruct (rw_leads1 t (PWPost r i) (fun s => i < r /\ rw_pc s t = PWPost r (i + 1) \/ rw_pc s t = PIdle /\ rw_w s = None) n H) as (m & Hm & [[L M]|M]); [intros; exact I| | |eauto].
  - intros s s' IV _ Hs HS. pose proof (rw_self s t s' IV HS) as X. rewrite Hs in X. tauto.
  - destruct (IH (Z.to_nat (r - (i + 1))) ltac:(lia) (i + 1) m eq_refl M) as (q & Hq & Q). exists q. split; [lia|exact Q].
Qed.
Lemma post_token t r i n : rw_pc (e n) t = PWPost r i -> i < r -> exists m, (n <= m)%nat /\ 0 < rw_rsem (e m).
Proof using E F HN.
  intros H L. apply (rw_leads t (PWPost r i) (fun _ => True) (fun s => 0 < rw_rsem s) n H I); [intros; exact I|auto|].
  intros s s' IV _ Hs _ HS. destruct HS; cbn in *; rewrite Hs in *; try congruence; try (match goal with X : PWPost _ _ = PWPost _ _ |- _ => injection X as <- <- end); try lia.
  pose proof (rv_o _ _ IV) as O. pose proof (proj1 (rv_w _ _ IV t)) as W. cbn in O, W. rewrite Hs in W. rewrite (W Logic.I) in O. cbn in O. rewrite Hs in O. cbn in O. unfold quiet in O. lia.
Qed.
Lemma whold_leads t n : rw_pc (e n) t = PWHold -> exists m r, (n <= m)%nat /\ rw_pc (e m) t = PWPost r 0.
Proof using E F HN.
  intros H. destruct (rw_leads1 t PWHold (fun s => exists r, rw_pc s t = PWPost r 0) n H) as (m & Hm & r & M); [intros; exact I| |eauto].
  intros s s' IV _ Hs HS. pose proof (rw_self s t s' IV HS) as X. rewrite Hs in X. exact X.
Qed.
(** *** a writer that waits for the readers *)
Lemma wsem_facts s t : rwinv N s -> rw_pc s t = PWSem -> rw_count s = cs N n_sem (rw_pc s) + cs N n_hold (rw_pc s) - max_readers /\ 0 <= rw_rsem s <= cs N n_sem (rw_pc s) /\
  rw_wait s = cs N n_hold (rw_pc s) + cs N n_dec (rw_pc s) + rw_rsem s /\ 0 <= rw_wsem s /\ 0 <= cs N n_post (rw_pc s) /\
  (0 < rw_wait s /\ rw_wsem s + cs N n_post (rw_pc s) = 0 \/ rw_wait s = 0 /\ rw_wsem s + cs N n_post (rw_pc s) = 1) /\ rw_w s = Some t.
Proof using.
  intros IV H. pose proof (proj1 (rv_w _ _ IV t)) as W. rewrite H in W. specialize (W I). pose proof (rv_o _ _ IV) as O. rewrite W in O. cbn in O. rewrite H in O. cbn in O. tauto.
Qed.
(** while it waits readerWait and readerSem do not grow *)
Lemma wsem_mono s u s' t : rwinv N s -> rw_pc s t = PWSem -> rw_step N s u s' -> u <> t -> rw_pc s' t = PWSem /\ rw_wait s' <= rw_wait s /\ rw_rsem s' <= rw_rsem s /\ (rw_wsem s <= rw_wsem s').
Proof using.
  intros IV H HS Ne. split; [rewrite (rw_other _ _ _ _ HS) by auto; exact H|]. destruct (wsem_facts s t IV H) as (_ & _ & _ & _ & _ & _ & W).
  assert (NW : ~ is_w (rw_pc s u)) by (intros X; apply (rv_w _ _ IV) in X; congruence).
  destruct HS as [c x w a b pc u L EE|c x w a b pc u L EE|c x w a b pc u EE|c x w a b pc u EE A|c x w a b pc u EE|c x w a b pc u EE|c x w a b pc u EE
    |c x a b pc u EE|c x w a b pc u EE|c x w a b pc u r EE|c x w a b pc u EE A|c x w a b pc u EE|c x w a b pc u r i EE A|c x w a b pc u r i EE A];
    cbn in *; rewrite EE in NW; cbn in NW; try lia; tauto.
Qed.
Definition wms (s : rwstate) : Z := rw_wait s + rw_rsem s.
Lemma some_one f s : (forall p, 0 <= f p <= 1) -> 0 < cs N f (rw_pc s) -> exists t, f (rw_pc s t) = 1.
Proof using. intros B H. apply csum_pos in H as (t & _ & G). exists t. specialize (B (rw_pc s t)). lia. Qed.
Lemma wsem_leads t k : forall n, rw_pc (e n) t = PWSem -> (Z.to_nat (wms (e n)) <= k)%nat -> exists m, (n <= m)%nat /\ rw_pc (e m) t = PWHold.
Proof using E F HN.
  induction k as [k IH] using (well_founded_induction lt_wf). intros n H Hk.
  assert (TAKE : forall n, rw_pc (e n) t = PWSem -> 0 < rw_wsem (e n) -> exists m, (n <= m)%nat /\ rw_pc (e m) t = PWHold).
  { intros q Q P. apply (rw_leads t PWSem (fun s => 0 < rw_wsem s) (fun s => rw_pc s t = PWHold) q Q P); auto.
    - intros s u s' IV _ Hs C HS Ne. left. pose proof (wsem_mono s u s' t IV Hs HS Ne). lia.
    - intros s s' IV _ Hs _ HS. pose proof (rw_self s t s' IV HS) as X. rewrite Hs in X. exact X. }
  assert (AGAIN : forall m, (n <= m)%nat -> rw_pc (e m) t = PWHold \/ rw_pc (e m) t = PWSem /\ wms (e m) < wms (e n) -> exists m, (n <= m)%nat /\ rw_pc (e m) t = PWHold).
  { intros m Hm [M|[M L]]; [eauto|]. assert (0 <= wms (e m)).
    { destruct (wsem_facts _ t (iv m) M) as (_ & A & B & _). unfold wms. pose proof (cs_nonneg N n_hold (rw_pc (e m)) ltac:(intros []; cbn; lia)). pose proof (cs_nonneg N n_dec (rw_pc (e m)) ltac:(intros []; cbn; lia)). lia. }
    destruct (IH (Z.to_nat (wms (e m))) ltac:(lia) m M (le_n _)) as (q & Hq & Q). exists q. split; [lia|exact Q]. }
  destruct (wsem_facts _ t (iv n) H) as (_ & A & B & _ & _ & D & _). destruct D as [[D1 D2]|[D1 D2]].
  - destruct (Z_lt_dec 0 (rw_rsem (e n))) as [RS|RS].
    + destruct (some_one n_sem (e n)) as [u U]; [intros []; cbn; lia|lia|]. assert (PU : rw_pc (e n) u = PRSem) by (destruct (rw_pc (e n) u); cbn in U; try lia; reflexivity).
      assert (Ne : u <> t) by (intros ->; congruence).
      destruct (rw_leads u PRSem (fun s => rw_pc s t = PWSem /\ wms s <= wms (e n) /\ 0 < rw_rsem s) (fun s => rw_pc s t = PWHold \/ rw_pc s t = PWSem /\ wms s < wms (e n)) n PU) as (m & Hm & M).
      * split; [exact H|]. split; [lia|exact RS].
      * intros s _ _ (_ & _ & X). exact X.
      * intros s v s' IV _ Hs (Ps & Ws & Rs) HS Nv. destruct (decide (v = t)) as [->|Nt].
        { right. left. pose proof (rw_self s t s' IV HS) as X. rewrite Ps in X. exact X. }
        destruct (wsem_mono s v s' t IV Ps HS Nt) as (P' & W' & R' & _). unfold wms in *. destruct (Z_lt_dec 0 (rw_rsem s')); [left; split; [exact P'|]; split; lia|right; right; split; [exact P'|lia]].
      * intros s s' IV _ Hs (Ps & Ws & Rs) HS. right. destruct (wsem_mono s u s' t IV Ps HS ltac:(auto)) as (P' & W' & R' & _). split; [exact P'|]. unfold wms in *.
        destruct HS; cbn in *; try congruence. lia.
      * exact (AGAIN m Hm M).
    + (* a reader has the lock or has just given it back *)
      assert (DEC : forall m u, (n <= m)%nat -> rw_pc (e m) u = PRDec -> rw_pc (e m) t = PWHold \/ rw_pc (e m) t = PWSem /\ wms (e m) <= wms (e n) -> exists m, (n <= m)%nat /\ rw_pc (e m) t = PWHold).
      { intros m u Hm U [M|[M L]]; [eauto|]. assert (Ne : u <> t) by (intros ->; congruence).
        destruct (rw_leads u PRDec (fun s => rw_pc s t = PWSem /\ wms s <= wms (e n)) (fun s => rw_pc s t = PWHold \/ rw_pc s t = PWSem /\ wms s < wms (e n)) m U) as (q & Hq & Q); auto.
        - intros; exact I.
        - intros s v s' IV _ Hs (Ps & Ws) HS Nv. destruct (decide (v = t)) as [->|Nt].
          { right. left. pose proof (rw_self s t s' IV HS) as X. rewrite Ps in X. exact X. }
          left. destruct (wsem_mono s v s' t IV Ps HS Nt) as (P' & W' & R' & _). unfold wms in *. split; [exact P'|lia].
        - intros s s' IV _ Hs (Ps & Ws) HS. right. destruct (wsem_mono s u s' t IV Ps HS ltac:(auto)) as (P' & W' & R' & _). split; [exact P'|].
          pose proof (rw_self s u s' IV HS) as X. rewrite Hs in X. unfold wms in *. lia.
        - destruct (AGAIN q ltac:(lia) Q) as (z & Hz & Zz). eauto. }
      destruct (Z_lt_dec 0 (cs N n_dec (rw_pc (e n)))) as [DC|DC].
      * destruct (some_one n_dec (e n)) as [u U]; [intros []; cbn; lia|lia|]. apply (DEC n u); [lia|destruct (rw_pc (e n) u); cbn in U; try lia; reflexivity|right; split; [exact H|lia]].
      * pose proof (cs_nonneg N n_dec (rw_pc (e n)) ltac:(intros []; cbn; lia)). destruct (some_one n_hold (e n)) as [u U]; [intros []; cbn; lia|lia|].
        assert (PU : rw_pc (e n) u = PRHold) by (destruct (rw_pc (e n) u); cbn in U; try lia; reflexivity). assert (Ne : u <> t) by (intros ->; congruence).
        destruct (rw_leads u PRHold (fun s => rw_pc s t = PWSem /\ wms s <= wms (e n)) (fun s => rw_pc s t = PWHold \/ rw_pc s t = PWSem /\ wms s <= wms (e n) /\ rw_pc s u = PRDec) n PU) as (m & Hm & M).
        { split; [exact H|lia]. }
        { intros; exact I. }
        { intros s v s' IV _ Hs (Ps & Ws) HS Nv. destruct (decide (v = t)) as [->|Nt].
          { right. left. pose proof (rw_self s t s' IV HS) as X. rewrite Ps in X. exact X. }
          left. destruct (wsem_mono s v s' t IV Ps HS Nt) as (P' & W' & R' & _). unfold wms in *. split; [exact P'|lia]. }
        { intros s s' IV _ Hs (Ps & Ws) HS. right. destruct (wsem_mono s u s' t IV Ps HS ltac:(auto)) as (P' & W' & R' & _). split; [exact P'|]. split; [unfold wms in *; lia|].
          destruct (wsem_facts s t IV Ps) as (Cn & _ & _ & _ & _ & _ & Ww).
          assert (Fw : cs N n_sem (rw_pc s) + cs N n_hold (rw_pc s) < Z.of_nat N).
          { apply (few N _ t); [|rewrite Ps; exact I]. destruct (decide (t < N)%nat) as [|G]; [assumption|]. rewrite (rv_N _ _ IV) in Ps by lia. discriminate. }
          destruct HS; cbn in *; try congruence. rewrite tset_eq. destruct (Z.ltb_spec (c - 1) 0); [reflexivity|lia]. }
        destruct M as [M|(M1 & M2 & M3)]; [eauto|]. apply (DEC m u Hm M3). right. auto.
  - destruct (Z_lt_dec 0 (rw_wsem (e n))) as [WS|WS]; [apply TAKE; assumption|].
    destruct (some_one n_post (e n)) as [u U]; [intros []; cbn; lia|lia|]. assert (PU : rw_pc (e n) u = PRPost) by (destruct (rw_pc (e n) u); cbn in U; try lia; reflexivity).
    assert (Ne : u <> t) by (intros ->; congruence).
    destruct (rw_leads u PRPost (fun s => rw_pc s t = PWSem) (fun s => rw_pc s t = PWHold \/ rw_pc s t = PWSem /\ 0 < rw_wsem s) n PU H) as (m & Hm & [M|[M1 M2]]).
    + intros; exact I.
    + intros s v s' IV _ Hs Ps HS Nv. destruct (decide (v = t)) as [->|Nt]; [right; left; pose proof (rw_self s t s' IV HS) as X; rewrite Ps in X; exact X|]. left. rewrite (rw_other _ _ _ _ HS) by auto. exact Ps.
    + intros s s' IV _ Hs Ps HS. right. pose proof (rw_self s u s' IV HS) as X. rewrite Hs in X. split; [rewrite (rw_other _ _ _ _ HS) by auto; exact Ps|tauto].
    + eauto.
    + destruct (TAKE m M1 M2) as (q & Hq & Q). exists q. split; [lia|exact Q].
Qed.
(** *** Lock, once it has w *)
Lemma ann_leads t n : (rw_pc (e n) t = PWAnn \/ (exists r, rw_pc (e n) t = PWWait r) \/ rw_pc (e n) t = PWSem) -> exists m, (n <= m)%nat /\ rw_pc (e m) t = PWHold.
Proof using E F HN.
  assert (L1 : forall n, rw_pc (e n) t = PWSem -> exists m, (n <= m)%nat /\ rw_pc (e m) t = PWHold) by (intros q Q; eapply wsem_leads; [exact Q|reflexivity]).
  assert (L2 : forall n r, rw_pc (e n) t = PWWait r -> exists m, (n <= m)%nat /\ rw_pc (e m) t = PWHold).
  { intros q r Q. destruct (rw_leads1 t (PWWait r) (fun s => rw_pc s t = PWHold \/ rw_pc s t = PWSem) q Q) as (m & Hm & [M|M]); [intros; exact I| |eauto|].
    - intros s s' IV _ Hs HS. pose proof (rw_self s t s' IV HS) as X. rewrite Hs in X. exact X.
    - destruct (L1 m M) as (z & Hz & Zz). exists z. split; [lia|exact Zz]. }
  intros [H|[[r H]|H]]; [|eauto|eauto].
  destruct (rw_leads1 t PWAnn (fun s => rw_pc s t = PWHold \/ exists r, rw_pc s t = PWWait r) n H) as (m & Hm & [M|[r M]]); [intros; exact I| |eauto|].
  - intros s s' IV _ Hs HS. pose proof (rw_self s t s' IV HS) as X. rewrite Hs in X. exact X.
  - destruct (L2 m r M) as (z & Hz & Zz). exists z. split; [lia|exact Zz].
Qed.
Lemma owner_posts t n : is_w (rw_pc (e n) t) -> exists m r i, (n <= m)%nat /\ rw_pc (e m) t = PWPost r i.
Proof using E F HN.
  intros H. assert (L : forall m, (n <= m)%nat -> rw_pc (e m) t = PWHold -> exists m r i, (n <= m)%nat /\ rw_pc (e m) t = PWPost r i).
  { intros m Hm M. destruct (whold_leads t m M) as (q & r & Hq & Q). exists q, r, 0. split; [lia|exact Q]. }
  destruct (rw_pc (e n) t) as [| | | | | | | |r| | |r i] eqn:P; try destruct H.
  - destruct (ann_leads t n) as (m & Hm & M); eauto.
  - destruct (ann_leads t n) as (m & Hm & M); eauto.
  - destruct (ann_leads t n) as (m & Hm & M); eauto.
  - eapply L; [|exact P]. lia.
  - exists n, r, i. auto.
Qed.
Lemma w_free n : exists m, (n <= m)%nat /\ rw_w (e m) = None.
Proof using E F HN.
  destruct (rw_w (e n)) as [t|] eqn:W; [|eauto]. apply (rv_w _ _ (iv n)) in W. destruct (owner_posts t n W) as (m & r & i & Hm & M).
  destruct (post_leads t r i m M) as (q & Hq & _ & Q). exists q. split; [lia|exact Q].
Qed.
Lemma lock_leads t n : (rw_pc (e n) t = PWWant \/ rw_pc (e n) t = PWAnn \/ (exists r, rw_pc (e n) t = PWWait r) \/ rw_pc (e n) t = PWSem) -> exists m, (n <= m)%nat /\ rw_pc (e m) t = PWHold.
Proof using E F HN.
  intros [H|H]; [|exact (ann_leads t n H)].
  destruct (leads_strong _ _ e ls E (rw_go N) (fun s => rw_pc s t) (fun s => rw_pc s t = PWWant) (fun s => rw_pc s t = PWAnn) (F t)) with (i := n) as (m & Hm & M); auto.
  - intros s u s' R Hs HS. destruct (decide (u = t)) as [->|Ne]; [right|left; rewrite (rw_other _ _ _ _ HS) by auto; auto].
    pose proof (rw_self s t s' (rwinv_reach N HN s R) HS) as X. rewrite Hs in X. exact X.
  - intros i Hi. destruct (w_free i) as (j & Hj & W). destruct (rw_keep t PWWant i j Hj Hi) as [K|(k & Hk & K1 & K2)].
    + exists j. split; [exact Hj|left]. apply rw_can; [apply iv|]. rewrite K. exact W.
    + exists (1 + k)%nat. split; [lia|right]. pose proof (rw_self _ t _ (iv k) K2) as X. rewrite K1 in X. exact X.
  - destruct (ann_leads t m) as (q & Hq & Q); [auto|]. exists q. split; [lia|exact Q].
Qed.
(** *** RLock *)
Lemma rsem_leads t n : rw_pc (e n) t = PRSem -> exists m, (n <= m)%nat /\ rw_pc (e m) t = PRHold.
Proof using E F HN.
  intros H. refine (leads_strong _ _ e ls E (rw_go N) (fun s => rw_pc s t) (fun s => rw_pc s t = PRSem) (fun s => rw_pc s t = PRHold) (F t) _ _ n H).
  - intros s u s' R Hs HS. destruct (decide (u = t)) as [->|Ne]; [right|left; rewrite (rw_other _ _ _ _ HS) by auto; auto].
    pose proof (rw_self s t s' (rwinv_reach N HN s R) HS) as X. rewrite Hs in X. exact X.
  - intros i Hi.
    assert (TOK : forall j, (i <= j)%nat -> 0 < rw_rsem (e j) -> exists j, (i <= j)%nat /\ (can_move (rw_go N) (fun s => rw_pc s t) (e j) \/ rw_pc (e j) t = PRHold)).
    { intros j Hj T. destruct (rw_keep t PRSem i j Hj Hi) as [K|(k & Hk & K1 & K2)].
      - exists j. split; [exact Hj|left]. apply rw_can; [apply iv|]. rewrite K. exact T.
      - exists (1 + k)%nat. split; [lia|right]. pose proof (rw_self _ t _ (iv k) K2) as X. rewrite K1 in X. exact X. }
    assert (POST : forall j u r q, (i <= j)%nat -> rw_pc (e j) u = PWPost r q -> exists j, (i <= j)%nat /\ (can_move (rw_go N) (fun s => rw_pc s t) (e j) \/ rw_pc (e j) t = PRHold)).
    { intros j u r q Hj U. destruct (rw_keep t PRSem i j Hj Hi) as [K|(k & Hk & K1 & K2)].
      - assert (S1 : 1 <= cs N n_sem (rw_pc (e j))).
        { replace 1 with (n_sem (rw_pc (e j) t)) by (rewrite K; reflexivity). apply (csum_ge N (fun t => n_sem (rw_pc (e j) t))); [intros x; destruct (rw_pc (e j) x); cbn; lia|].
          destruct (decide (t < N)%nat) as [|G]; [assumption|]. rewrite (rv_N _ _ (iv j)) in K by lia. discriminate. }
        pose proof (proj1 (rv_w _ _ (iv j) u)) as W. rewrite U in W. specialize (W I). pose proof (rv_o _ _ (iv j)) as O. rewrite W in O. cbn in O. rewrite U in O. cbn in O. unfold quiet in O.
        destruct (Z_lt_dec 0 (rw_rsem (e j))) as [T|T]; [exact (TOK j Hj T)|]. destruct (post_token u r q j U ltac:(lia)) as (m & Hm & M). exact (TOK m ltac:(lia) M).
      - exists (1 + k)%nat. split; [lia|right]. pose proof (rw_self _ t _ (iv k) K2) as X. rewrite K1 in X. exact X. }
    destruct (rw_w (e i)) as [u|] eqn:W.
    + apply (rv_w _ _ (iv i)) in W. destruct (owner_posts u i W) as (j & r & q & Hj & J). exact (POST j u r q Hj J).
    + apply (TOK i (le_n _)). pose proof (rv_o _ _ (iv i)) as O. rewrite W in O. cbn in O. unfold quiet in O.
      assert (S1 : n_sem (rw_pc (e i) t) <= cs N n_sem (rw_pc (e i))).
      { apply (csum_ge N (fun t => n_sem (rw_pc (e i) t))); [intros x; destruct (rw_pc (e i) x); cbn; lia|]. destruct (decide (t < N)%nat) as [|G]; [assumption|]. rewrite (rv_N _ _ (iv i)) in Hi by lia. discriminate. }
      rewrite Hi in S1. cbn in S1. lia.
Qed.
Lemma rlock_leads t n : (rw_pc (e n) t = PRWant \/ rw_pc (e n) t = PRSem) -> exists m, (n <= m)%nat /\ rw_pc (e m) t = PRHold.
Proof using E F HN.
  intros [H|H]; [|exact (rsem_leads t n H)].
  destruct (rw_leads1 t PRWant (fun s => rw_pc s t = PRSem \/ rw_pc s t = PRHold) n H) as (m & Hm & [M|M]); [intros; exact I| | |eauto].
  - intros s s' IV _ Hs HS. pose proof (rw_self s t s' IV HS) as X. rewrite Hs in X. exact X.
  - destruct (rsem_leads t m M) as (q & Hq & Q). exists q. split; [lia|exact Q].
Qed.
(** *** RUnlock and Unlock *)
Lemma unlock_leads t n : (rw_pc (e n) t = PRHold \/ rw_pc (e n) t = PRDec \/ rw_pc (e n) t = PRPost \/ rw_pc (e n) t = PWHold \/ (exists r i, rw_pc (e n) t = PWPost r i)) ->
  exists m, (n <= m)%nat /\ rw_pc (e m) t = PIdle.
Proof using E F HN.
  assert (L1 : forall n, rw_pc (e n) t = PRPost -> exists m, (n <= m)%nat /\ rw_pc (e m) t = PIdle).
  { intros q Q. apply (rw_leads1 t PRPost (fun s => rw_pc s t = PIdle) q Q); [intros; exact I|]. intros s s' IV _ Hs HS. pose proof (rw_self s t s' IV HS) as X. rewrite Hs in X. tauto. }
  assert (L2 : forall n, rw_pc (e n) t = PRDec -> exists m, (n <= m)%nat /\ rw_pc (e m) t = PIdle).
  { intros q Q. destruct (rw_leads1 t PRDec (fun s => rw_pc s t = PRPost \/ rw_pc s t = PIdle) q Q) as (m & Hm & [M|M]); [intros; exact I| | |eauto].
    - intros s s' IV _ Hs HS. pose proof (rw_self s t s' IV HS) as X. rewrite Hs in X. tauto.
    - destruct (L1 m M) as (z & Hz & Zz). exists z. split; [lia|exact Zz]. }
  intros [H|[H|[H|[H|(r & i & H)]]]]; eauto.
  - destruct (rw_leads1 t PRHold (fun s => rw_pc s t = PRDec \/ rw_pc s t = PIdle) n H) as (m & Hm & [M|M]); [intros; exact I| | |eauto].
    + intros s s' IV _ Hs HS. pose proof (rw_self s t s' IV HS) as X. rewrite Hs in X. exact X.
    + destruct (L2 m M) as (z & Hz & Zz). exists z. split; [lia|exact Zz].
  - destruct (whold_leads t n H) as (m & r & Hm & M). destruct (post_leads t r 0 m M) as (z & Hz & Zz & _). exists z. split; [lia|exact Zz].
  - destruct (post_leads t r i n H) as (z & Hz & Zz & _). eauto.
Qed.
End live.
