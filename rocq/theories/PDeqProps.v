(** poolDequeue, the queue under sync.Pool: it is a deque, its users never meet at a slot, and
    it returns nothing that was not put in. *)
From Verif Require Import Base Conc PDeqModel PDeqSpec PDeqProofs PDeqCount.
Open Scope Z_scope.

(** sizes the Pool makes: 8, 16, ..., 2^30; the queue may have been in use before, so that head and tail wrap *)
Definition size_ok (n : Z) : Prop := 0 < n < W /\ (n | W).
Example sizes : forall k, 3 <= k <= 30 -> size_ok (2^k).
Proof.
  intros k Hk. unfold size_ok, W. split; [split; [apply Z.pow_pos_nonneg; lia|apply Z.pow_lt_mono_r; lia]|].
  exists (2^(32 - k)). rewrite <- Z.pow_add_r by lia. f_equal. lia.
Qed.

(** *** Under every interleaving of one owner and any number of others, what is seen is what is
    seen of a list from whose ends things are taken at one instant *)
Theorem pdeq_is_a_deque n h tr s : size_ok n -> 0 <= h < W -> steps (d_step n) (d_init h) tr s ->
  exists a, steps (a_step n) a_init tr a.
Proof. intros [[H1 H2] H3] Hh HS. destruct (sim_steps n h tr s H1 H2 H3 Hh HS) as (H & T & a & A & _). exists a. exact A. Qed.
Print Assumptions pdeq_is_a_deque.

(** *** Nothing is returned more often than it was put in, and nil is never returned *)
Theorem pdeq_returns n h tr s : size_ok n -> 0 <= h < W -> steps (d_step n) (d_init h) tr s ->
  (forall x, (sum_list_with (ret_of x) tr <= sum_list_with (push_of x) tr)%nat) /\
  ~ In (LHeadRet None) tr /\ (forall i, ~ In (LTailRet i None) tr).
Proof.
  intros Hs Hh HS. destruct (pdeq_is_a_deque n h tr s Hs Hh HS) as [a A].
  assert (I : (exists c, inside a c /\ forall x, (count_occ Nat.eq_dec c x + sum_list_with (ret_of x) tr = sum_list_with (push_of x) tr)%nat) /\
    ~ In (LHeadRet None) tr /\ (forall i, ~ In (LTailRet i None) tr)).
  { remember a_init as a0 eqn:E. clear HS. revert E. induction A as [a|a ls a1 l a2 HS IH Hst]; intros ->.
    - split; [exists []; split; [apply inside_init|reflexivity]|]. split; [intros []|intros i []].
    - destruct (IH eq_refl) as ((c & C & Q) & NH & NT). destruct (a_count n _ _ _ c Hst C) as (c' & C' & Q'). destruct (a_some n _ _ _ Hst) as [S1 S2]. split.
      + exists c'. split; [exact C'|]. intros x. rewrite !sum_list_with_app. cbn. specialize (Q x). specialize (Q' x). lia.
      + split; [|intros i]; rewrite in_app_iff; intros [F|[F|[]]]; [exact (NH F)|exact (S1 F)|exact (NT i F)|exact (S2 i F)]. }
  destruct I as ((c & _ & Q) & NH & NT). split; [|split; assumption]. intros x. specialize (Q x). lia.
Qed.
Print Assumptions pdeq_returns.

(** *** The users never meet at a slot: those who are about to read or write the words of a
    slot are at different slots, so the accesses do not race *)
Definition o_at (n : Z) (o : opc) (k : Z) : Prop :=
  match o with OPush2 _ h | OPush3t _ h | OPush3v _ h | OPop2 h | OPop3 h _ => k = h mod n | _ => False end.
Definition c_at (n : Z) (c : cpc) (k : Z) : Prop := match c with C2 t | C3 t _ | C4 t _ => k = t mod n | _ => False end.
Theorem pdeq_no_race n h tr s : size_ok n -> 0 <= h < W -> steps (d_step n) (d_init h) tr s ->
  (forall i j k, c_at n (d_cons s i) k -> c_at n (d_cons s j) k -> i = j) /\
  (forall i k, o_at n (d_own s) k -> ~ c_at n (d_cons s i) k).
Proof.
  intros [[H1 H2] H3] Hh HS. destruct (sim_steps n h tr s H1 H2 H3 Hh HS) as (H & T & a & _ & HR).
  assert (CA : forall c k, c_at n c k -> cslot n c = Some k) by (intros [] k; cbn; intros Q; congruence || contradiction).
  assert (OA : forall o k, o_at n o k -> oslot n o = Some k) by (intros [] k; cbn; intros Q; congruence || contradiction).
  split.
  - intros i j k Hi Hj. exact (r_cc _ _ _ _ _ HR _ _ _ (CA _ _ Hi) (CA _ _ Hj)).
  - intros i k Ho Hi. exact (r_oc _ _ _ _ _ HR _ _ (OA _ _ Ho) (CA _ _ Hi)).
Qed.
Print Assumptions pdeq_no_race.

(** *** It keeps nothing of what was taken: a slot that is not empty is one of those from tail to head, or
    somebody is at it *)
Theorem pdeq_keeps_nothing n h tr s k : size_ok n -> 0 <= h < W -> steps (d_step n) (d_init h) tr s -> 0 <= k < n ->
  d_slot s k <> Sw false None ->
  (exists j, 0 <= j < (d_head s - d_tail s) mod W /\ k = (d_tail s + j) mod n) \/ (exists i, c_at n (d_cons s i) k) \/
  o_at n (d_own s) k \/ (exists x hd, d_own s = OPush4 x hd /\ k = hd mod n).
Proof.
  intros [[H1 H2] H3] Hh HS Hk NE. destruct (sim_steps n h tr s H1 H2 H3 Hh HS) as (H & T & a & _ & HR).
  pose proof (r_len _ _ _ _ _ HR) as EL. pose proof (r_n _ _ _ _ _ HR) as En.
  destruct (r_typ _ _ _ _ _ HR k Hk) as [(p & Hp & E)|[[i E]|E]].
  - destruct (d_slot s k) as [[] [v|]]; cbn; (left; reflexivity) || (right; discriminate) || (destruct (NE eq_refl)).
  - left. exists (p - T). rewrite (r_h _ _ _ _ _ HR), (r_t _ _ _ _ _ HR). split.
    + rewrite Zminus_mod_idemp_l, Zminus_mod_idemp_r, Z.mod_small by lia. lia.
    + rewrite <- Zplus_mod_idemp_l, (ix_W n H1 H3), Zplus_mod_idemp_l. rewrite <- E. f_equal. lia.
  - right. left. exists i. destruct (d_cons s i); cbn in *; congruence.
  - right. right. destruct (d_own s); cbn in *; try discriminate; try (left; congruence). right. eexists _, _. split; [reflexivity|congruence].
Qed.
Print Assumptions pdeq_keeps_nothing.

Local Tactic Notation "go" uconstr(t) := eapply steps_cons; [eapply t; reflexivity || (cbn; discriminate) || lia|].
(** *** A push may be refused although there is room: the goroutine that took the element has
    not emptied the slot (then the Pool makes a new queue) *)
Theorem pdeq_refused_only_full_refuted : ~ (forall n h tr s a, size_ok n -> 0 <= h < W -> steps (d_step n) (d_init h) tr s ->
  steps (a_step n) a_init tr a -> last tr = Some LPushBusy -> Z.of_nat (length (a_l a)) = n).
Proof.
  intros F. cut (exists tr s a, steps (d_step 1) (d_init 5) tr s /\ steps (a_step 1) a_init tr a /\ last tr = Some LPushBusy /\ a_l a = []).
  { intros (tr & s & a & HS & HA & HL & E). specialize (F 1 5 tr s a ltac:(split; [split; reflexivity|apply Z.divide_1_l]) ltac:(split; [lia|reflexivity]) HS HA HL). rewrite E in F. discriminate. }
  exists [LTau; LTau; LTau; LTau; LTau; LPush 7; LTau; LTau; LTail 3; LTau; LTau; LPushBusy]. eexists _, _. split; [|split; [|split; [reflexivity|]]].
  - unfold d_init. go (ds_push _ _ _ _ _ 7%nat). go ds_push_load. go ds_push_free. go ds_push_t. go ds_push_tv. go ds_push_add.
    go (ds_tail _ _ _ _ _ _ 3%nat). go (ds_tail_load _ _ _ _ _ _ 3%nat). go (ds_tail_cas _ _ _ _ _ _ 3%nat).
    go (ds_push _ _ _ _ _ 8%nat). go ds_push_load. go ds_push_busy. apply steps_nil.
  - unfold a_init. do 5 (eapply steps_cons; [apply as_tau|]). eapply steps_cons; [apply as_push; reflexivity|]. do 2 (eapply steps_cons; [apply as_tau|]).
    eapply steps_cons; [apply as_tail; reflexivity|]. do 2 (eapply steps_cons; [apply as_tau|]). eapply steps_cons; [eapply (as_busy _ _ _ 3%nat); reflexivity|]. apply steps_nil.
  - reflexivity.
Qed.
Print Assumptions pdeq_refused_only_full_refuted.
(** an execution in which head wraps, both ends are taken from, and a CompareAndSwap fails *)
Example pdeq_case : exists s, steps (d_step 2) (d_init (W - 1))
  [LTau; LTau; LTau; LTau; LTau; LPush 7; LTau; LTau; LTau; LTau; LTau; LPush 8; LTau; LTau; LTau; LTau; LHead; LTau; LTau; LTail 3; LTau; LTau; LTau; LHeadRet (Some 8%nat); LTailRet 3 (Some 7%nat)] s /\
  d_head s = 0 /\ d_tail s = 0 /\ d_own s = OIdle.
Proof.
  eexists. split.
  - unfold d_init.
    go (ds_push _ _ _ _ _ 7%nat). go ds_push_load. go ds_push_free. go ds_push_t. go ds_push_tv. go ds_push_add.
    go (ds_push _ _ _ _ _ 8%nat). go ds_push_load. go ds_push_free. go ds_push_v. go ds_push_vt. go ds_push_add.
    go (ds_tail _ _ _ _ _ _ 3%nat). go (ds_tail_load _ _ _ _ _ _ 3%nat).
    go ds_pop. go ds_pop_load. go ds_pop_cas.
    go (ds_tail_retry _ _ _ _ _ _ 3%nat). go (ds_tail_load _ _ _ _ _ _ 3%nat). go (ds_tail_cas _ _ _ _ _ _ 3%nat). go (ds_tail_read _ _ _ _ _ _ 3%nat). go (ds_tail_val _ _ _ _ _ _ 3%nat).
    go ds_pop_read. go ds_pop_zero. go (ds_tail_typ _ _ _ _ _ _ 3%nat). apply steps_nil.
  - repeat split; reflexivity.
Qed.
