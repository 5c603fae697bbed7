(** C117: dsx/mapx/syncmapx with keys that the Go map refuses.  A key type may be a struct
    with an interface in it; hashing a key whose interface holds a slice, say, panics.  The
    methods (17-74) have no deferred Unlock, so the panic leaves the lock as it is. *)
From stdpp Require Import gmap.
From Verif Require Import Base Conc Lin SyncMapModel SyncMapProofs SyncMapProps.

Section Key.
Context {K V : Type} `{Countable K} (zero : V).
(** the keys whose hash panics *)
Context (bad : K -> bool).
Definition bad_call (o : mop K V) : bool := match o with MGet k | MHas k | MSet k _ | MDelete k => bad k | _ => false end.
(** the goroutine has panicked in a method: it stays between Lock and Unlock.  (If it recovers
    it goes on as another goroutine of the model.) *)
Definition panicked (s : mstate K V) (t : nat) : Prop := exists o, m_th s t = MHold o /\ bad_call o = true.
(** the steps of SyncMapModel, except that such a goroutine never gets to the map *)
Definition mk_step (s : mstate K V) (e : option (lev (mop K V) (mret K V))) (s' : mstate K V) : Prop :=
  m_step zero s e s' /\ forall t, panicked s t -> m_th s' t = m_th s t.

Lemma mk_steps ls s s' : steps mk_step s ls s' -> steps (m_step zero) s ls s'.
Proof. intros H'. induction H' as [|? ? ? ? ? ? IH [Hs _]]; [constructor|econstructor; eauto]. Qed.
Lemma panicked_stays ls s s' t : steps mk_step s ls s' -> panicked s t -> m_th s' t = m_th s t.
Proof.
  intros HS P. induction HS as [|? ? ? ? ? HS IH [Hs Hp]]; [reflexivity|]. specialize (IH P). rewrite <- IH. apply Hp.
  destruct P as (o & E & B). exists o. split; [congruence|exact B].
Qed.
Lemma mk_inv s : reach m_new mk_step s -> exists tr, minv zero tr s.
Proof. intros [ls HS]. eexists. exact (minv_steps zero ls s (mk_steps _ _ _ HS)). Qed.
Lemma mk_reach ls s s' : reach m_new mk_step s -> steps mk_step s ls s' -> reach m_new mk_step s'.
Proof. intros [l1 H1] H2. exists (l1 ++ ls). eapply steps_app; eauto. Qed.

(** whoever waits for a lock that a panicked goroutine has, waits for ever *)
Lemma waits_for_ever s t u o o' ls s' : reach m_new mk_step s -> m_th s t = MHold o -> bad_call o = true ->
  (is_write o = true \/ is_write o' = true) -> m_th s u = MWant o' -> steps mk_step s ls s' -> m_th s' u = MWant o'.
Proof.
  intros R Et B Hw Eu HS. induction HS as [|s ls s1 l s2 HS IH Hs]; [exact Eu|]. specialize (IH R Et Eu).
  destruct (mk_inv s1 (mk_reach ls s s1 R HS)) as [tr I].
  assert (E1 : m_th s1 t = MHold o) by (rewrite (panicked_stays ls s s1 t HS); [exact Et|exists o; auto]).
  assert (Hx : if is_write o then m_writer s1 = Some t else t ∈ m_readers s1).
  { pose proof (iv_w _ _ _ I t) as Iw. pose proof (iv_r _ _ _ I t) as Ir. rewrite E1 in Iw, Ir. cbn [hw hr] in Iw, Ir. destruct (is_write o); [apply Iw|apply Ir]; reflexivity. }
  destruct Hs as [Hs _]. clear -Hx Hw IH Hs. destruct Hs; cbn [m_th m_writer m_readers] in *;
    try (match goal with |- tset _ ?x _ u = _ => destruct (decide (u = x)) as [->|Hn]; [exfalso|rewrite tset_ne by exact Hn; exact IH] end);
    try congruence; try exact IH.
  - assert (o0 = o') as -> by congruence. destruct Hw as [Hw|Hw]; [rewrite Hw in Hx; discriminate|congruence].
  - assert (o0 = o') as -> by congruence. destruct (is_write o); [discriminate|inversion Hx].
Qed.

(** as long as no Set or Delete has panicked, readers go on *)
Lemma readers_go_on tr s t o : minv zero tr s -> (forall u o, m_th s u = MHold o -> bad_call o = true -> is_write o = false) ->
  m_th s t = MWant o -> is_write o = false -> exists e s' u, mk_step s e s' /\ m_th s' u <> m_th s u /\ (u = t \/ hw (m_th s u)).
Proof.
  intros I Hb Et Eo. destruct (m_writer s) as [u|] eqn:Ew.
  - assert (Hw : hw (m_th s u)) by (apply (iv_w _ _ _ I); exact Ew). pose proof (iv_pc _ _ _ I u) as Ip.
    assert (NP : ~ panicked s u) by (intros (o' & E & B); rewrite E in Hw; specialize (Hb u o' E B); cbn in Hw; congruence).
    assert (NT : forall o, m_th s u = MHold o -> m_torn s = false).
    { intros o' E. destruct (m_torn s) eqn:Et'; [|reflexivity]. destruct (iv_torn _ _ _ I Et') as (v & o2 & Ev).
      assert (Hwv : m_writer s = Some v) by (apply (iv_w _ _ _ I); rewrite Ev; exact Logic.I). congruence. }
    assert (Hst : forall e p s', m_step zero s e s' -> m_th s' = tset (m_th s) u p -> p <> m_th s u ->
      exists e s' u, mk_step s e s' /\ m_th s' u <> m_th s u /\ (u = t \/ hw (m_th s u))).
    { intros e p s' H1 E1 Hp. exists e, s', u. rewrite E1. split; [|split; [rewrite tset_eq; exact Hp|auto]]. split; [exact H1|].
      intros x Hx. rewrite E1. apply tset_ne. intros ->. contradiction. }
    destruct s as [m tn c w rs th]. cbn [m_th m_writer m_torn m_map] in *. subst w.
    destruct (th u) as [|o1|o1|o1 m0 rest dn|o1|o1 r|o1 r] eqn:E; cbn [hw pcok m_torn] in Hw, Ip; try contradiction.
    + assert (tn = false) by exact (NT o1 eq_refl). subst tn. eapply Hst; [eapply ms_write_begin; eauto|reflexivity|discriminate].
    + destruct (write_result o1 m) as [m'|] eqn:Er; [|destruct o1; destruct Ip; discriminate].
      eapply Hst; [eapply ms_write_end; eauto|reflexivity|discriminate].
    + eapply Hst; [eapply ms_unlock; eauto|reflexivity|discriminate].
  - destruct s as [m tn c w rs th]. cbn [m_th m_writer] in *. subst w. do 2 eexists. exists t. split; [split; [eapply ms_rlock; eauto|]|].
    + intros x (o' & E & _). cbn [m_th] in *. apply tset_ne. intros ->. congruence.
    + cbn [m_th]. rewrite tset_eq, Et. split; [discriminate|auto].
Qed.
End Key.

(** Full statement: a call whose key the map refuses panics and has no other effect.  What holds:
    whatever the keys, every history is linearizable (the panicked calls never return), there is
    no data race, as long as nobody has panicked nobody waits for ever, and as long as no Set or
    Delete has, no Get, Has, Size, Keys or Values waits for anybody but a writer that goes on. *)
Theorem syncmap_bad_key_partial : forall (K V : Type) `{Countable K} (zero : V) (bad : K -> bool),
  (forall ls (s : mstate K V), steps (mk_step zero bad) m_new ls s -> linearizable (map_spec zero) ∅ (erase (events ls)) /\ m_crash s = false) /\
  (forall (s : mstate K V) t, reach m_new (mk_step zero bad) s -> (forall u, ~ panicked bad s u) -> m_th s t <> MIdle ->
     exists e s' u, mk_step zero bad s e s' /\ m_th s u <> MIdle /\ m_th s' u <> m_th s u) /\
  (forall (s : mstate K V) t o, reach m_new (mk_step zero bad) s -> (forall u o, m_th s u = MHold o -> bad_call bad o = true -> is_write o = false) ->
     m_th s t = MWant o -> is_write o = false ->
     exists e s' u, mk_step zero bad s e s' /\ m_th s' u <> m_th s u /\ (u = t \/ m_writer s = Some u)).
Proof.
  intros K V ? ? zero bad. split; [|split].
  - intros ls s HS. apply mk_steps in HS. split; [eapply syncmap_linearizable; eauto|eapply syncmap_no_race; eexists; eauto].
  - intros s t [ls HS] Hp Ht. destruct (syncmap_progress K V zero s t) as (e & s' & u & H1 & H2 & H3); [exists ls; eapply mk_steps; eauto|exact Ht|].
    exists e, s', u. split; [|auto]. split; [exact H1|]. intros x Hx. destruct (Hp x Hx).
  - intros s t o R Hb Et Eo. destruct (mk_inv zero bad s R) as [tr I]. destruct (readers_go_on zero bad tr s t o I Hb Et Eo) as (e & s' & u & H1 & H2 & H3).
    exists e, s', u. split; [exact H1|]. split; [exact H2|]. rewrite <- (iv_w _ _ _ I u). exact H3.
Qed.
Print Assumptions syncmap_bad_key_partial.
(** once a Set or Delete has panicked, no call ever gets the lock again; once a Get or Has has,
    no Set, Delete or Clear does *)
Theorem syncmap_bad_key_refuted : forall (K V : Type) `{Countable K} (zero : V) (bad : K -> bool) (s : mstate K V) t u o o',
  reach m_new (mk_step zero bad) s -> m_th s t = MHold o -> bad_call bad o = true -> m_th s u = MWant o' ->
  is_write o = true \/ is_write o' = true ->
  forall ls s', steps (mk_step zero bad) s ls s' -> m_th s' u = MWant o'.
Proof. intros K V ? ? zero bad s t u o o' R Et B Eu Hw ls s' HS. eapply waits_for_ever; eauto. Qed.
Print Assumptions syncmap_bad_key_refuted.
(** both happen *)
Definition is5 (k : nat) : bool := k =? 5.
Lemma mk_free (s : mstate nat nat) e s' : m_step 0 s e s' -> (forall t o, m_th s t <> MHold o) -> mk_step 0 is5 s e s'.
Proof. intros Hs Hn. split; [exact Hs|]. intros t (o & E & _). destruct (Hn _ _ E). Qed.
Example syncmap_bad_key_case : forall o, (o = MGet 5 \/ o = MSet 5 7) ->
  exists s, reach m_new (mk_step 0 is5) s /\ m_th s 0 = MHold o /\ bad_call is5 o = true /\ m_th s 1 = MWant (MSet 6 8).
Proof.
  intros o Ho. set (th1 := tset (fun _ => @MIdle nat nat _ _) 0 (MWant o)). set (th2 := tset th1 1 (MWant (MSet 6 8))).
  assert (S1 : mk_step 0 is5 m_new (Some (Inv 0 o)) (MS ∅ false false None [] th1)) by (apply mk_free; [apply ms_call; reflexivity|discriminate]).
  assert (S2 : mk_step 0 is5 (MS ∅ false false None [] th1) (Some (Inv 1 (MSet 6 8))) (MS ∅ false false None [] th2)).
  { apply mk_free; [apply ms_call; reflexivity|]. intros t o'. cbn [m_th]. unfold th1. destruct (tset_cases (fun _ => @MIdle nat nat _ _) 0 (MWant o) t) as [[_ ->]|[_ ->]]; discriminate. }
  assert (N2 : forall t o', th2 t <> MHold o').
  { intros t o'. unfold th2. destruct (tset_cases th1 1 (MWant (MSet 6 8)) t) as [[_ ->]|[_ ->]]; [discriminate|].
    unfold th1. destruct (tset_cases (fun _ => @MIdle nat nat _ _) 0 (MWant o) t) as [[_ ->]|[_ ->]]; discriminate. }
  assert (S3 : exists w rs, mk_step 0 is5 (MS ∅ false false None [] th2) None (MS ∅ false false w rs (tset th2 0 (MHold o)))).
  { destruct Ho as [-> | ->]; do 2 eexists; (apply mk_free; [|exact N2]); [apply ms_rlock; reflexivity|apply ms_lock; reflexivity]. }
  destruct S3 as (w & rs & S3). eexists. split; [eexists; eapply steps_cons; [exact S1|]; eapply steps_cons; [exact S2|]; eapply steps_cons; [exact S3|apply steps_nil]|].
  split; [reflexivity|]. split; [destruct Ho as [-> | ->]; reflexivity|reflexivity].
Qed.
