(** Liveness of timex/sleepx/sleepx.go: what happens in every infinite execution in
    which no call is forgotten. *)
From Verif Require Import Base Conc Fair TimeModel TimeProofs SleepModel SleepProofs SleepProps.
Local Open Scope Z.

(** nobody has to make a call, and time passes as it likes *)
Definition c_go (s : cstate) (l : slab) (s' : cstate) : Prop :=
  c_step s l s' /\ match l with LSleep _ _ | LWake _ | LTick => False | _ => True end.
Definition sleep_fair (e : nat -> cstate) : Prop := forall t, weakly_fair c_go (fun s => c_th s t) e.

(** what a step does to one goroutine *)
Lemma th_step s l s' t : c_step s l s' -> c_th s' t = c_th s t \/
  match c_th s t with
  | SIdle => True
  | SCas k => c_th s' t = SIdle /\ c_slept s = true \/ c_th s' t = SDone k
  | SDone k => c_th s' t = SWait k (c_ctx s) (c_now s)
  | SWait k x t0 => c_th s' t = SStore k x t0
  | SStore _ _ _ => c_th s' t = SIdle
  | WLoad => c_slept s = false /\ c_th s' t = SIdle \/ c_slept s = true /\ c_th s' t = WRead
  | WRead => c_th s' t = WCancel (c_cancel s)
  | WCancel x => c_th s' t = WCtx /\ l = LTau t /\ c_cancelled s' x = true
  | WCtx => c_th s' t = WCan (c_next s)
  | WCan _ => c_th s' t = SIdle
  end.
Proof.
  intros H. destruct H; cbn; try (left; reflexivity).
  all: match goal with |- context [tset ?th ?x ?p ?y] => destruct (tset_cases th x p y) as [[-> ->]|[_ ->]]; [right|left; reflexivity] end.
  all: match goal with E : _ _ = _ |- _ => rewrite E end; auto. rewrite tset_eq. auto.
Qed.
(** every goroutine in a call can move, except a sleeper that waits *)
Lemma th_can s t : match c_th s t with SIdle => False | SWait k x t0 => timer_fired k t0 (c_now s) \/ c_cancelled s x = true | _ => True end ->
  can_move c_go (fun s => c_th s t) s.
Proof.
  intros H. destruct s as [sl x c n f now th]. cbn in *.
  assert (M : forall l s', c_step (CS sl x c n f now th) l s' -> match l with LSleep _ _ | LWake _ | LTick => False | _ => True end -> c_th s' t <> th t ->
    can_move c_go (fun s => c_th s t) (CS sl x c n f now th)) by (intros l s' H1 H2 H3; exists l, s'; split; [split; assumption|exact H3]).
  destruct (th t) as [|k|k|k e t0|k e t0| | |e| |e] eqn:T.
  - destruct H.
  - destruct sl; [eapply M; [eapply cs_cas_fail; exact T|exact I|]|eapply M; [eapply cs_cas_ok; exact T|exact I|]]; cbn; rewrite tset_eq; discriminate.
  - eapply M; [eapply cs_done; exact T|exact I|]. cbn. rewrite tset_eq. discriminate.
  - destruct H as [H|H]; [eapply M; [eapply cs_timer; [exact T|exact H]|exact I|]|eapply M; [eapply cs_woken; [exact T|exact H]|exact I|]]; cbn; rewrite tset_eq; discriminate.
  - eapply M; [eapply cs_store; exact T|exact I|]. cbn. rewrite tset_eq. discriminate.
  - destruct sl; [eapply M; [eapply cs_load_true; exact T|exact I|]|eapply M; [eapply cs_load_false; exact T|exact I|]]; cbn; rewrite tset_eq; discriminate.
  - eapply M; [eapply cs_read; exact T|exact I|]. cbn. rewrite tset_eq. discriminate.
  - eapply M; [eapply cs_cancel; exact T|exact I|]. cbn. rewrite tset_eq. discriminate.
  - eapply M; [eapply cs_ctx; exact T|exact I|]. cbn. rewrite tset_eq. discriminate.
  - eapply M; [eapply cs_can; exact T|exact I|]. cbn. rewrite tset_eq. discriminate.
Qed.
Lemma now_step s l s' : c_step s l s' -> c_now s <= c_now s'.
Proof. intros H. destruct H; cbn; lia. Qed.

(** *** any use *)
Section live.
Context (step : cstate -> slab -> cstate -> Prop) (sub : forall s l s', step s l s' -> c_step s l s').
Context (now0 : Z) (e : nat -> cstate) (ls : nat -> option slab) (E : execution step (c_init now0) e ls) (F : sleep_fair e).
Local Notation rch s := (reach (c_init now0) step s).
Lemma sub_reach s : rch s -> reach (c_init now0) c_step s.
Proof using sub. apply reach_invariant; [apply reach_refl|]. intros a l b R H. eapply reach_snoc; [exact R|exact (sub _ _ _ H)]. Qed.
(** one step of a goroutine that can go on as long as [C] *)
Lemma th_leads t (p : spc) (C Q : cstate -> Prop) i : p <> SIdle -> c_th (e i) t = p -> C (e i) ->
  (forall s l s', rch s -> c_th s t = p -> C s -> step s l s' -> C s' \/ Q s') ->
  (forall s l s', rch s -> c_th s t = p -> C s -> step s l s' -> c_th s' t <> p -> Q s') ->
  (forall s, rch s -> c_th s t = p -> C s -> can_move c_go (fun s => c_th s t) s) ->
  exists j, (i <= j)%nat /\ Q (e j).
Proof using E F sub.
  intros NI H HC KC KQ CM. refine (leads_weak _ _ e ls E c_go (fun s => c_th s t) (fun s => c_th s t = p /\ C s) Q (F t) _ _ i (conj H HC)).
  - intros s l s' R [Hs Cs] HS. assert (D : c_th s' t = p \/ c_th s' t <> p).
    { destruct (th_step s l s' t (sub _ _ _ HS)) as [K|K]; [left; congruence|]. rewrite Hs in K. destruct p; try congruence; right; intuition congruence. }
    destruct D as [D|D]; [|right; eapply KQ; eassumption]. destruct (KC s l s' R Hs Cs HS); [left|right; assumption]. split; [split; assumption|congruence].
  - intros s R [Hs Cs]. exact (CM s R Hs Cs).
Qed.
Lemma th_leads1 t (p : spc) (Q : spc -> Prop) i : p <> SIdle -> (forall k x t0, p <> SWait k x t0) -> c_th (e i) t = p ->
  (forall s l s', rch s -> c_th s t = p -> step s l s' -> c_th s' t <> p -> Q (c_th s' t)) -> exists j, (i <= j)%nat /\ Q (c_th (e j) t).
Proof using E F sub.
  intros NI NW H K. apply (th_leads t p (fun _ => True) (fun s => Q (c_th s t)) i NI H I).
  - auto.
  - intros s l s' R Hs _. apply K; assumption.
  - intros s R Hs _. apply th_can. rewrite Hs. destruct p; auto. exfalso. exact (NW _ _ _ eq_refl).
Qed.
Ltac ts1 := intros s l s' R Hs HS N; match type of Hs with c_th _ ?t = _ => destruct (th_step s l s' t (sub _ _ _ HS)) as [K|K]; [congruence|]; rewrite Hs in K end.
Lemma store_leads t k x t0 i : c_th (e i) t = SStore k x t0 -> exists j, (i <= j)%nat /\ c_th (e j) t = SIdle.
Proof using E F sub. intros H. refine (th_leads1 t _ (fun p => p = SIdle) i _ _ H _); try discriminate. ts1. exact K. Qed.
(** a sleeper whose timer has fired, or whose context is cancelled, returns *)
Lemma wait_leads t k x t0 i : c_th (e i) t = SWait k x t0 -> timer_fired k t0 (c_now (e i)) \/ c_cancelled (e i) x = true -> exists j, (i <= j)%nat /\ c_th (e j) t = SIdle.
Proof using E F sub.
  intros H C. destruct (th_leads t (SWait k x t0) (fun s => timer_fired k t0 (c_now s) \/ c_cancelled s x = true) (fun s => c_th s t = SStore k x t0) i ltac:(discriminate) H C) as (j & Hj & J).
  - intros s l s' R Hs Cs HS. left. destruct Cs as [Cs|Cs]; [left; eapply fired_later; [exact Cs|exact (now_step _ _ _ (sub _ _ _ HS))]|right; exact (cancelled_stays _ _ _ _ (sub _ _ _ HS) Cs)].
  - intros s l s' R Hs _ HS N. destruct (th_step s l s' t (sub _ _ _ HS)) as [K|K]; [congruence|]. rewrite Hs in K. exact K.
  - intros s R Hs Cs. apply th_can. rewrite Hs. exact Cs.
  - destruct (store_leads t k x t0 j J) as (m & Hm & M). exists m. split; [lia|exact M].
Qed.
Lemma done_leads t k i : c_th (e i) t = SDone k -> exists j x t0, (i <= j)%nat /\ c_th (e j) t = SWait k x t0.
Proof using E F sub.
  intros H. destruct (th_leads1 t (SDone k) (fun p => exists x t0, p = SWait k x t0) i) as (j & Hj & x & t0 & J); try discriminate; [exact H| |eauto 6].
  ts1. eauto.
Qed.
Lemma cas_leads t k i : c_th (e i) t = SCas k -> exists j, (i <= j)%nat /\ (c_th (e j) t = SIdle \/ exists x t0, c_th (e j) t = SWait k x t0).
Proof using E F sub.
  intros H. destruct (th_leads1 t (SCas k) (fun p => p = SIdle \/ p = SDone k) i) as (j & Hj & [J|J]); try discriminate; [exact H| |eauto| ].
  - ts1. tauto.
  - destruct (done_leads t k j J) as (m & x & t0 & Hm & M). exists m. split; [lia|eauto].
Qed.
(** every Wakeup returns *)
Lemma wake_leads t i : in_wake (c_th (e i) t) -> exists j, (i <= j)%nat /\ c_th (e j) t = SIdle.
Proof using E F sub.
  assert (L1 : forall i x, c_th (e i) t = WCan x -> exists j, (i <= j)%nat /\ c_th (e j) t = SIdle).
  { intros i0 x H. refine (th_leads1 t _ (fun p => p = SIdle) i0 _ _ H _); try discriminate. ts1. exact K. }
  assert (L2 : forall i, c_th (e i) t = WCtx -> exists j, (i <= j)%nat /\ c_th (e j) t = SIdle).
  { intros i0 H. destruct (th_leads1 t WCtx (fun p => exists x, p = WCan x) i0) as (j & Hj & x & J); try discriminate; [exact H|ts1; eauto|].
    destruct (L1 j x J) as (m & Hm & M). exists m. split; [lia|exact M]. }
  assert (L3 : forall i x, c_th (e i) t = WCancel x -> exists j, (i <= j)%nat /\ c_th (e j) t = SIdle).
  { intros i0 x H. destruct (th_leads1 t (WCancel x) (fun p => p = WCtx) i0) as (j & Hj & J); try discriminate; [exact H|ts1; tauto|].
    destruct (L2 j J) as (m & Hm & M). exists m. split; [lia|exact M]. }
  assert (L4 : forall i, c_th (e i) t = WRead -> exists j, (i <= j)%nat /\ c_th (e j) t = SIdle).
  { intros i0 H. destruct (th_leads1 t WRead (fun p => exists x, p = WCancel x) i0) as (j & Hj & x & J); try discriminate; [exact H|ts1; eauto|].
    destruct (L3 j x J) as (m & Hm & M). exists m. split; [lia|exact M]. }
  intros H. destruct (c_th (e i) t) eqn:T; try destruct H; eauto.
  destruct (th_leads1 t WLoad (fun p => p = SIdle \/ p = WRead) i) as (j & Hj & [J|J]); try discriminate; [exact T|ts1; tauto|eauto|].
  destruct (L4 j J) as (m & Hm & M). exists m. split; [lia|exact M].
Qed.
Lemma wait_keeps t k x t0 i j : (i <= j)%nat -> c_th (e i) t = SWait k x t0 -> c_th (e j) t = SWait k x t0 \/ exists m, (i <= m)%nat /\ c_th (e m) t = SStore k x t0.
Proof using E sub.
  intros Hij H. destruct (until _ _ e ls E (fun s => c_th s t) (fun s => c_th s t = SWait k x t0) (fun s => c_th s t = SStore k x t0)) with (i := i) (j := j) as [[J _]|(m & Hm & M)]; auto.
  - intros s l s' R Hs HS. destruct (th_step s l s' t (sub _ _ _ HS)) as [K|K]; [left; split; congruence|]. rewrite Hs in K. auto.
  - right. exists m. split; [lia|exact M].
Qed.
(** a sleep with a timer returns *)
Lemma timed_leads t k x t0 i : c_th (e i) t = SWait k x t0 -> k <> KForever -> (forall n, exists j, n <= c_now (e j)) -> exists j, (i <= j)%nat /\ c_th (e j) t = SIdle.
Proof using E F sub.
  intros H K C. assert (D : exists d, delay k t0 = Some d) by (destruct k; cbn; eauto; congruence). destruct D as [d D].
  destruct (C (t0 + d)) as [j Hj].
  assert (MO : forall a b, (a <= b)%nat -> c_now (e a) <= c_now (e b)).
  { intros a b Hab. refine (always _ _ e ls E (fun s => c_now (e a) <= c_now s) _ a (Z.le_refl _) b Hab). intros s l s' _ Q HS. pose proof (now_step _ _ _ (sub _ _ _ HS)). lia. }
  destruct (wait_keeps t k x t0 i (i `max` j) ltac:(lia) H) as [W|(m & Hm & M)].
  - destruct (wait_leads t k x t0 _ W) as (q & Hq & Q); [left|exists q; split; [lia|exact Q]]. unfold timer_fired. rewrite D. pose proof (MO j (i `max` j)%nat ltac:(lia)). lia.
  - destruct (store_leads t k x t0 m M) as (q & Hq & Q). exists q. split; [lia|exact Q].
Qed.
End live.

Lemma all_steps s l s' : c_step s l s' -> c_step s l s'. Proof. auto. Qed.
(** Every Wakeup returns. *)
Theorem sleeper_wakeup_returns now0 e ls : execution c_step (c_init now0) e ls -> sleep_fair e ->
  forall i t, in_wake (c_th (e i) t) -> exists j, (i <= j)%nat /\ c_th (e j) t = SIdle.
Proof. intros E F i t. exact (wake_leads c_step all_steps now0 e ls E F t i). Qed.
Print Assumptions sleeper_wakeup_returns.
(** If time goes on, every SleepFor and SleepUntil returns. *)
Theorem sleeper_timed_returns now0 e ls : execution c_step (c_init now0) e ls -> sleep_fair e -> (forall n, exists j, n <= c_now (e j)) ->
  forall i t k, k <> KForever -> c_th (e i) t = SCas k \/ c_th (e i) t = SDone k \/ (exists x t0, c_th (e i) t = SWait k x t0 \/ c_th (e i) t = SStore k x t0) ->
  exists j, (i <= j)%nat /\ c_th (e j) t = SIdle.
Proof.
  intros E F C i t k K H. pose proof (fun i x t0 => timed_leads c_step all_steps now0 e ls E F t k x t0 i) as TL.
  destruct H as [H|[H|(x & t0 & [H|H])]].
  - destruct (cas_leads c_step all_steps now0 e ls E F t k i H) as (j & Hj & [J|(x & t0 & J)]); [eauto|]. destruct (TL j x t0 J K C) as (m & Hm & M). exists m. split; [lia|exact M].
  - destruct (done_leads c_step all_steps now0 e ls E F t k i H) as (j & x & t0 & Hj & J). destruct (TL j x t0 J K C) as (m & Hm & M). exists m. split; [lia|exact M].
  - exact (TL i x t0 H K C).
  - exact (store_leads c_step all_steps now0 e ls E F t k x t0 i H).
Qed.
Print Assumptions sleeper_timed_returns.

(** *** Wakeups one after the other *)
Lemma serial_steps s l s' : c_step_serial s l s' -> c_step s l s'. Proof. intros [H _]. exact H. Qed.
(** A Wakeup that is called, and has not yet cancelled, while a sleeper waits, wakes
    it: the sleeper returns. *)
Theorem sleeper_wakes_partial now0 e ls : execution c_step_serial (c_init now0) e ls -> sleep_fair e ->
  forall i u k x t0 t, c_th (e i) u = SWait k x t0 -> c_th (e i) t = WLoad \/ c_th (e i) t = WRead \/ (exists y, c_th (e i) t = WCancel y) ->
  exists j, (i <= j)%nat /\ c_th (e j) u = SIdle.
Proof.
  intros E F i u k x t0 t Hu Ht.
  pose proof (th_leads c_step_serial serial_steps now0 e ls E F t) as TL.
  pose proof (fun i => store_leads c_step_serial serial_steps now0 e ls E F u k x t0 i) as ST.
  assert (KU : forall s l s', c_th s u = SWait k x t0 -> c_step_serial s l s' -> c_th s' u = SWait k x t0 \/ c_th s' u = SStore k x t0).
  { intros s l s' H HS. destruct (th_step s l s' u (serial_steps _ _ _ HS)) as [K|K]; [left; congruence|]. rewrite H in K. auto. }
  assert (MV : forall s l s', c_th s u = SWait k x t0 -> in_wake (c_th s t) -> c_step_serial s l s' -> c_th s' t <> c_th s t -> c_th s' u = SWait k x t0).
  { intros s l s' H W HS N. destruct (decide (u = t)) as [->|NE]; [rewrite H in W; destruct W|].
    destruct HS as [HS _]. destruct HS; cbn in *; try congruence;
      match goal with |- tset ?th ?a ?p ?b = _ => destruct (tset_cases th a p b) as [[-> _]|[_ ->]]; [|exact H] end;
      match goal with N : tset ?th ?a ?p ?b <> _ |- _ => rewrite tset_ne in N by congruence end; congruence. }
  (* the three stages; the sleeper may return earlier *)
  assert (L3 : forall i y, c_th (e i) u = SWait k x t0 -> c_th (e i) t = WCancel y -> exists j, (i <= j)%nat /\ c_th (e j) u = SIdle).
  { intros i0 y Hu0 Ht0. destruct (TL (WCancel y) (fun s => c_th s u = SWait k x t0) (fun s => c_th s u = SStore k x t0 \/ c_th s u = SWait k x t0 /\ c_cancelled s x = true) i0) as (j & Hj & [J|[J1 J2]]); try discriminate; auto.
    - intros s l s' R Hs Cs HS. destruct (KU s l s' Cs HS); auto.
    - intros s l s' R Hs Cs HS N. right. assert (W : c_th s' u = SWait k x t0) by (apply (MV s l s' Cs); [rewrite Hs; exact I|exact HS|congruence]). split; [exact W|].
      destruct (th_step s l s' t (serial_steps _ _ _ HS)) as [K|K]; [congruence|]. rewrite Hs in K. destruct K as (_ & -> & _).
      exact (cancel_hits s t y s' (winv_reach now0 s R) Hs HS u k x t0 W).
    - intros s R Hs _. apply th_can. rewrite Hs. exact I.
    - destruct (ST j J) as (m & Hm & M). exists m. split; [lia|exact M].
    - destruct (wait_leads c_step_serial serial_steps now0 e ls E F u k x t0 j J1) as (m & Hm & M); [auto|]. exists m. split; [lia|exact M]. }
  assert (L2 : forall i, c_th (e i) u = SWait k x t0 -> c_th (e i) t = WRead -> exists j, (i <= j)%nat /\ c_th (e j) u = SIdle).
  { intros i0 Hu0 Ht0. destruct (TL WRead (fun s => c_th s u = SWait k x t0) (fun s => c_th s u = SStore k x t0 \/ c_th s u = SWait k x t0 /\ exists y, c_th s t = WCancel y) i0) as (j & Hj & [J|[J1 [y J2]]]); try discriminate; auto.
    - intros s l s' R Hs Cs HS. destruct (KU s l s' Cs HS); auto.
    - intros s l s' R Hs Cs HS N. right. split; [apply (MV s l s' Cs); [rewrite Hs; exact I|exact HS|congruence]|].
      destruct (th_step s l s' t (serial_steps _ _ _ HS)) as [K|K]; [congruence|]. rewrite Hs in K. eauto.
    - intros s R Hs _. apply th_can. rewrite Hs. exact I.
    - destruct (ST j J) as (m & Hm & M). exists m. split; [lia|exact M].
    - destruct (L3 j y J1 J2) as (m & Hm & M). exists m. split; [lia|exact M]. }
  destruct Ht as [Ht|[Ht|[y Ht]]]; [|exact (L2 i Hu Ht)|exact (L3 i y Hu Ht)].
  destruct (TL WLoad (fun s => c_th s u = SWait k x t0) (fun s => c_th s u = SStore k x t0 \/ c_th s u = SWait k x t0 /\ c_th s t = WRead) i) as (j & Hj & [J|[J1 J2]]); try discriminate; auto.
  - intros s l s' R Hs Cs HS. destruct (KU s l s' Cs HS); auto.
  - intros s l s' R Hs Cs HS N. right. split; [apply (MV s l s' Cs); [rewrite Hs; exact I|exact HS|congruence]|].
    destruct (th_step s l s' t (serial_steps _ _ _ HS)) as [K|K]; [congruence|]. rewrite Hs in K. destruct K as [[K _]|[_ K]]; [|exact K].
    pose proof (ci_on _ (cinv_reach now0 s (sub_reach c_step_serial serial_steps now0 s R)) u ltac:(rewrite Cs; exact I)). congruence.
  - intros s R Hs _. apply th_can. rewrite Hs. exact I.
  - destruct (ST j J) as (m & Hm & M). exists m. split; [lia|exact M].
  - destruct (L2 j J1 J2) as (m & Hm & M). exists m. split; [lia|exact M].
Qed.
Print Assumptions sleeper_wakes_partial.
(** So if Wakeup is called again and again, every sleep returns, whatever its timer. *)
Theorem sleeper_returns_partial now0 e ls : execution c_step_serial (c_init now0) e ls -> sleep_fair e ->
  (forall i, exists j t, (i <= j)%nat /\ c_th (e j) t = WLoad) ->
  forall i u, c_th (e i) u <> SIdle -> exists j, (i <= j)%nat /\ c_th (e j) u = SIdle.
Proof.
  intros E F W i u H.
  assert (LW : forall i k x t0, c_th (e i) u = SWait k x t0 -> exists j, (i <= j)%nat /\ c_th (e j) u = SIdle).
  { intros i0 k x t0 H0. destruct (W i0) as (j & t & Hj & Ht).
    destruct (wait_keeps c_step_serial serial_steps now0 e ls E u k x t0 i0 j Hj H0) as [J|(m & Hm & M)].
    - destruct (sleeper_wakes_partial now0 e ls E F j u k x t0 t J ltac:(auto)) as (m & Hm & M). exists m. split; [lia|exact M].
    - destruct (store_leads c_step_serial serial_steps now0 e ls E F u k x t0 m M) as (q & Hq & Q). exists q. split; [lia|exact Q]. }
  assert (WK : in_wake (c_th (e i) u) -> exists j, (i <= j)%nat /\ c_th (e j) u = SIdle) by exact (wake_leads c_step_serial serial_steps now0 e ls E F u i).
  destruct (c_th (e i) u) as [|k|k|k x t0|k x t0| | |y| |y] eqn:T; try (apply WK; exact I); try congruence.
  - destruct (cas_leads c_step_serial serial_steps now0 e ls E F u k i T) as (j & Hj & [J|(x & t0 & J)]); [eauto|]. destruct (LW j k x t0 J) as (m & Hm & M). exists m. split; [lia|exact M].
  - destruct (done_leads c_step_serial serial_steps now0 e ls E F u k i T) as (j & x & t0 & Hj & J). destruct (LW j k x t0 J) as (m & Hm & M). exists m. split; [lia|exact M].
  - exact (LW i k x t0 T).
  - exact (store_leads c_step_serial serial_steps now0 e ls E F u k x t0 i T).
Qed.
Print Assumptions sleeper_returns_partial.

(** *** executions *)
(** the steps of the first ones below, by computation *)
Lemma steps_serial s tr s' : steps c_step s tr s' -> (forall a, a ∈ tr -> match a with LWake t => t = 1%nat | _ => True end) ->
  (forall t, t <> 1%nat -> ~ in_wake (c_th s t)) -> steps c_step_serial s tr s'.
Proof.
  intros H. revert tr s' H. pose (G := fun (tr : list slab) s' => (forall a, a ∈ tr -> match a with LWake t => t = 1%nat | _ => True end) ->
    (forall t, t <> 1%nat -> ~ in_wake (c_th s t)) -> steps c_step_serial s tr s' /\ (forall t, t <> 1%nat -> ~ in_wake (c_th s' t))).
  assert (X : forall tr s', steps c_step s tr s' -> G tr s'); [|intros tr s' H A B; apply (X tr s' H A B)].
  apply steps_trace_invariant; [intros _ B; split; [constructor|exact B]|]. intros tr s1 l s2 _ IH HS A B.
  destruct IH as [IH1 IH2]; [intros a Ha; apply A, elem_of_app; auto|exact B|].
  assert (N : forall t, t <> 1%nat -> ~ in_wake (c_th s2 t)).
  { intros t Nt W. destruct (th_step s1 l s2 t HS) as [K|K]; [rewrite K in W; exact (IH2 t Nt W)|]. specialize (IH2 t Nt).
    destruct (c_th s1 t) eqn:T; cbn in IH2; try (destruct (IH2 I)); try (rewrite K in W; exact W).
    - assert (Al := A l ltac:(apply elem_of_app; right; left)). destruct HS; cbn in *; try (rewrite T in W; exact W);
        match type of W with in_wake (tset ?th ?a ?p ?b) => destruct (tset_cases th a p b) as [[-> Y]|[_ Y]]; rewrite Y in W; cbn in W end; try (rewrite T in W; exact W); try exact W; congruence.
    - destruct K as [[K _]|K]; rewrite K in W; exact W. }
  split; [|exact N]. econstructor; [exact IH1|]. split; [exact HS|]. intros t u Ht Hu.
  destruct (decide (t = 1%nat)) as [->|Nt]; [|destruct (N t Nt Ht)]. destruct (decide (u = 1%nat)) as [->|Nu]; [reflexivity|destruct (N u Nu Hu)].
Qed.
Lemma idle_fair s t : c_th s t = SIdle -> ~ can_move c_go (fun s => c_th s t) s.
Proof.
  intros T (l & s' & [H N] & M). destruct H; cbn in *; try destruct N; try congruence.
  all: match type of M with tset ?th ?a ?p ?b <> _ => destruct (tset_cases th a p b) as [[-> Y]|[_ Y]]; congruence end.
Qed.
Lemma wait_stuck s t x t0 : c_th s t = SWait KForever x t0 -> c_cancelled s x = false -> ~ can_move c_go (fun s => c_th s t) s.
Proof.
  intros T C (l & s' & [H N] & M). destruct H; cbn in *; try destruct N; try congruence.
  all: match type of M with tset ?th ?a ?p ?b <> _ => destruct (tset_cases th a p b) as [[<- Y]|[_ Y]]; try congruence end.
  match goal with A : th t = _, B : timer_fired _ _ _ |- _ => rewrite T in A; injection A as <- <- <-; exact B end.
Qed.
(** A Wakeup that came too early, when the sleeper had set the flag but not yet read the
    context, returned true; SleepForever never returns, though nobody is forgotten. *)
Theorem sleeper_wakes_refuted : exists e ls, execution c_step_serial (c_init 0) e ls /\ sleep_fair e /\
  ls 0%nat = Some (LSleep 0 KForever) /\ ls 2%nat = Some (LWake 1) /\ ls 7%nat = Some (LWoke 1 true) /\ (forall i b, ls i <> Some (LSlept 0 b)).
Proof.
  destruct wakeup_lost_refuted as (s & t0 & H & T & C & I0 & _).
  apply steps_serial in H; [|intros a Ha; set_unfold in Ha; destruct_or?; subst; auto|cbn; auto].
  destruct (settled_execution _ _ _ _ H) as (e & ls & E & D & LS). exists e, ls. split; [exact E|]. split.
  { intros t. apply strong_weak. refine (settled_fair _ _ e _ s D _). destruct (decide (t = 0%nat)) as [->|N]; [exact (wait_stuck s _ _ _ T C)|exact (idle_fair s t (I0 t N))]. }
  rewrite !LS. repeat split. intros i b. rewrite LS. intros Hi. apply elem_of_list_lookup_2 in Hi. set_unfold in Hi. destruct_or?; congruence.
Qed.
Print Assumptions sleeper_wakes_refuted.

(** goroutine 1 takes its next step, calling Wakeup when it is not in a call *)
Definition nag (s : cstate) : cstate :=
  let '(CS sl x c n f now th) := s in
  match th 1%nat with
  | SIdle => CS sl x c n f now (tset th 1%nat WLoad)
  | WLoad => if sl then CS sl x c n f now (tset th 1%nat WRead) else CS sl x c n f now (tset th 1%nat SIdle)
  | WRead => CS sl x c n f now (tset th 1%nat (WCancel c))
  | WCancel y => CS sl x c n (tset f y true) now (tset th 1%nat WCtx)
  | WCtx => CS sl n c (S n) f now (tset th 1%nat (WCan n))
  | WCan y => CS sl x y n f now (tset th 1%nat SIdle)
  | _ => s
  end.
Definition nag_lab (s : cstate) : slab :=
  match c_th s 1%nat with SIdle => LWake 1 | WLoad => if c_slept s then LTau 1 else LWoke 1 false | WCan _ => LWoke 1 true | _ => LTau 1 end.
Definition nagging (p : spc) : Prop := match p with SIdle => True | _ => in_wake p end.
Lemma nag_step s : nagging (c_th s 1%nat) -> c_step s (nag_lab s) (nag s) /\ nagging (c_th (nag s) 1%nat) /\ c_th (nag s) 1%nat <> c_th s 1%nat /\ (forall t, t <> 1%nat -> c_th (nag s) t = c_th s t).
Proof.
  destruct s as [sl x c n f now th]. unfold nag, nag_lab. cbn [c_th c_slept]. intros H.
  destruct (th 1%nat) eqn:T; try destruct H; [|destruct sl| | | |]; (split; [constructor; exact T|]); cbn [c_th]; rewrite tset_eq; (split; [exact I|]); (split; [discriminate|]); intros t N; apply tset_ne; exact N.
Qed.
Fixpoint nags (s : cstate) (i : nat) : cstate := match i with O => s | S i => nag (nags s i) end.
Lemma nags_ok s i : nagging (c_th s 1%nat) -> nagging (c_th (nags s i) 1%nat) /\ (forall t, t <> 1%nat -> c_th (nags s i) t = c_th s t).
Proof.
  intros H. induction i as [|i [IH1 IH2]]; [auto|]. cbn [nags]. destruct (nag_step _ IH1) as (_ & N1 & _ & N2). split; [exact N1|]. intros t Nt. rewrite N2 by exact Nt. apply IH2. exact Nt.
Qed.
Lemma nags_load s i : nagging (c_th s 1%nat) -> exists j, (i <= j)%nat /\ c_th (nags s j) 1%nat = WLoad.
Proof.
  intros H. pose proof (proj1 (nags_ok s i H)) as N.
  assert (X : forall k j, (i <= j)%nat -> nagging (c_th (nags s j) 1%nat) ->
    match c_th (nags s j) 1%nat with WLoad => True | SIdle => (1 <= k)%nat | WCan _ => (2 <= k)%nat | WCtx => (3 <= k)%nat | WCancel _ => (4 <= k)%nat | _ => (5 <= k)%nat end -> exists j', (i <= j')%nat /\ c_th (nags s j') 1%nat = WLoad).
  { induction k as [|k IH]; intros j Hj Nj.
    - destruct (c_th (nags s j) 1%nat) eqn:T; try lia. eauto.
    - pose proof (IH (S j) ltac:(lia)) as IH'. cbn [nags] in IH'. destruct (nag_step _ Nj) as (_ & N1 & _ & _). specialize (IH' N1). revert IH'. clear IH.
      destruct (nags s j) as [sl x c n f now th] eqn:Q. unfold nag. cbn [c_th] in *. destruct (th 1%nat) eqn:T; cbn [c_th]; try destruct Nj; try (rewrite tset_eq); intros IH' HK; try (apply IH'; lia).
      exists j. rewrite Q. cbn. auto. }
  apply (X 5%nat i); [lia|exact N|]. destruct (c_th (nags s i) 1%nat); lia || exact I.
Qed.
(** an execution that ends with goroutine 1 calling Wakeup for ever *)
Lemma nag_execution (step : cstate -> slab -> cstate -> Prop) now0 tr s : steps step (c_init now0) tr s -> nagging (c_th s 1%nat) ->
  (forall a, nagging (c_th a 1%nat) -> (forall t, t <> 1%nat -> c_th a t = c_th s t) -> c_step a (nag_lab a) (nag a) -> step a (nag_lab a) (nag a)) ->
  (forall t i, t <> 1%nat -> ~ can_move c_go (fun s => c_th s t) (nags s i)) ->
  exists e ls, execution step (c_init now0) e ls /\ sleep_fair e /\ (forall i, exists j t, (i <= j)%nat /\ c_th (e j) t = WLoad) /\
    (forall j, e (length tr + j)%nat = nags s j) /\ (forall j, (j < length tr)%nat -> ls j = tr !! j) /\ forall j, ls (length tr + j)%nat = Some (nag_lab (nags s j)).
Proof.
  intros H N ST CM.
  destruct (then_execution step (c_init now0) tr s (nags s) (fun i => nag_lab (nags s i)) H eq_refl) as (e & ls & E & D & L & L').
  { intros i. destruct (nags_ok s i N) as [N1 N2]. apply ST; [exact N1|exact N2|]. apply nag_step. exact N1. }
  exists e, ls. split; [exact E|]. split; [|split; [|auto]].
  - intros t i. exists (length tr + i)%nat. split; [lia|]. replace (1 + (length tr + i))%nat with (length tr + S i)%nat by lia. rewrite !D. cbn [nags].
    destruct (decide (t = 1%nat)) as [->|Nt]; [right|left; apply CM; exact Nt]. apply nag_step. apply nags_ok. exact N.
  - intros i. destruct (nags_load s i N) as (j & Hj & J). exists (length tr + j)%nat, 1%nat. split; [lia|]. rewrite D. exact J.
Qed.
(** After two overlapping Wakeups a SleepForever never returns, although Wakeup is called
    again and again, and always returns. *)
Theorem sleeper_returns_refuted : exists e ls i, execution c_step (c_init 0) e ls /\ sleep_fair e /\ (forall i, exists j t, (i <= j)%nat /\ c_th (e j) t = WLoad) /\
  forall j, (i <= j)%nat -> exists t0, c_th (e j) 0%nat = SWait KForever 2%nat t0.
Proof.
  destruct wakeup_overlap_refuted as (s & t0 & [tr H] & T & I0 & Deaf).
  assert (N1 : nagging (c_th s 1%nat)) by (rewrite I0 by lia; exact I).
  assert (RS : forall i, exists l, steps c_step s l (nags s i)).
  { induction i as [|i [l IH]]; [exists []; constructor|]. exists (l ++ [nag_lab (nags s i)]). econstructor; [exact IH|]. apply nag_step. apply nags_ok. exact N1. }
  destruct (nag_execution c_step 0 tr s H N1) as (e & ls & E & F & W & D & _).
  - auto.
  - intros t i Nt. destruct (decide (t = 0%nat)) as [->|N0].
    + intros (l & s' & [HS _] & M). destruct (RS i) as [l0 R]. apply M. rewrite (Deaf _ _ R). apply (Deaf (l0 ++ [l]) s'). econstructor; eassumption.
    + apply idle_fair. rewrite (proj2 (nags_ok s i N1) t Nt). apply I0. exact N0.
  - exists e, ls, (length tr). split; [exact E|]. split; [exact F|]. split; [exact W|]. intros j Hj. exists t0.
    replace j with (length tr + (j - length tr))%nat by lia. rewrite D. destruct (RS (j - length tr)%nat) as [l R]. exact (Deaf _ _ R).
Qed.
Print Assumptions sleeper_returns_refuted.
(** the hypotheses of the positive ones are met: a sleeper waits, goroutine 1 wakes it
    and goes on calling Wakeup *)
Example sleeper_returns_case : exists e ls, execution c_step_serial (c_init 0) e ls /\ sleep_fair e /\ (forall i, exists j t, (i <= j)%nat /\ c_th (e j) t = WLoad) /\
  c_th (e 4%nat) 0%nat = SWait KForever 0%nat 0 /\ c_th (e 4%nat) 1%nat = WLoad.
Proof.
  assert (H : exists s, steps c_step (c_init 0) [LSleep 0 KForever; LTau 0; LTau 0; LWake 1; LTau 1; LTau 1; LTau 1; LTau 0; LSlept 0 true] s /\ nagging (c_th s 1%nat) /\ forall t, t <> 1%nat -> c_th s t = SIdle).
  { eexists. split; [|split].
    - eapply steps_cons; [apply (cs_sleep _ _ _ _ _ _ _ 0%nat KForever); reflexivity|].
      eapply steps_cons; [apply (cs_cas_ok _ _ _ _ _ _ 0%nat KForever); reflexivity|].
      eapply steps_cons; [apply (cs_done _ _ _ _ _ _ _ 0%nat KForever); reflexivity|].
      eapply steps_cons; [apply (cs_wake _ _ _ _ _ _ _ 1%nat); reflexivity|].
      eapply steps_cons; [apply (cs_load_true _ _ _ _ _ _ 1%nat); reflexivity|].
      eapply steps_cons; [apply (cs_read _ _ _ _ _ _ _ 1%nat); reflexivity|].
      eapply steps_cons; [apply (cs_cancel _ _ _ _ _ _ _ 1%nat 0%nat); reflexivity|].
      eapply steps_cons; [apply (cs_woken _ _ _ _ _ _ _ 0%nat KForever 0%nat 0); reflexivity|].
      eapply steps_cons; [apply (cs_store _ _ _ _ _ _ _ 0%nat KForever 0%nat 0); reflexivity|]. apply steps_nil.
    - exact I.
    - intros [|[|t]] Ht; [reflexivity|congruence|reflexivity]. }
  destruct H as (s & H & N1 & I0). apply steps_serial in H; [|intros a Ha; set_unfold in Ha; destruct_or?; subst; auto|cbn; auto].
  destruct (nag_execution c_step_serial 0 _ s H N1) as (e & ls & E & F & W & D & LS & _).
  - intros a Na Ia HS. split; [exact HS|]. destruct (nag_step a Na) as (_ & _ & _ & K). intros t u Ht Hu.
    assert (X : forall t, in_wake (c_th (nag a) t) -> t = 1%nat). { intros v Hv. destruct (decide (v = 1%nat)) as [|Nv]; [assumption|]. rewrite K, Ia, I0 in Hv by exact Nv. destruct Hv. }
    rewrite (X t Ht), (X u Hu). reflexivity.
  - intros t i Nt. apply idle_fair. rewrite (proj2 (nags_ok s i N1) t Nt). apply I0. exact Nt.
  - exists e, ls. split; [exact E|]. split; [exact F|]. split; [exact W|]. destruct E as [E0 ES].
    assert (A : forall i, (i < 4)%nat -> exists l, ls i = Some l /\ [LSleep 0 KForever; LTau 0; LTau 0; LWake 1] !! i = Some l).
    { intros i Hi. rewrite LS by (cbn; lia). do 4 (destruct i as [|i]; [eexists; split; reflexivity|]). lia. }
    pose proof (ES 0%nat) as S0. pose proof (ES 1%nat) as S1. pose proof (ES 2%nat) as S2. pose proof (ES 3%nat) as S3. rewrite !LS in * by (cbn; lia). cbn in S0, S1, S2, S3.
    rewrite E0 in S0. destruct S0 as [S0 _]. inversion S0; subst; clear S0. match goal with H : _ = e 1%nat |- _ => rewrite <- H in S1; clear H end.
    destruct S1 as [S1 _]. inversion S1; subst; cbn in *; try discriminate. match goal with H : _ = e 2%nat |- _ => rewrite <- H in S2; clear H end.
    destruct S2 as [S2 _]. inversion S2; subst; cbn in *; try discriminate. match goal with H : _ = e 3%nat |- _ => rewrite <- H in S3; clear H end.
    destruct S3 as [S3 _]. inversion S3; subst; cbn in *; try discriminate. split; [|reflexivity].
    change (SWait k0 0%nat 0 = SWait KForever 0%nat 0). repeat match goal with H : tset _ 0%nat _ 0%nat = _ |- _ => rewrite tset_eq in H end. congruence.
Qed.
(** and a SleepFor whose timer fires, with the clock going on *)
Example sleeper_timed_case : exists e ls, execution c_step (c_init 0) e ls /\ sleep_fair e /\ (forall n, exists j, n <= c_now (e j)) /\ c_th (e 1%nat) 0%nat = SCas (KFor 1).
Proof.
  set (f := fun i : nat => CS false 0 0 1 (fun _ => false) (10^9 + Z.of_nat i) (tset (tset (tset (tset (tset (fun _ => SIdle) 0%nat (SCas (KFor 1))) 0%nat (SDone (KFor 1))) 0%nat (SWait (KFor 1) 0%nat 0)) 0%nat (SStore (KFor 1) 0%nat 0)) 0%nat SIdle)).
  assert (H : steps c_step (c_init 0) [LSleep 0 (KFor 1); LTau 0; LTau 0; LTick; LTau 0; LSlept 0 true] (f 0%nat)).
  { eapply steps_cons; [apply (cs_sleep _ _ _ _ _ _ _ 0%nat (KFor 1)); reflexivity|].
    eapply steps_cons; [apply (cs_cas_ok _ _ _ _ _ _ 0%nat (KFor 1)); reflexivity|].
    eapply steps_cons; [apply (cs_done _ _ _ _ _ _ _ 0%nat (KFor 1)); reflexivity|].
    eapply steps_cons; [apply (cs_tick _ _ _ _ _ _ (10^9)); lia|].
    eapply steps_cons; [apply (cs_timer _ _ _ _ _ _ _ 0%nat (KFor 1) 0%nat 0); [reflexivity|intros X; vm_compute in X; discriminate X]|].
    eapply steps_cons; [apply (cs_store _ _ _ _ _ _ _ 0%nat (KFor 1) 0%nat 0); reflexivity|]. apply steps_nil. }
  destruct (then_execution c_step _ _ _ f (fun _ => LTick) H eq_refl) as (e & ls & E & D & L & LS).
  { intros i. apply cs_tick. lia. }
  exists e, ls. split; [exact E|]. split; [|split].
  - intros t i. eexists (6 + i)%nat. split; [lia|left]. pose proof (D i) as Di. cbn [length] in Di. rewrite Di. apply idle_fair. cbn [f c_th].
    destruct (decide (t = 0%nat)) as [->|N]; [apply tset_eq|rewrite !tset_ne by exact N; reflexivity].
  - intros n. exists (6 + Z.to_nat n)%nat. pose proof (D (Z.to_nat n)) as Di. cbn [length] in Di. rewrite Di. cbn [f c_now]. lia.
  - destruct E as [E0 ES]. pose proof (ES 0%nat) as S0. rewrite LS in S0 by (cbn; lia). cbn in S0. rewrite E0 in S0. inversion S0; subst. cbn. apply tset_eq.
Qed.
