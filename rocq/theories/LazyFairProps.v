(** Liveness of functionalx/lazyx/lazy.go: every Get returns, in every infinite
    execution in which no goroutine is forgotten. *)
From Verif Require Import Base Conc Fair LazyModel LazyProofs LazyProps.

(** nobody has to call Get *)
Definition l_go {A} (ctor : nat -> res A) (s : lstate A) (t : nat) (s' : lstate A) : Prop := l_step ctor s t s' /\ in_call (l_th s t).
Definition lazy_fair {A} (ctor : nat -> res A) (e : nat -> lstate A) : Prop := forall t, weakly_fair (l_go ctor) (fun s => l_th s t) e.

(** how far a call is from its end *)
Definition l_rank {A} (p : lpc A) : nat :=
  match p with LLoad => 8 | LWait => 7 | LCheck => 6 | LRun _ => 5 | LAssign _ => 4 | LSetDone _ => 3 | LUnlock _ => 2 | LRead => 1 | _ => 0 end.

Section live.
Context {A : Type} (zero : A) (ctor : nat -> res A).
Implicit Types s : lstate A.
Local Notation rch s := (reach (l_new zero) (l_step ctor) s).

Lemma other_step s u s' t : l_step ctor s u s' -> t <> u -> l_th s' t = l_th s t.
Proof. intros H N. destruct H; cbn; apply tset_ne; auto. Qed.
Lemma self_step s t s' : l_step ctor s t s' -> in_call (l_th s t) ->
  l_rank (l_th s' t) < l_rank (l_th s t) /\ l_th s' t <> LIdle /\ (holds (l_th s t) -> holds (l_th s' t) \/ (l_mutex s' = None /\ exists ok, l_th s t = LUnlock ok)) /\
  (l_th s t = LLoad -> l_done s = true -> l_th s' t = LRead) /\ (l_mutex s = None -> l_th s t <> LWait -> l_mutex s' = None).
Proof.
  intros H I. destruct H; cbn in *; rewrite ?tset_eq in *; match goal with E : _ t = _ |- _ => rewrite E in * | E : _ t = _ \/ _ |- _ => destruct E as [E|[[? E]|E]]; rewrite E in I; destruct I end; cbn;
    repeat split; intros; subst; cbn; try congruence; try tauto; try (destruct d; cbn; (lia || congruence)); try (destruct ok; cbn; (lia || congruence)); try lia; eauto.
Qed.
Lemma done_stays s u s' : l_step ctor s u s' -> l_done s = true -> l_done s' = true.
Proof. intros H D. destruct H; cbn in *; auto. Qed.
Lemma self_can s t : ctor 0 <> Spin -> rch s -> in_call (l_th s t) -> (l_th s t = LWait -> l_mutex s = None) -> can_move (l_go ctor) (fun s => l_th s t) s.
Proof.
  intros Hc R I W. pose proof (li_pc _ _ _ (linv_reach zero ctor s R) t) as P.
  assert (M : forall s', l_step ctor s t s' -> can_move (l_go ctor) (fun s => l_th s t) s).
  { intros s' H. exists t, s'. split; [split; assumption|]. destruct (self_step s t s' H I) as [L _]. intros X. rewrite X in L. lia. }
  destruct s as [d m v c th]. cbn in *. destruct (th t) as [| | | |n|x|ok|ok| |x|] eqn:T; try (destruct I; fail).
  - eapply M, ls_load, T.
  - rewrite (W eq_refl) in M. rewrite (W eq_refl). eapply M, ls_lock, T.
  - destruct d; [eapply M, ls_check_done, T|eapply M, ls_check_run, T].
  - destruct P as [-> _]. destruct (ctor 0) as [x| |] eqn:C; [eapply M, ls_ctor_ret; eassumption|eapply M, ls_ctor_panic; eassumption|congruence].
  - eapply M, ls_assign, T.
  - eapply M, ls_set_done, T.
  - eapply M, ls_unlock, T.
  - eapply M, ls_read, T.
Qed.
(** only finitely many goroutines have called Get *)
Lemma finitely_many s : rch s -> exists N, forall u, N <= u -> l_th s u = LIdle.
Proof.
  apply (reach_invariant (l_new zero) (l_step ctor) (fun s => exists N, forall u, N <= u -> l_th s u = LIdle)); [exists 0; reflexivity|].
  intros a t b [N H] HS. exists (N `max` S t). intros u Hu. rewrite (other_step a t b u HS) by lia. apply H. lia.
Qed.
Definition waits (p : lpc A) : bool := match p with LWait => true | _ => false end.
Definition waiters (N : nat) s : nat := length (filter (fun u => waits (l_th s u) = true) (seq 0 N)).
Lemma waiters_le N s s' : (forall u, u < N -> waits (l_th s' u) = true -> waits (l_th s u) = true) -> waiters N s' <= waiters N s.
Proof.
  unfold waiters. induction N as [|N IH]; intros H; [cbn; lia|]. rewrite seq_S, !filter_app, !app_length. cbn [Nat.add].
  specialize (IH (fun u Hu => H u ltac:(lia))). rewrite !filter_cons, !filter_nil. specialize (H N ltac:(lia)). repeat case_decide; cbn; try lia. tauto.
Qed.
Lemma waiters_lt N s s' u : u < N -> waits (l_th s u) = true -> waits (l_th s' u) = false ->
  (forall u, u < N -> waits (l_th s' u) = true -> waits (l_th s u) = true) -> waiters N s' < waiters N s.
Proof.
  unfold waiters. induction N as [|N IH]; intros Hu W W' H; [lia|]. rewrite seq_S, !filter_app, !app_length. cbn [Nat.add].
  destruct (decide (u = N)) as [->|Ne].
  - pose proof (waiters_le N s s' (fun u Hu => H u ltac:(lia))) as L. unfold waiters in L. rewrite !filter_cons, !filter_nil. rewrite (decide_True _ _ W). rewrite decide_False by congruence. cbn. lia.
  - specialize (IH ltac:(lia) W W' (fun u Hu => H u ltac:(lia))). rewrite !filter_cons, !filter_nil. specialize (H N ltac:(lia)). repeat case_decide; cbn; try lia. tauto.
Qed.

Context (Hc : ctor 0 <> Spin) (e : nat -> lstate A) (ls : nat -> option nat) (E : execution (l_step ctor) (l_new zero) e ls) (F : lazy_fair ctor e).

(** a goroutine that does not wait for the mutex gets further *)
Lemma further t i : in_call (l_th (e i) t) -> l_th (e i) t <> LWait -> exists j, i <= j /\ l_rank (l_th (e j) t) < l_rank (l_th (e i) t) /\ l_th (e j) t <> LIdle /\
  (holds (l_th (e i) t) -> holds (l_th (e j) t) \/ (l_mutex (e j) = None /\ l_done (e j) = true)).
Proof using Hc E F.
  intros I W. set (p := l_th (e i) t) in *.
  refine (leads_weak _ _ e ls E (l_go ctor) (fun s => l_th s t) (fun s => l_th s t = p) (fun s => l_rank (l_th s t) < l_rank p /\ l_th s t <> LIdle /\
    (holds p -> holds (l_th s t) \/ (l_mutex s = None /\ l_done s = true))) (F t) _ _ i eq_refl).
  - intros s u s' R Hs HS. destruct (decide (t = u)) as [<-|N].
    + right. rewrite <- Hs in *. destruct (self_step s t s' HS I) as (L & NI & H & _). split; [exact L|]. split; [exact NI|]. intros Hh. destruct (H Hh) as [H1|[H1 [ok Hu]]]; [left; exact H1|right].
      split; [exact H1|]. apply (done_stays s t s' HS). pose proof (li_pc _ _ _ (linv_reach zero ctor s R) t) as P. rewrite Hu in P. destruct ok; cbn in P; tauto.
    + left. rewrite (other_step _ _ _ _ HS N). auto.
  - intros s R Hs. apply self_can; [exact Hc|exact R|rewrite Hs; exact I|]. congruence.
Qed.
(** the mutex is released, after the constructor has been called *)
Lemma released t i : holds (l_th (e i) t) -> exists j, i <= j /\ l_mutex (e j) = None /\ l_done (e j) = true.
Proof using Hc E F.
  remember (l_rank (l_th (e i) t)) as n eqn:Hn. revert i Hn. induction n as [n IH] using (well_founded_induction lt_wf). intros i Hn H.
  destruct (further t i) as (j & Hj & L & NI & [H1|H1]); [destruct (l_th (e i) t); cbn in *; tauto|intros X; rewrite X in H; exact H|exact H| |eauto].
  destruct (IH _ ltac:(rewrite Hn; exact L) j eq_refl H1) as (k & Hk & K). exists k. split; [lia|exact K].
Qed.
Lemma done_always i j : i <= j -> l_done (e i) = true -> l_done (e j) = true.
Proof using E. intros Hij D. refine (always _ _ e ls E (fun s => l_done s = true) _ i D j Hij). intros s u s' _ D1 HS. exact (done_stays _ _ _ HS D1). Qed.
(** one that waits for the mutex keeps waiting or has got it *)
Lemma wait_until t i j : i <= j -> l_th (e i) t = LWait -> l_th (e j) t = LWait \/ exists k, i <= k /\ in_call (l_th (e k) t) /\ l_rank (l_th (e k) t) < 7.
Proof using E.
  intros Hij H. destruct (until _ _ e ls E (fun s => l_th s t) (fun s => l_th s t = LWait) (fun s => in_call (l_th s t) /\ l_rank (l_th s t) < 7)) with (i := i) (j := j) as [[J _]|(k & Hk & K)]; auto.
  - intros s u s' R Hs HS. destruct (decide (t = u)) as [<-|N]; [right|left; rewrite (other_step _ _ _ _ HS N); auto].
    destruct HS; cbn in *; rewrite ?tset_eq; cbn; try (split; [exact I|lia]); match goal with X : _ t = _ \/ _ |- _ => destruct X as [X|[[? X]|X]] | _ => idtac end; try congruence.
  - right. exists k. split; [lia|exact K].
Qed.
(** once the constructor has been called those that wait get the mutex one by one *)
Lemma wait_done t N c : forall i, waiters N (e i) <= c -> (forall u, waits (l_th (e i) u) = true -> u < N) -> l_done (e i) = true -> l_th (e i) t = LWait ->
  exists j, i <= j /\ in_call (l_th (e j) t) /\ l_rank (l_th (e j) t) < 7.
Proof using Hc E F.
  induction c as [c IH] using (well_founded_induction lt_wf). intros i Hw HN D T.
  assert (ST : forall s u s', l_step ctor s u s' -> l_done s = true -> (forall x, waits (l_th s' x) = true -> waits (l_th s x) = true)).
  { intros s u s' HS D1 x Hx. destruct (decide (x = u)) as [->|Ne]; [|rewrite <- (other_step _ _ _ _ HS Ne); exact Hx].
    destruct HS; cbn in *; rewrite ?tset_eq in *; subst; try discriminate. destruct ok; discriminate. }
  assert (KEEP : forall j, i <= j -> waiters N (e j) <= waiters N (e i) /\ (forall u, waits (l_th (e j) u) = true -> u < N)).
  { intros j Hj. assert (G : forall x, waits (l_th (e j) x) = true -> waits (l_th (e i) x) = true).
    { refine (proj2 (always _ _ e ls E (fun s => l_done s = true /\ forall x, waits (l_th s x) = true -> waits (l_th (e i) x) = true) _ i (conj D (fun x H => H)) j Hj)).
      intros s u s' _ [D1 G1] HS. split; [exact (done_stays _ _ _ HS D1)|]. intros x Hx. apply G1, (ST s u s' HS D1 x Hx). }
    split; [apply waiters_le; auto|auto]. }
  assert (FREE : exists j, i <= j /\ l_mutex (e j) = None).
  { destruct (l_mutex (e i)) as [u|] eqn:M; [|eauto]. apply (li_mutex _ _ _ (linv_reach zero ctor _ (exec_reach _ _ e ls E i))) in M. destruct (released u i M) as (j & Hj & J & _). eauto. }
  destruct FREE as (j & Hj & M). destruct (wait_until t i j Hj T) as [T'|(k & Hk & K)]; [|eauto]. destruct (KEEP j Hj) as [Wj Nj].
  destruct (leads_weak _ _ e ls E (l_go ctor) (fun s => l_th s t) (fun s => l_th s t = LWait /\ l_mutex s = None /\ l_done s = true /\ waiters N s <= c /\ forall u, waits (l_th s u) = true -> u < N)
    (fun s => (in_call (l_th s t) /\ l_rank (l_th s t) < 7) \/ waiters N s < c) (F t)) with (i := j) as (k & Hk & [K|K]).
  - intros s u s' R (Hs & Ms & Ds & Ws & Ns) HS. pose proof (ST s u s' HS Ds) as Sx.
    destruct (decide (t = u)) as [<-|Ne].
    + right. left. destruct (self_step s t s' HS) as (L & _); [rewrite Hs; exact I|]. rewrite Hs in L. cbn in L. split; [|exact L].
      destruct HS; cbn in *; rewrite ?tset_eq; try exact I; match goal with X : _ t = _ \/ _ |- _ => destruct X as [X|[[? X]|X]] | _ => idtac end; congruence.
    + destruct (waits (l_th s u)) eqn:Wu.
      * right. right. assert (waiters N s' < waiters N s); [|lia]. apply (waiters_lt N s s' u); auto.
        assert (U : l_th s u = LWait) by (destruct (l_th s u); try discriminate Wu; reflexivity). clear -HS U.
        destruct HS; cbn in *; rewrite ?tset_eq; try congruence; try reflexivity; match goal with X : _ \/ _ |- _ => destruct X as [X|[[? X]|X]] end; congruence.
      * left. rewrite (other_step _ _ _ _ HS Ne). split; [|reflexivity]. split; [exact Hs|]. split; [|split; [exact (done_stays _ _ _ HS Ds)|split; [|auto]]].
        { destruct HS; cbn in *; try congruence. match goal with X : th t0 = _ |- _ => rewrite X in Wu; discriminate end. }
        { pose proof (waiters_le N s s' (fun x _ => Sx x)). lia. }
  - intros s R (Hs & Ms & _). apply self_can; [exact Hc|exact R|rewrite Hs; exact I|auto].
  - split; [exact T'|]. split; [exact M|]. split; [exact (done_always i j Hj D)|]. split; [lia|exact Nj].
  - exists k. split; [lia|exact K].
  - destruct (wait_until t j k Hk T') as [T2|(m & Hm & K2)]; [|exists m; split; [lia|exact K2]].
    destruct (KEEP k ltac:(lia)) as [_ Nk]. destruct (IH _ K k (le_n _) Nk (done_always i k ltac:(lia) D) T2) as (m & Hm & M2). exists m. split; [lia|exact M2].
Qed.
Lemma wait_leads t i : l_th (e i) t = LWait -> exists j, i <= j /\ in_call (l_th (e j) t) /\ l_rank (l_th (e j) t) < 7.
Proof using Hc E F.
  intros T.
  assert (DN : forall j, i <= j -> l_done (e j) = true -> exists j, i <= j /\ in_call (l_th (e j) t) /\ l_rank (l_th (e j) t) < 7).
  { intros j Hj D. destruct (wait_until t i j Hj T) as [T'|(k & Hk & K)]; [|eauto]. destruct (finitely_many _ (exec_reach _ _ e ls E j)) as [N HN].
    destruct (wait_done t N _ j (le_n _)) as (k & Hk & K); [|exact D|exact T'|exists k; split; [lia|exact K]].
    intros u Hu. destruct (decide (u < N)) as [|G]; [assumption|]. rewrite HN in Hu by lia. discriminate. }
  assert (HD : forall j u, i <= j -> l_mutex (e j) = Some u -> exists j, i <= j /\ in_call (l_th (e j) t) /\ l_rank (l_th (e j) t) < 7).
  { intros j u Hj M. apply (li_mutex _ _ _ (linv_reach zero ctor _ (exec_reach _ _ e ls E j))) in M. destruct (released u j M) as (k & Hk & _ & D). exact (DN k ltac:(lia) D). }
  destruct (l_mutex (e i)) as [u|] eqn:M; [exact (HD i u (le_n _) M)|].
  destruct (leads_weak _ _ e ls E (l_go ctor) (fun s => l_th s t) (fun s => l_th s t = LWait /\ l_mutex s = None) (fun s => (in_call (l_th s t) /\ l_rank (l_th s t) < 7) \/ exists u, l_mutex s = Some u) (F t)) with (i := i) as (k & Hk & [K|[u K]]); auto.
  - intros s u s' R (Hs & Ms) HS. destruct (decide (t = u)) as [<-|Ne].
    + right. left. destruct (self_step s t s' HS) as (L & _); [rewrite Hs; exact I|]. rewrite Hs in L. cbn in L. split; [|exact L].
      destruct HS; cbn in *; rewrite ?tset_eq; try exact I; match goal with X : _ t = _ \/ _ |- _ => destruct X as [X|[[? X]|X]] | _ => idtac end; congruence.
    + rewrite (other_step _ _ _ _ HS Ne). destruct (l_mutex s') as [w|] eqn:M'; [right; right; eauto|left; auto].
  - intros s R (Hs & Ms). apply self_can; [exact Hc|exact R|rewrite Hs; exact I|auto].
  - exists k. split; [exact Hk|exact K].
  - exact (HD k u Hk K).
Qed.
Lemma get_leads t i : in_call (l_th (e i) t) -> exists j, i <= j /\ (l_th (e j) t = LPanicked \/ exists x, l_th (e j) t = LRet x).
Proof using Hc E F.
  remember (l_rank (l_th (e i) t)) as n eqn:Hn. revert i Hn. induction n as [n IH] using (well_founded_induction lt_wf). intros i Hn H.
  destruct (decide (l_rank (l_th (e i) t) = 7)) as [W|W].
  - assert (T : l_th (e i) t = LWait) by (destruct (l_th (e i) t); try discriminate W; reflexivity).
    destruct (wait_leads t i T) as (j & Hj & J & L). destruct (IH _ ltac:(rewrite Hn, W; exact L) j eq_refl J) as (k & Hk & K). exists k. split; [lia|exact K].
  - destruct (further t i H) as (j & Hj & L & NI & _); [intros X; rewrite X in W; apply W; reflexivity|].
    destruct (l_th (e j) t) as [| | | | | | | | |x|] eqn:J; [congruence| | | | | | | | |exists j; split; [exact Hj|right; eauto]|exists j; split; [exact Hj|left; exact J]];
      (destruct (IH _ ltac:(rewrite Hn; exact L) j ltac:(rewrite J; reflexivity) ltac:(rewrite J; exact I)) as (k & Hk & K); exists k; split; [lia|exact K]).
Qed.
End live.

(** C136: if the constructor's first call comes to an end, every call of Get does: it
    returns the value that call gave, or, when that call panicked, panics or returns
    the zero value. *)
Theorem lazy_get_returns :
  forall (A : Type) (zero : A) (ctor : nat -> res A) e ls, ctor 0 <> Spin ->
  execution (l_step ctor) (l_new zero) e ls -> lazy_fair ctor e ->
  forall t i, in_call (l_th (e i) t) ->
  exists j, i <= j /\ ((exists x, l_th (e j) t = LRet x /\ (ctor 0 = Ret x \/ (ctor 0 = Panic /\ x = zero))) \/ (l_th (e j) t = LPanicked /\ ctor 0 = Panic)).
Proof.
  intros A zero ctor e ls Hc E F t i H. destruct (get_leads zero ctor Hc e ls E F t i H) as (j & Hj & J). exists j. split; [exact Hj|].
  pose proof (exec_reach _ _ e ls E j) as R. pose proof (li_pc _ _ _ (linv_reach zero ctor _ R) t) as P. destruct J as [J|[x J]]; rewrite J in P; cbn in P.
  - right. split; [exact J|]. tauto.
  - left. exists x. split; [exact J|]. destruct P as [D ->]. exact (proj1 (proj2 (li_done _ _ _ (linv_reach zero ctor _ R) D))).
Qed.
Print Assumptions lazy_get_returns.
(** ... and if it does not come to an end, no call of Get ever does. *)
Theorem lazy_get_hangs :
  forall (A : Type) (zero : A) (ctor : nat -> res A) s, ctor 0 = Spin -> reach (l_new zero) (l_step ctor) s ->
  forall t, l_th s t <> LPanicked /\ forall x, l_th s t <> LRet x.
Proof.
  intros A zero ctor s Hc R t. pose proof (li_pc _ _ _ (linv_reach zero ctor s R) t) as P. split; [|intros x]; intros T; rewrite T in P; cbn in P; [congruence|].
  destruct P as [D _]. destruct (li_done _ _ _ (linv_reach zero ctor s R) D) as (_ & [X|[X _]] & _); congruence.
Qed.
Print Assumptions lazy_get_hangs.

(** two goroutines race into doSlow and both return *)
Example lazy_returns_case : exists e ls, execution (l_step (fun n => Ret (41 + n))) (l_new 0) e ls /\ lazy_fair (fun n => Ret (41 + n)) e /\
  in_call (l_th (e 1) 0) /\ in_call (l_th (e 2) 1).
Proof.
  assert (H : exists s, steps (l_step (fun n => Ret (41 + n))) (l_new 0) [0; 1; 0; 1; 0; 0; 0; 0; 0; 0; 0; 1; 1; 1; 1] s /\ forall t, ~ in_call (l_th s t)).
  { eexists. split.
    - repeat first [eapply steps_cons; [first [apply ls_call; auto; fail|apply ls_load; reflexivity|apply ls_lock; reflexivity|apply ls_check_run; reflexivity|apply ls_check_done; reflexivity
        |eapply ls_ctor_ret; reflexivity|eapply ls_assign; reflexivity|eapply ls_set_done; reflexivity|eapply ls_unlock; reflexivity|apply ls_read; reflexivity]|]|apply steps_nil].
    - intros [|[|t]]; cbn; auto. }
  destruct H as (s & H & N). destruct (settled_execution _ _ _ _ H) as (e & ls & E & D & L). exists e, ls. split; [exact E|]. split.
  - intros t. apply strong_weak. apply (settled_fair _ _ _ _ s D). intros (u & s' & [HS I] & M). exact (N u I).
  - destruct E as [E0 ES]. pose proof (ES 0) as S0. pose proof (ES 1) as S1. rewrite L in S0, S1. cbn in S0, S1.
    assert (C : forall a t b, l_step (fun n => Ret (41 + n)) a t b -> l_th a t = LIdle -> in_call (l_th b t)).
    { intros a t b HS X. destruct HS; cbn in *; rewrite ?tset_eq; try congruence. exact I. }
    split; [exact (C _ _ _ S0 ltac:(rewrite E0; reflexivity))|]. apply (C _ _ _ S1). rewrite (other_step _ _ _ _ _ S0) by lia. rewrite E0. reflexivity.
Qed.
