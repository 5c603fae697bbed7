(** Which idle workers a collection of poolx/gopoolx takes (timedpool.go 83-101), in terms of
    the steps of the collector: whatever the order of the idle list, and exactly the
    workers idle for too long when no two goroutines are in free (timedpool.go 131-142)
    between reading the clock and getting the lock at the same time. *)
From Coq Require Import Sorting.Sorted.
From Verif Require Import Base Conc PoolModel PoolProofs PoolProofs2 PoolProofs3.
Local Open Scope Z.

Lemma nth_tt s i w : p_dobby s !! i = Some w -> nth i (map (p_tt s) (p_dobby s)) 0 = p_tt s w.
Proof. intros E. apply nth_lookup_Some with (d := 0). rewrite list_lookup_fmap, E. reflexivity. Qed.

(** C61: whatever the order: the idle list is cut in two behind a worker that has been idle
    for too long, in front of one that has not.  So a worker that is taken although it was
    active stands before one that was not, and a worker that is left although it was not
    active stands behind one that was. *)
Theorem pool_collect_cut idle s l s' ws : p_step idle s l s' -> p_col s = CWait -> p_col s' = CDrain ws ->
  p_dobby s = ws ++ p_dobby s' /\
  (forall w, last ws = Some w -> p_tt s w < p_clock s - idle) /\
  (forall w, head (p_dobby s') = Some w -> p_clock s - idle <= p_tt s w).
Proof.
  intros H C C'. destruct H; cbn in C'; try congruence. injection C' as <-. cbn.
  subst n. set (tts := map (p_tt s) (p_dobby s)). set (now := p_clock s - idle). unfold collect_count.
  destruct (bsearch_spec now tts (length tts) 0 (length tts)) as (K1 & K2 & K3); try lia.
  set (k := bsearch _ _ _ _ _) in *. split; [symmetry; apply take_drop|].
  assert (L : length tts = length (p_dobby s)) by apply map_length.
  split.
  - intros w E. rewrite last_lookup, take_length, Nat.min_l in E by lia.
    destruct k as [|k']; [rewrite take_0 in E; discriminate|]. cbn [Nat.pred] in E. rewrite lookup_take in E by lia.
    rewrite <- (nth_tt s k' w E). apply K2; cbn; lia.
  - intros w E. rewrite head_lookup, lookup_drop, Nat.add_0_r in E.
    rewrite <- (nth_tt s k w E). destruct K3 as [K3|K3]; [apply lookup_lt_Some in E; lia|exact K3].
Qed.
Print Assumptions pool_collect_cut.

(** the goroutine is in free, past the clock (timedpool.go 132) and before the lock (133) *)
Definition freeing (s : pstate) (g : nat) : Prop := exists w c, p_gor s g = GLock w c.
(** no two at once *)
Definition apart (s : pstate) : Prop := forall g g', freeing s g -> freeing s g' -> g = g'.

(** the idle list is in order of last activity, which is not in the future; who comes next
    belongs at the end *)
Record ordered (s : pstate) : Prop := {
  o_sorted : StronglySorted Z.le (map (p_tt s) (p_dobby s));
  o_past : forall w, w ∈ p_dobby s -> p_tt s w <= p_clock s;
  o_next : forall g w c, p_gor s g = GLock w c -> p_tt s w <= p_clock s /\ forall w', w' ∈ p_dobby s -> p_tt s w' <= p_tt s w }.

Lemma sorted_app_l (l1 l2 : list Z) : StronglySorted Z.le (l1 ++ l2) -> StronglySorted Z.le l1.
Proof.
  induction l1 as [|x l1 IH]; intros H; [constructor|]. cbn in H. apply StronglySorted_inv in H as [H F].
  constructor; [apply IH, H|]. apply Forall_app in F as [F _]. exact F.
Qed.
Lemma sorted_app_r (l1 l2 : list Z) : StronglySorted Z.le (l1 ++ l2) -> StronglySorted Z.le l2.
Proof. induction l1 as [|x l1 IH]; intros H; [exact H|]. cbn in H. apply StronglySorted_inv in H as [H _]. apply IH, H. Qed.
Lemma sorted_snoc (l : list Z) x : StronglySorted Z.le l -> (forall y, y ∈ l -> y <= x) -> StronglySorted Z.le (l ++ [x]).
Proof.
  induction l as [|y l IH]; intros H B; cbn; [repeat constructor|]. apply StronglySorted_inv in H as [H F].
  constructor; [apply IH; [exact H|intros z Hz; apply B; right; exact Hz]|].
  apply Forall_app. split; [exact F|]. repeat constructor. apply B. left.
Qed.
Lemma map_tset_notin (f : nat -> Z) w x l : w ∉ l -> map (tset f w x) l = map f l.
Proof.
  induction l as [|y l IH]; intros N; cbn; [reflexivity|]. rewrite tset_ne, IH; [reflexivity|set_solver|set_solver].
Qed.

Lemma ordered_step idle s l s' : pinv s -> apart s -> p_max s <> -1 -> ordered s -> p_step idle s l s' -> apart s' -> ordered s'.
Proof.
  intros A Ap0 M [O1 O2 O3] H Ap. destruct H; cbn in *.
  all: try (constructor; cbn; [exact O1|exact O2|exact O3]).
  all: try (constructor; cbn; [exact O1|exact O2|intros g' w' c' G'; ts; try discriminate; eapply O3; exact G']).
  - (* the clock *) constructor; cbn; [exact O1|intros w Hw; specialize (O2 w Hw); lia|].
    intros g w c G. destruct (O3 g w c G). split; [lia|assumption].
  - (* pop *) rewrite H1 in *. constructor; cbn.
    + rewrite map_app in O1. apply sorted_app_l in O1. exact O1.
    + intros w' Hw'. apply O2. set_solver.
    + intros g w' c G. destruct (O3 g w' c G) as [X Y]. split; [exact X|]. intros w'' Hw''. apply Y. set_solver.
  - (* the clock is read *)
    assert (N : w ∉ p_dobby s).
    { intros W. assert (B : p_own s w = OWork g) by (apply (a_work s A); exists c; rewrite H; reflexivity).
      apply (a_dobby s A M) in W. congruence. }
    constructor; cbn.
    + rewrite map_tset_notin by exact N. exact O1.
    + intros w' Hw'. rewrite tset_ne by (intros ->; contradiction). apply O2. exact Hw'.
    + intros g' w' c' G'.
      assert (g' = g) as -> by (apply Ap; [exists w', c'; exact G'|exists w, c; cbn; apply tset_eq]).
      rewrite tset_eq in G'. injection G' as <- <-. rewrite tset_eq. split; [lia|].
      intros w' Hw'. rewrite tset_ne by (intros ->; contradiction). apply O2. exact Hw'.
  - (* free *) constructor; cbn.
    + rewrite map_app. apply sorted_snoc; [exact O1|]. intros y Hy. apply elem_of_list_fmap in Hy as (w' & -> & Hw').
      destruct (O3 g w c H) as [_ Y]. apply Y, Hw'.
    + intros w' Hw'. apply elem_of_app in Hw' as [Hw'|Hw']; [apply O2, Hw'|]. apply elem_of_list_singleton in Hw' as ->. apply (O3 g w c H).
    + intros g' w' c' G'. ts; [discriminate|]. exfalso. match goal with N : g' <> g |- _ => apply N end.
      apply Ap0; eexists _, _; eassumption.
  - (* the collection *) constructor; cbn.
    + rewrite <- (take_drop n (p_dobby s)), map_app in O1. apply sorted_app_r in O1. exact O1.
    + intros w Hw. apply O2. rewrite <- (take_drop n (p_dobby s)). set_solver.
    + intros g w c G. destruct (O3 g w c G) as [X Y]. split; [exact X|]. intros w'' Hw''. apply Y. rewrite <- (take_drop n (p_dobby s)). set_solver.
  - (* tt = 0 *)
    assert (B : p_own s w = OClosing) by (apply (a_closing s A); rewrite H; reflexivity).
    assert (N : w ∉ p_dobby s) by (intros W; apply (a_dobby s A M) in W; congruence).
    constructor; cbn.
    + rewrite map_tset_notin by exact N. exact O1.
    + intros w' Hw'. rewrite tset_ne by (intros ->; contradiction). apply O2. exact Hw'.
    + intros g w' c G.
      assert (B' : p_own s w' = OWork g) by (apply (a_work s A); exists c; rewrite G; reflexivity).
      rewrite tset_ne by congruence. destruct (O3 g w' c G) as [X Y]. split; [exact X|].
      intros w'' Hw''. rewrite tset_ne by (intros ->; contradiction). apply Y, Hw''.
Qed.
Lemma max_stays idle s l s' : p_step idle s l s' -> p_max s = -1 -> p_max s' = -1.
Proof. intros H M. destruct H; cbn in *; first [exact M|reflexivity]. Qed.
Lemma ordered_reach idle maxw n tts clock s : 0 < maxw -> (forall i j, (i <= j < n)%nat -> tts i <= tts j) -> (forall i, (i < n)%nat -> tts i <= clock) ->
  reach (p_init maxw n tts clock) (fun s l s' => p_step idle s l s' /\ apart s') s -> p_max s <> -1 -> ordered s.
Proof.
  intros Hm Hs Hc R. cut (pinv s /\ apart s /\ (p_max s <> -1 -> ordered s)); [tauto|]. revert s R. apply reach_invariant.
  - split; [apply pinv_init, Hm|]. split; [intros g g' (w & c & G); cbn in G; case_decide; discriminate|].
    intros _. constructor; cbn.
    + assert (X : forall k a, (a + k <= n)%nat -> StronglySorted Z.le (map tts (seq a k))).
      { induction k as [|k IH]; intros a Ha; cbn; [constructor|]. constructor; [apply IH; lia|].
        apply Forall_forall. intros x Hx. apply elem_of_list_fmap in Hx as (j & -> & Hj). apply elem_of_seq in Hj. apply Hs. lia. }
      apply X. lia.
    + intros w Hw. apply elem_of_seq in Hw. apply Hc. lia.
    + intros g w c G. case_decide; discriminate.
  - intros s0 l s1 (A & Ap & O) [H Ap']. split; [eapply pinv_step; eassumption|]. split; [exact Ap'|].
    intros M. assert (M0 : p_max s0 <> -1) by (intros M0; apply M; eapply max_stays; eassumption).
    eapply ordered_step; eauto.
Qed.

(** C61: if no two goroutines are in free at once between the clock and the lock, a
    collection takes exactly the workers that have been idle for longer than idleTimeout,
    and leaves the others in their order *)
Theorem pool_collect_exact_apart idle maxw n tts clock s l s' ws : 0 < maxw ->
  (forall i j, (i <= j < n)%nat -> tts i <= tts j) -> (forall i, (i < n)%nat -> tts i <= clock) ->
  reach (p_init maxw n tts clock) (fun s l s' => p_step idle s l s' /\ apart s') s ->
  p_step idle s l s' -> p_col s = CWait -> p_col s' = CDrain ws ->
  ws = filter (fun w => p_tt s w < p_clock s - idle) (p_dobby s) /\
  p_dobby s' = filter (fun w => ~ p_tt s w < p_clock s - idle) (p_dobby s).
Proof.
  intros Hm Hs Hc R H C C'. assert (M : p_max s <> -1).
  { destruct H; cbn in *; congruence. }
  pose proof (ordered_reach idle maxw n tts clock s Hm Hs Hc R M) as [O _ _].
  destruct (pool_collect_cut idle s l s' ws H C C') as (E & K1 & K2). rewrite E in *. clear E H C C' R.
  rewrite map_app in O. rewrite !filter_app.
  assert (X : forall w, w ∈ ws -> p_tt s w < p_clock s - idle).
  { apply sorted_app_l in O. clear K2. induction ws as [|w ws IH] using rev_ind; [set_solver|].
    specialize (K1 w ltac:(apply last_snoc)). intros w' Hw'. apply elem_of_app in Hw' as [Hw'|Hw'].
    - rewrite map_app in O. cbn in O. clear IH. cut (p_tt s w' <= p_tt s w); [lia|].
      induction ws as [|y ws IH]; [set_solver|]. cbn in O. apply StronglySorted_inv in O as [O F].
      apply elem_of_cons in Hw' as [->|Hw']; [|apply IH; assumption].
      rewrite Forall_forall in F. apply F. apply elem_of_app. right. left.
    - apply elem_of_list_singleton in Hw' as ->. exact K1. }
  assert (Y : forall w, w ∈ p_dobby s' -> ~ p_tt s w < p_clock s - idle).
  { apply sorted_app_r in O. destruct (p_dobby s') as [|w d]; [set_solver|]. specialize (K2 w eq_refl). cbn in O.
    apply StronglySorted_inv in O as [_ F]. intros w' Hw'. apply elem_of_cons in Hw' as [->|Hw']; [lia|].
    rewrite Forall_forall in F. specialize (F (p_tt s w')). assert (p_tt s w <= p_tt s w') by (apply F; apply elem_of_list_fmap; eauto). lia. }
  assert (a1 : forall (P : nat -> Prop) `{forall x, Decision (P x)} (l : list nat), (forall w, w ∈ l -> P w) -> filter P l = l).
  { intros P D l0. induction l0 as [|x l0 IH]; intros B; [reflexivity|]. rewrite filter_cons_True, IH; [reflexivity|set_solver|set_solver]. }
  assert (a2 : forall (P : nat -> Prop) `{forall x, Decision (P x)} (l : list nat), (forall w, w ∈ l -> ~ P w) -> filter P l = []).
  { intros P D l0. induction l0 as [|x l0 IH]; intros B; [reflexivity|]. rewrite filter_cons_False, IH; [reflexivity|set_solver|set_solver]. }
  rewrite a1 by exact X. rewrite a2 by exact Y. rewrite a2 by (intros w W N; exact (N (X w W))). rewrite a1 by exact Y.
  rewrite app_nil_r. split; reflexivity.
Qed.
Print Assumptions pool_collect_exact_apart.

(** *** A case: three workers, freed one after the other at 1, 30 and 50; at 55, with an
    idleTimeout of 10, the first two are taken *)
Definition in_free (p : gpc) : bool := match p with GLock _ _ => true | _ => false end.
Definition apart_b (s : pstate) : bool := (length (List.filter (fun g => in_free (p_gor s g)) (seq 0 (p_ng s))) <=? 1)%nat.
Lemma apart_b_sound s : pinv s -> apart_b s = true -> apart s.
Proof.
  intros A H g g' (w & c & G) (w' & c' & G'). unfold apart_b in H. apply Nat.leb_le in H.
  assert (X : forall g w c, p_gor s g = GLock w c -> In g (List.filter (fun g => in_free (p_gor s g)) (seq 0 (p_ng s)))).
  { intros g0 w0 c0 G0. apply filter_In. split; [|rewrite G0; reflexivity]. apply in_seq. split; [lia|]. cbn.
    destruct (decide (p_ng s <= g0)%nat) as [L|L]; [|lia]. apply (a_gor s A) in L. congruence. }
  pose proof (X g w c G) as I1. pose proof (X g' w' c' G') as I2.
  destruct (List.filter _ _) as [|x [|y r]]; cbn in *; [contradiction|destruct I1 as [<-|[]], I2 as [<-|[]]; reflexivity|lia].
Qed.
Fixpoint execs_apart (idle : Z) (s : pstate) (ms : list move) : option pstate :=
  match ms with
  | [] => Some s
  | m :: ms => match exec idle s m with Some s => if apart_b s then execs_apart idle s ms else None | None => None end
  end.
Lemma execs_apart_reach idle init ms : forall s s', pinv s -> reach init (fun s l s' => p_step idle s l s' /\ apart s') s ->
  execs_apart idle s ms = Some s' -> reach init (fun s l s' => p_step idle s l s' /\ apart s') s'.
Proof.
  induction ms as [|m ms IH]; cbn; intros s s' A R H; [injection H as <-; exact R|].
  destruct (exec idle s m) as [s1|] eqn:E; [|discriminate]. destruct (apart_b s1) eqn:B; [|discriminate].
  destruct (exec_step idle s m s1 A E) as [l L]. pose proof (pinv_step idle s l s1 A L) as A1.
  apply (IH s1 s' A1); [|exact H]. eapply reach_snoc; [exact R|]. split; [exact L|apply apart_b_sound; assumption].
Qed.
Definition three_jobs : list move :=
  flat_map (fun t => [MCall t; MRun t; MRun t; MGor t; MGor t; MGor t]) [0; 1; 2]%nat ++
  [MClock 1; MGor 0; MGor 0; MClock 30; MGor 1; MGor 1; MClock 50; MGor 2; MGor 2; MClock 55]%nat.
Example collect_apart_case : exists s s' l, 
  reach (p_init 3 0 (fun _ => 0) 0) (fun s l s' => p_step 10 s l s' /\ apart s') s /\
  p_step 10 s l s' /\ p_col s = CWait /\ p_dobby s = [0; 1; 2]%nat /\ p_col s' = CDrain [0; 1]%nat /\ p_dobby s' = [2]%nat.
Proof.
  destruct (execs_apart 10 (p_init 3 0 (fun _ => 0) 0) three_jobs) as [s|] eqn:E; [|vm_compute in E; discriminate].
  assert (A0 : pinv (p_init 3 0 (fun _ => 0) 0)) by (apply pinv_init; lia).
  pose proof (execs_apart_reach 10 _ three_jobs _ s A0 (reach_refl _ _) E) as R.
  assert (A : pinv s).
  { revert R. apply reach_invariant; [exact A0|]. intros s0 l s1 B [H _]. eapply pinv_step; eassumption. }
  destruct (exec 10 s MTick) as [s'|] eqn:E'.
  - destruct (exec_step 10 s MTick s' A E') as [l L]. exists s, s', l. split; [exact R|]. split; [exact L|]. clear R L A.
    vm_compute in E. injection E as <-. vm_compute in E'. injection E' as <-. repeat split.
  - exfalso. clear R A. vm_compute in E. injection E as <-. vm_compute in E'. discriminate.
Qed.
