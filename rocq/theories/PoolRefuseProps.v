(** When Run of poolx/gopoolx/timedpool.go takes a job and when it refuses one, under every
    interleaving. *)
From Verif Require Import Base Conc PoolModel PoolProofs PoolProofs2 PoolProofs3 PoolProps.
Local Open Scope Z.

(** Run under the lock: it refuses exactly when the pool is stopped, or nobody is idle and there are
    maxWorkers workers; otherwise it takes the idle worker that came back last, or starts a new
    one, and then the send goes through (pool_send_ready) *)
Theorem pool_run_exact maxw n tts clock idle s t : 0 < maxw -> reach (p_init maxw n tts clock) (p_step idle) s -> p_job s t = JLock ->
  ((exists s', p_step idle s (LRet t false) s') <-> p_max s = -1 \/ p_dobby s = [] /\ maxw <= p_workers s) /\
  forall l s', p_step idle s l s' -> p_job s' t <> JLock ->
    l = LRet t false /\ p_job s' t = JRet false /\ p_workers s' = p_workers s /\ p_dobby s' = p_dobby s \/
    p_max s <> -1 /\ exists w, p_job s' t = JSend w /\
      (p_dobby s = p_dobby s' ++ [w] /\ p_workers s' = p_workers s \/
       p_dobby s = [] /\ p_workers s < maxw /\ p_workers s' = p_workers s + 1 /\ exists g, p_gor s g = GNone /\ p_gor s' g = GStart w).
Proof.
  intros Hm R J. destruct (bound_reach maxw n tts clock idle s Hm R) as [M _]. pose proof (pinv_reach idle maxw n tts clock s Hm R) as A. split; [split|].
  - intros [s' H]. inversion H; subst; [left; assumption|right]. split; [assumption|]. lia.
  - intros [E|[E1 E2]]; [eexists; apply ps_stopped; assumption|]. destruct (decide (p_max s = -1)); [eexists; apply ps_stopped; assumption|].
    eexists. apply ps_full; [assumption..|lia].
  - intros l s' H N. pose proof (a_gor s A (p_ng s) ltac:(lia)) as G. destruct H; cbn in N |- *; ts; try congruence.
    + left. auto.
    + right. split; [assumption|]. exists w. split; [reflexivity|]. left. auto.
    + right. split; [assumption|]. exists (p_nobj s). split; [reflexivity|]. right. split; [assumption|]. split; [lia|]. split; [reflexivity|]. exists (p_ng s). rewrite tset_eq. auto.
    + right. split; [assumption|]. exists w. split; [reflexivity|]. right. split; [assumption|]. split; [lia|]. split; [reflexivity|]. exists (p_ng s). rewrite tset_eq. auto.
    + left. auto.
Qed.
Print Assumptions pool_run_exact.

(** goroutine g has the job t: it handles it, or the job waits in its channel, or the Run of the job has taken g's worker *)
Definition has_job (s : pstate) (g t : nat) : Prop :=
  exists w c, p_gor s g = GHandle w c t \/
    (p_gor s g = GStart w \/ p_gor s g = GRecv w c) /\ p_obj s w = Some c /\ (p_job s t = JSend w \/ p_buf s c = Some t).
(** g has handled a job and is on its way back to the list *)
Definition coming_back (s : pstate) (g : nat) : Prop := exists w c, p_gor s g = GFree w c \/ p_gor s g = GLock w c.
(** the collector has taken g off the list; g ends, or will *)
Definition collected (s : pstate) (g : nat) : Prop :=
  p_gor s g = GExit \/ exists w c, p_gor s g = GRecv w c /\ (p_closed s c = true \/ exists ws, (p_col s = CDrain ws \/ exists v, p_col s = CNil v ws \/ p_col s = CPut v ws) /\ w ∈ ws).

(** Run refuses a job, in a pool without preheat that is not stopped: there are exactly maxWorkers
    goroutines, and each has a job (no two the same), is on its way back, or has been collected *)
Theorem pool_refused_partial maxw tts clock idle s t s' : 0 < maxw -> reach (p_init maxw 0 tts clock) (p_step idle) s ->
  p_step idle s (LRet t false) s' -> p_max s <> -1 ->
  total live (p_gor s) (p_ng s) = maxw /\
  (forall g, p_gor s g <> GNone -> p_gor s g <> GDone -> (exists u, has_job s g u) \/ coming_back s g \/ collected s g) /\
  (forall g g' u, has_job s g u -> has_job s g' u -> g = g').
Proof.
  intros Hm R H M. pose proof (pinv_reach idle maxw 0 tts clock s Hm R) as A. pose proof (einv_reach idle maxw tts clock s Hm R) as E.
  pose proof (binv_reach idle maxw 0 tts clock s Hm R) as B. pose proof (cinv_reach idle maxw 0 tts clock s Hm R) as C.
  destruct (bound_reach maxw 0 tts clock idle s Hm R) as [Mx Wx].
  assert (X : p_dobby s = [] /\ p_max s <= p_workers s) by (inversion H; subst; [congruence|auto]). destruct X as [X1 X2].
  split; [unfold cinv in C; lia|]. split.
  - assert (ND : forall w, p_own s w <> ODobby). { intros w O. apply (a_dobby s A M) in O. rewrite X1 in O. inversion O. }
    intros g N1 N2. destruct (p_gor s g) as [|w|w|w c|w c u|w c|w c| |] eqn:G; try congruence.
    + left. destruct (e_start s E g w G) as [[u O]|O].
      * exists u. destruct (a_open s A w ltac:(rewrite O; reflexivity)) as (c & Oc & _). exists w, c. right. split; [auto|]. split; [exact Oc|]. left. apply (a_run s A), O.
      * destruct (a_queued s A w O) as (c & u & Oc & Bc). exists u, w, c. right. auto.
    + exfalso. exact (e_nil s E g w G).
    + destruct (p_closed s c) eqn:Cc; [right; right; right; exists w, c; auto|]. pose proof (e_open s E g w c G Cc) as Aw.
      destruct (a_recv s A g w c G) as [_ [Oc|Oc]]; [|congruence]. destruct (p_own s w) as [| |u| | | | |] eqn:O; try discriminate.
      * exfalso. exact (ND w O).
      * left. exists u, w, c. right. split; [auto|]. split; [exact Oc|]. left. apply (a_run s A), O.
      * left. destruct (a_queued s A w O) as (c' & u & Oc' & Bc). exists u, w, c. right. split; [auto|]. split; [exact Oc|]. right. congruence.
      * right. right. right. exists w, c. split; [exact G|]. right. apply (a_col s A) in O. destruct (p_col s) as [|ws|v ws|v ws| | |] eqn:Co; cbn in O; try (inversion O; fail).
        -- exists ws. auto.
        -- exists ws. split; [right; exists v; auto|exact O].
        -- exists ws. split; [right; exists v; auto|exact O].
    + left. exists u, w, c. auto.
    + right. left. exists w, c. auto.
    + right. left. exists w, c. auto.
    + right. right. left. exact G.
  - assert (K : forall g w c u, p_gor s g = GHandle w c u -> (forall v, p_job s u <> JSend v) /\ forall c', p_buf s c' <> Some u).
    { intros g w c u G. pose proof (b_handle s B g w c u G) as S1. split; intros v V.
      - rewrite (b_not s B u) in S1 by congruence. discriminate.
      - destruct (b_buf s B v u V). congruence. }
    intros g g' u (w & c & [G|(G & O & P)]) (w' & c' & [G'|(G' & O' & P')]).
    + exact (b_one s B _ _ _ _ _ _ _ G G').
    + destruct (K _ _ _ _ G) as [K1 K2]. exfalso. destruct P' as [P'|P']; [exact (K1 _ P')|exact (K2 _ P')].
    + destruct (K _ _ _ _ G') as [K1 K2]. exfalso. destruct P as [P|P]; [exact (K1 _ P)|exact (K2 _ P)].
    + assert (w = w') as <-.
      { destruct P as [P|P], P' as [P'|P'].
        - congruence.
        - destruct (b_buf s B _ _ P'). congruence.
        - destruct (b_buf s B _ _ P). congruence.
        - pose proof (b_uniq s B _ _ _ P P') as <-. exact (a_inj s A _ _ _ O O'). }
      assert (c = c') as <- by congruence. apply (e_uniq s E g g' w).
      * destruct G as [G|G]; [left; exact G|right; exists c; auto].
      * destruct G' as [G'|G']; [left; exact G'|right; exists c; auto].
Qed.
Print Assumptions pool_refused_partial.

(** "Run refuses a job only while maxWorkers jobs are under way": false.  A worker whose handler has returned
    and that is not back on the list counts, and so does one that the collector has taken off the list *)
Theorem pool_refused_refuted :
  (exists tr s s', steps (p_step 10) (p_init 1 0 (fun _ => 0) 0) tr s /\ ends 0 tr = 1%nat /\ (forall u, LRet u true ∈ tr -> u = 0%nat) /\ p_max s = 1 /\ p_step 10 s (LRet 1 false) s') /\
  (exists s s', reach (p_init 1 0 (fun _ => 0) 0) (p_step 10) s /\ (forall g u, ~ has_job s g u) /\ (forall g, ~ coming_back s g) /\ p_max s = 1 /\ p_step 10 s (LRet 1 false) s').
Proof.
  split.
  - destruct (execs 10 (p_init 1 0 (fun _ => 0) 0) [MCall 0; MRun 0; MRun 0; MGor 0; MGor 0; MGor 0; MCall 1]) as [s|] eqn:E; [|vm_compute in E; discriminate].
    destruct (execs_steps 10 _ _ s (pinv_init 1 0 (fun _ => 0) 0 ltac:(lia)) E) as [tr T]. exists tr, s.
    assert (R : reach (p_init 1 0 (fun _ => 0) 0) (p_step 10) s) by (exists tr; exact T).
    assert (J : p_job s 0 = JRet true /\ p_job s 1 = JLock /\ (forall u, p_job s u = JRet true -> u = 0%nat) /\ (forall g w c, p_gor s g <> GHandle w c 0) /\ p_started s 0 = 1%nat /\
      p_max s = 1 /\ p_dobby s = [] /\ p_workers s = 1).
    { clear -E. vm_compute in E; injection E as <-. split; [reflexivity|]. split; [reflexivity|]. split.
      - intros [|[|u]]; [reflexivity|vm_compute; discriminate|vm_compute; discriminate].
      - split; [|auto]. intros [|g] w c; vm_compute; discriminate. }
    destruct J as (J0 & J1 & JU & G & S & M & D & W). eexists. split; [exact T|]. split; [|split; [|split]].
    + rewrite (proj2 (ends_started 10 1 0 (fun _ => 0) 0 tr s 0 ltac:(lia) T) G). exact S.
    + intros u U. apply JU. apply (returned 1 0 (fun _ => 0) 0 10 tr s u true T), U.
    + exact M.
    + apply ps_full; [exact J1|lia|exact D|lia].
  - destruct (execs 10 (p_init 1 0 (fun _ => 0) 0) [MCall 0; MRun 0; MRun 0; MGor 0; MGor 0; MGor 0; MGor 0; MGor 0; MClock 100; MTick; MCall 1]) as [s|] eqn:E; [|vm_compute in E; discriminate].
    assert (R : reach (p_init 1 0 (fun _ => 0) 0) (p_step 10) s) by (eapply execs_reach; [lia|exact E]). exists s.
    assert (J : p_job s 1 = JLock /\ (forall u v, p_job s u <> JSend v) /\ (forall g, p_gor s g = GNone \/ p_gor s g = GRecv 0 0) /\ (forall c, p_buf s c = None) /\
      p_max s = 1 /\ p_dobby s = [] /\ p_workers s = 1).
    { clear -E. vm_compute in E; injection E as <-. split; [reflexivity|]. split; [intros [|[|u]] v; vm_compute; discriminate|]. split; [intros [|g]; vm_compute; auto|].
      split; [intros [|c]; vm_compute; auto|]. auto. }
    destruct J as (J1 & JS & G & Bf & M & D & W). eexists. split; [exact R|]. split; [|split; [|split]].
    + intros g u (w & c & [H|(_ & _ & [H|H])]); [destruct (G g); congruence|exact (JS _ _ H)|rewrite Bf in H; discriminate].
    + intros g (w & c & [H|H]); destruct (G g); congruence.
    + exact M.
    + apply ps_full; [exact J1|lia|exact D|lia].
Qed.
Print Assumptions pool_refused_refuted.
(** the hypotheses of pool_refused_partial are met: in a pool of two, one worker handles a job and the other's
    job waits in its channel *)
Example pool_refused_case : exists s s', reach (p_init 2 0 (fun _ => 0) 0) (p_step 10) s /\ p_step 10 s (LRet 2 false) s' /\ p_max s <> -1 /\ has_job s 0 0 /\ has_job s 1 1.
Proof.
  destruct (execs 10 (p_init 2 0 (fun _ => 0) 0) [MCall 0; MRun 0; MRun 0; MGor 0; MGor 0; MCall 1; MRun 1; MRun 1; MCall 2]) as [s|] eqn:E; [|vm_compute in E; discriminate].
  assert (R : reach (p_init 2 0 (fun _ => 0) 0) (p_step 10) s) by (eapply execs_reach; [lia|exact E]). exists s.
  assert (J : p_job s 2 = JLock /\ p_max s = 2 /\ p_dobby s = [] /\ p_workers s = 2 /\ p_gor s 0 = GHandle 0 0 0 /\ p_gor s 1 = GStart 1 /\ p_obj s 1 = Some 1%nat /\ p_buf s 1 = Some 1%nat)
    by (clear -E; vm_compute in E; injection E as <-; repeat split).
  destruct J as (J & M & D & W & G0 & G1 & O & Bf). eexists. split; [exact R|]. split; [apply ps_full; [exact J|lia|exact D|lia]|]. split; [lia|].
  split; [exists 0%nat, 0%nat; auto|]. exists 1%nat, 1%nat. auto.
Qed.
