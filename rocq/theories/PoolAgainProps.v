(** Timed pool (poolx/gopoolx/timedpool.go 32-43, 45-129, 131-173): a pool that refuses a job
    takes jobs again later, under every fair scheduler.  With preheated workers that is
    false: such a pool may refuse every job for ever. *)
From Verif Require Import Base Conc Fair PoolModel PoolProofs PoolProofs2 PoolProofs3 PoolRaceProps PoolFairProofs PoolFairProps PoolIdleProofs PoolAgainProofs PoolProps PoolRefuseProps.
Local Open Scope Z.

(** In every fair execution of a pool without preheat there comes again and again a moment
    at which the pool is stopped, or a worker is idle, or a new one can be started; a Run
    that gets the lock then is not refused for want of a worker (pool_run_exact). *)
Theorem pool_room_again_partial P maxw tts clock idle e ls : 0 < maxw ->
  execution (p_step_by P idle) (p_init maxw 0 tts clock) e ls -> pool_fair idle e ->
  forall i, exists j, (i <= j)%nat /\
    (p_max (e j) = -1 \/ (p_dobby (e j) <> [] \/ p_workers (e j) < maxw) /\
      forall t s', p_job (e j) t = JLock -> ~ p_step idle (e j) (LRet t false) s').
Proof.
  intros Hm E F i. destruct (room_comes P maxw tts clock idle e ls Hm E F i) as (j & Hj & R). exists j. split; [exact Hj|].
  destruct (lbound P maxw tts clock idle Hm (e j) (exec_reach _ _ _ _ E j)) as [[M|M] W]; [left; exact M|].
  destruct R as [R|R]; [left; exact R|right]. rewrite M in R. split; [exact R|].
  intros t s' J H. inversion H; subst; [lia|]. destruct R as [R|R]; [congruence|lia].
Qed.
Print Assumptions pool_room_again_partial.

(** *** a pool whose workers are all lost *)
Record lost (s : pstate) : Prop := {
  l_dobby : p_dobby s = [];
  l_max : p_max s = -1 \/ p_max s <= p_workers s;
  l_gor : forall g, p_gor s g = GNone \/ exists w, p_gor s g = GNil w;
  l_col : p_col s = CWait \/ p_col s = CDrain [] \/ p_col s = CStop \/ p_col s = CDead \/ p_col s = CPanic;
  l_job : forall t, p_job s t = JIdle \/ p_job s t = JLock \/ p_job s t = JRet false }.
Lemma lost_step idle s l s' : lost s -> p_step idle s l s' -> lost s' /\ forall t, l <> LRet t true.
Proof.
  intros [D M G C J] H.
  assert (JJ : forall t0 p t, (p = JLock \/ p = JRet false) -> tset (p_job s) t0 p t = JIdle \/ tset (p_job s) t0 p t = JLock \/ tset (p_job s) t0 p t = JRet false).
  { intros t0 p t Hp. destruct (tset_cases (p_job s) t0 p t) as [[_ ->]|[_ ->]]; [tauto|apply J]. }
  destruct H; unfold new_worker; try (match goal with H : p_gor _ ?g = _ |- _ => exfalso; destruct (G g) as [X|[? X]]; congruence end);
    try (match goal with H : p_job _ ?t = JSend _ |- _ => exfalso; destruct (J t) as [X|[X|X]]; congruence end);
    try (exfalso; destruct C as [C|[C|[C|[C|C]]]]; congruence);
    try (exfalso; rewrite D in *; match goal with H : [] = ?d ++ [?w] |- _ => destruct d; discriminate | _ => lia end);
    (split; [|intros; discriminate]); constructor; cbn; try assumption; try tauto; try (intros; apply JJ; tauto); rewrite ?D, ?drop_nil, ?take_nil; auto.
Qed.
Lemma lost_for_ever idle s tr s' : lost s -> steps (p_step idle) s tr s' -> lost s' /\ forall t, LRet t true ∉ tr.
Proof.
  intros L H. induction H as [|s0 tr s1 l s2 H IH HS]; [split; [exact L|intros t X; inversion X]|].
  destruct (IH L) as [L1 N1]. destruct (lost_step idle s1 l s2 L1 HS) as [L2 N2]. split; [exact L2|]. intros t X.
  apply elem_of_app in X as [X|X]; [exact (N1 t X)|]. apply elem_of_list_singleton in X. exact (N2 t (eq_sym X)).
Qed.

Section preheated.
Context (maxw idle : Z) (n : nat) (tts : nat -> Z) (clock : Z).
Local Notation rch s := (reach (p_init maxw n tts clock) (p_step idle) s).
(** what the collector is doing, k workers being through, and m goroutines having started *)
Record losing (c : cpc) (k m : nat) (s : pstate) : Prop := {
  g_col : p_col s = c;
  g_dobby : p_dobby s = [];
  g_max : p_max s = maxw;
  g_workers : p_workers s = Z.of_nat n;
  g_gor : forall g, p_gor s g = if decide (g < m)%nat then GNil g else if decide (g < n)%nat then GStart g else GNone;
  g_obj : forall w, p_obj s w = if decide (k <= w < n)%nat then Some w else None;
  g_closed : forall w, (k <= w < n)%nat -> p_closed s w = false;
  g_job : forall t, p_job s t = JIdle }.
Lemma losing_one k m s : rch s -> (k < n)%nat -> losing (CDrain (seq k (n - k))) k m s ->
  exists s', rch s' /\ losing (CDrain (seq (S k) (n - S k))) (S k) m s'.
Proof.
  intros R L [C D M W G O Cl J]. replace (n - k)%nat with (S (n - S k)) in C by lia. cbn [seq] in C.
  pose proof (O k) as Ok. rewrite decide_True in Ok by lia.
  pose proof (ps_close idle s k _ k C Ok (Cl k ltac:(lia))) as S1. set (s1 := set_closed _ _) in S1.
  pose proof (ps_nil idle s1 k (seq (S k) (n - S k)) eq_refl) as S2. set (s2 := set_tt _ _) in S2.
  pose proof (ps_put idle s2 k (seq (S k) (n - S k)) eq_refl) as S3. set (s3 := set_pool _ _) in S3.
  exists s3. split; [refine (reach_snoc _ _ _ _ _ (reach_snoc _ _ _ _ _ (reach_snoc _ _ _ _ _ R S1) S2) S3)|].
  constructor; subst s1 s2 s3; cbn; try assumption; try reflexivity.
  - intros w. destruct (tset_cases (p_obj s) k None w) as [[-> ->]|[N ->]]; [rewrite decide_False by lia; reflexivity|]. rewrite O. destruct (decide (k <= w < n)%nat), (decide (S k <= w < n)%nat); auto; lia.
  - intros w Hw. rewrite tset_ne by lia. apply Cl. lia.
Qed.
Lemma losing_all m : forall d k s, (n - k = d)%nat -> (k <= n)%nat -> rch s -> losing (CDrain (seq k (n - k))) k m s -> exists s', rch s' /\ losing (CDrain []) n m s'.
Proof.
  induction d as [|d IH]; intros k s Hd Hk R L.
  - replace k with n in L by lia. rewrite Nat.sub_diag in L. eauto.
  - destruct (losing_one k m s R ltac:(lia) L) as (s' & R' & L'). apply (IH (S k) s'); [lia|lia|exact R'|exact L'].
Qed.
Lemma starting m s : rch s -> (m < n)%nat -> losing CWait n m s -> exists s', rch s' /\ losing CWait n (S m) s'.
Proof.
  intros R L [C D M W G O Cl J]. pose proof (G m) as Gm. rewrite decide_False, decide_True in Gm by lia. pose proof (O m) as Om. rewrite decide_False in Om by lia.
  eexists. split; [refine (reach_snoc _ _ _ _ _ R (ps_start_nil idle s m m Gm Om))|]. constructor; cbn; try assumption.
  intros g. destruct (tset_cases (p_gor s) m (GNil m) g) as [[-> ->]|[N ->]]; [rewrite decide_True by lia; reflexivity|]. rewrite G.
  destruct (decide (g < m)%nat), (decide (g < S m)%nat); auto; lia.
Qed.
Lemma starting_all : forall d m s, (n - m = d)%nat -> (m <= n)%nat -> rch s -> losing CWait n m s -> exists s', rch s' /\ losing CWait n n s'.
Proof.
  induction d as [|d IH]; intros m s Hd Hk R L.
  - replace m with n in L by lia. eauto.
  - destruct (starting m s R ltac:(lia) L) as (s' & R' & L'). apply (IH (S m) s'); [lia|lia|exact R'|exact L'].
Qed.
Lemma max_of k : exists x, clock <= x /\ forall w, (w < k)%nat -> tts w < x - idle.
Proof.
  induction k as [|k (x & C & IH)]; [exists clock; split; [lia|intros; lia]|]. exists (Z.max x (tts k + idle + 1)). split; [lia|].
  intros w Hw. destruct (decide (w = k)) as [->|]; [lia|]. specialize (IH w ltac:(lia)). lia.
Qed.
Lemma all_lost : 0 < maxw -> maxw <= Z.of_nat n -> exists s, rch s /\ lost s /\ (forall t, p_job s t = JIdle) /\ p_max s = maxw.
Proof.
  intros Hm Hn. destruct (max_of n) as (x & Hx & HT).
  pose proof (ps_clock idle (p_init maxw n tts clock) x Hx) as S1. set (s1 := set_clock x _) in S1.
  pose proof (ps_tick idle s1 n eq_refl ltac:(cbn; lia)) as S2.
  assert (CC : collect_count (map (p_tt s1) (p_dobby s1)) (p_clock s1 - idle) = n).
  { rewrite collect_all; [cbn; rewrite map_length, seq_length; reflexivity|]. intros y Hy. apply elem_of_list_fmap in Hy as (w & -> & Hw). cbn in *. apply elem_of_seq in Hw. apply HT. lia. }
  specialize (S2 (eq_sym CC)). set (s2 := set_dobby _ _) in S2.
  assert (R2 : rch s2) by (refine (reach_snoc _ _ _ _ _ (reach_snoc _ _ _ _ _ (reach_refl _ _) S1) S2)).
  assert (L2 : losing (CDrain (seq 0 (n - 0))) 0 0 s2).
  { constructor; subst s2 s1; cbn; try reflexivity.
    - rewrite Nat.sub_0_r, take_ge by (rewrite seq_length; lia). reflexivity.
    - apply drop_ge. rewrite seq_length. lia.
    - intros w. destruct (decide (w < n)%nat), (decide (0 <= w < n)%nat); auto; lia. }
  destruct (losing_all 0 n 0 s2 ltac:(lia) ltac:(lia) R2 L2) as (s3 & R3 & [C D M W G O Cl J]).
  pose proof (ps_drained idle s3 C) as S4.
  destruct (starting_all n 0 (set_col CWait s3) ltac:(lia) ltac:(lia)) as (s5 & R5 & L5); [exact (reach_snoc _ _ _ _ _ R3 S4)|constructor; cbn; auto|].
  exists s5. split; [exact R5|]. destruct L5. split; [|split; [assumption|assumption]]. constructor; auto; [right; lia| ].
  intros g. rewrite g_gor0. destruct (decide (g < n)%nat); eauto.
Qed.
End preheated.

(** "a pool that refuses a job takes jobs again": false with preheated workers, whenever
    there are at least maxWorkers of them.  If the collector gets to them before they start,
    no call of Run is ever accepted, whatever happens afterwards. *)
Theorem pool_room_again_refuted maxw n tts clock idle : 0 < maxw -> maxw <= Z.of_nat n ->
  exists s, reach (p_init maxw n tts clock) (p_step idle) s /\ p_max s = maxw /\ (forall t, p_job s t = JIdle) /\
    forall tr s', steps (p_step idle) s tr s' -> forall t, LRet t true ∉ tr /\ p_job s' t <> JRet true.
Proof.
  intros Hm Hn. destruct (all_lost maxw idle n tts clock Hm Hn) as (s & R & L & J & M). exists s. split; [exact R|]. split; [exact M|]. split; [exact J|].
  intros tr s' H t. destruct (lost_for_ever idle s tr s' L H) as [L' N]. split; [exact (N t)|]. destruct (l_job s' L' t) as [X|[X|X]]; rewrite X; discriminate.
Qed.
Print Assumptions pool_room_again_refuted.

(** the hypotheses of pool_room_again_partial are met, by an execution in which a pool of one
    worker takes a job *)
Example pool_room_again_case : exists e ls i, execution (p_step_by (eq 0%nat) 10) (p_init 1 0 (fun _ => 0) 0) e ls /\ pool_fair 10 e /\ p_job (e i) 0%nat = JRet true.
Proof. destruct pool_fair_case as (e & ls & i & E & F & J & _). exists e, ls, i. auto. Qed.
