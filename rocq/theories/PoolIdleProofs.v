(** A pool that nobody uses: no call of Run or Stop is made any more, and the clock
    goes on.  The collector comes to close the channels of all the workers. *)
From Verif Require Import Base Conc Fair PoolModel PoolProofs PoolProofs2 PoolProofs3 PoolRaceProps PoolFairProofs.
Local Open Scope Z.

Definition quiet (s : pstate) : Prop := forall t, p_job s t = JIdle \/ exists b, p_job s t = JRet b.
Record calm (s : pstate) : Prop := {
  k_p : pinv s;
  k_e : einv s;
  k_st : forall u, p_st s u = SIdle;
  k_col : col_alive (p_col s);
  k_quiet : quiet s }.
(** the goroutine has nothing to do but to wait for its channel, or to end *)
Definition rest (g : nat) (s : pstate) : Prop :=
  match p_gor s g with GNone | GDone | GExit => True | GRecv w c => p_buf s c = None | _ => False end.
Lemma calm_max s : calm s -> p_max s <> -1.
Proof. intros K M. apply (a_max s (k_p s K)) in M. pose proof (k_col s K) as C. rewrite M in C. exact C. Qed.
Ltac noisy K := exfalso; match goal with
  | H : p_job ?s ?t = _ |- _ => destruct (k_quiet s K t) as [X|[? X]]; congruence
  | H : p_st ?s ?u = _ |- _ => rewrite (k_st s K u) in H; discriminate
  | H : p_col ?s = _ |- _ => pose proof (k_col s K) as X; rewrite H in X; exact X
  | H : p_max ?s = -1 |- _ => exact (calm_max s K H) end.
Lemma calm_step idle s l s' : calm s -> p_go idle s l s' -> calm s'.
Proof.
  intros K [H N]. pose proof (pinv_step idle s l s' (k_p s K) H) as A'. pose proof (einv_step idle s l s' (k_p s K) (k_e s K) H) as E'.
  pose proof (k_st s K) as T. pose proof (k_col s K) as C. pose proof (k_quiet s K) as Q. constructor; [exact A'|exact E'| | |].
  - destruct H; try (destruct N; fail); unfold new_worker; cbn; try exact T; noisy K.
  - destruct H; try (destruct N; fail); unfold new_worker; cbn; try exact C; try exact I; try noisy K.
    + destruct (a_cpanic _ A' eq_refl).
  - destruct H; try (destruct N; fail); unfold new_worker; cbn; try exact Q; noisy K.
Qed.
Lemma calm_gor idle s l s' g : calm s -> p_go idle s l s' -> p_gor s' g = p_gor s g \/
  match p_gor s g with
  | GStart w => exists c, p_gor s' g = GRecv w c
  | GRecv w c => (exists t, p_gor s' g = GHandle w c t) \/ p_closed s c = true /\ p_buf s c = None /\ p_gor s' g = GExit
  | GHandle w c t => p_gor s' g = GFree w c
  | GFree w c => p_gor s' g = GLock w c
  | GLock w c => p_gor s' g = GRecv w c /\ p_buf s' = p_buf s
  | GExit => p_gor s' g = GDone
  | _ => False
  end.
Proof.
  intros K [H N]. destruct H; try (destruct N; fail); unfold new_worker; cbn; try (left; reflexivity); try noisy K.
  all: match goal with |- context [tset (p_gor ?s) ?x ?p ?y] => destruct (tset_cases (p_gor s) x p y) as [[-> ->]|[_ ->]]; [right|left; reflexivity] end.
  all: match goal with H : p_gor _ _ = _ |- _ => rewrite H end; eauto.
  match goal with G : p_gor s ?h = GStart w |- _ => destruct (e_start s (k_e s K) h w G) as [[t U]|U] end;
  (destruct (a_open s (k_p s K) w) as (c & O & _); [rewrite U; reflexivity|congruence]).
Qed.
Lemma calm_buf idle s l s' c : calm s -> p_go idle s l s' -> p_buf s c = None -> p_buf s' c = None.
Proof.
  intros K [H N] B. destruct H; try (destruct N; fail); unfold new_worker; cbn; try exact B; try noisy K.
  destruct (tset_cases (p_buf s) c0 None c) as [[_ ->]|[_ ->]]; [reflexivity|exact B].
Qed.
Lemma rest_step idle s l s' g : calm s -> p_go idle s l s' -> rest g s -> rest g s'.
Proof.
  intros K H R. unfold rest in *. destruct (calm_gor idle s l s' g K H) as [G|G].
  - rewrite G. destruct (p_gor s g); try exact R. exact (calm_buf idle s l s' _ K H R).
  - destruct (p_gor s g) as [|w|w|w c|w c t|w c|w c| |] eqn:Eg; try (destruct R; fail); try (destruct G; fail).
    + destruct G as [[t G]|(_ & _ & G)]; [|rewrite G; exact I].
      exfalso. destruct H as [H _]. pose proof (gor_step idle s l s' g (k_p s K) H) as X. rewrite Eg in X.
      destruct X as [X|[(t' & X & _)|(_ & _ & X)]]; congruence.
    + rewrite G. exact I.
Qed.
Definition resting (s : pstate) : Prop := forall g, rest g s.
(** what a step does to the idle workers, once all goroutines rest *)
Lemma rest_dobby idle s l s' M : calm s -> resting s -> p_go idle s l s' ->
  (forall w, w ∈ p_dobby s -> p_tt s w <= M) -> p_clock s <= p_clock s' /\ forall w, w ∈ p_dobby s' -> w ∈ p_dobby s /\ p_tt s' w <= M.
Proof.
  intros K R [H N] D. assert (DD : forall w, w ∈ p_dobby s -> w ∈ p_dobby s /\ p_tt s w <= M) by auto.
  destruct H; try (destruct N; fail); unfold new_worker; cbn; try noisy K; try (split; [lia|exact DD]).
  - match goal with H : p_gor s ?g = _ |- _ => specialize (R g); unfold rest in R; rewrite H in R; destruct R end.
  - match goal with H : p_gor s ?g = _ |- _ => specialize (R g); unfold rest in R; rewrite H in R; destruct R end.
  - split; [lia|]. intros w Hw. apply DD. rewrite <- (take_drop n (p_dobby s)). apply elem_of_app. auto.
  - split; [lia|]. intros w' Hw. rewrite tset_ne; [apply DD; exact Hw|]. intros ->.
    apply (a_dobby s (k_p s K) (calm_max s K)) in Hw. assert (X : p_own s w = OClosing) by (apply (a_closing s (k_p s K)); match goal with E : p_col s = _ |- _ => rewrite E end; reflexivity). congruence.
Qed.
Lemma collect_all tts now : (forall x, x ∈ tts -> x < now) -> collect_count tts now = length tts.
Proof.
  intros H. unfold collect_count. destruct (bsearch_spec now tts (length tts) 0 (length tts)) as (K1 & K2 & K3); try lia.
  set (k := bsearch _ _ _ _ _) in *. destruct K3 as [K3|K3]; [exact K3|]. destruct (decide (k = length tts)) as [->|N]; [reflexivity|exfalso].
  specialize (H (nth k tts 0)). assert (X : nth k tts 0 ∈ tts) by (apply elem_of_list_In, nth_In; lia). specialize (H X). lia.
Qed.

Section calm.
Context (idle : Z) (s0 : pstate) (e : nat -> pstate) (ls : nat -> option plab).
Context (K0 : calm s0) (E : execution (p_go idle) s0 e ls) (F : pool_fair idle e).
Local Notation rch s := (reach s0 (p_go idle) s).
Lemma lcalm s : rch s -> calm s.
Proof using K0. revert s. apply reach_invariant; [exact K0|]. intros s l s' K H. exact (calm_step idle s l s' K H). Qed.
Lemma ecalm i : calm (e i).
Proof using K0 E. apply lcalm. exact (exec_reach _ _ _ _ E i). Qed.
(** progress of goroutine g *)
Lemma cg_leads (R Q : pstate -> Prop) g i : R (e i) ->
  (forall s l s', calm s -> R s -> p_go idle s l s' -> R s' /\ p_gor s' g = p_gor s g \/ Q s') ->
  (forall s, calm s -> R s -> exists l s', p_step idle s l s' /\ (match l with LCall _ | LStop _ => False | _ => True end) /\ p_gor s' g <> p_gor s g) ->
  exists j, (i <= j)%nat /\ Q (e j).
Proof using K0 E F.
  intros H K C. refine (leads_weak _ _ e ls E (p_go idle) (fun s => p_gor s g) R Q (f_gor _ _ F g) _ _ i H).
  - intros s l s' Rs HR HS. exact (K s l s' (lcalm s Rs) HR HS).
  - intros s Rs HR. destruct (C s (lcalm s Rs) HR) as (l & s' & HS & N & M). exact (can_go idle (fun s => p_gor s g) s l s' HS N M).
Qed.
Lemma clock_leads i g w c : p_gor (e i) g = GLock w c -> exists j, (i <= j)%nat /\ rest g (e j).
Proof using K0 E F.
  intros G. refine (cg_leads (fun s => p_gor s g = GLock w c) (rest g) g i G _ _).
  - intros s l s' K Gs HS. destruct (calm_gor idle s l s' g K HS) as [X|X]; rewrite Gs in X; [left; split; congruence|right].
    destruct X as [X1 X2]. unfold rest. rewrite X1, X2. destruct (p_buf s c) as [t|] eqn:B; [exfalso|reflexivity].
    destruct (a_buf s (k_p s K) c t B) as (w0 & O & Q). assert (B1 : busy (p_gor s g) = Some (w, c)) by (rewrite Gs; reflexivity).
    pose proof (a_busy s (k_p s K) g w c B1) as O1. rewrite (a_inj s (k_p s K) _ _ _ O O1) in Q.
    assert (X : p_own s w = OWork g) by (apply (a_work s (k_p s K)); eauto). congruence.
  - intros s K Gs. eexists _, _. split; [eapply (ps_free idle s g); [exact Gs|exact (calm_max s K)]|]. split; [exact I|]. cbn. rewrite tset_eq. congruence.
Qed.
Lemma cfree_leads i g w c : p_gor (e i) g = GFree w c -> exists j, (i <= j)%nat /\ rest g (e j).
Proof using K0 E F.
  intros G. destruct (cg_leads (fun s => p_gor s g = GFree w c) (fun s => p_gor s g = GLock w c) g i G) as (j & Hj & J).
  - intros s l s' K Gs HS. destruct (calm_gor idle s l s' g K HS) as [X|X]; rewrite Gs in X; [left; split; congruence|right; exact X].
  - intros s K Gs. eexists _, _. split; [eapply (ps_tt idle s g); exact Gs|]. split; [exact I|]. cbn. rewrite tset_eq. congruence.
  - destruct (clock_leads j g w c J) as (k & Hk & X). exists k. split; [lia|exact X].
Qed.
Lemma chandle_leads i g w c t : p_gor (e i) g = GHandle w c t -> exists j, (i <= j)%nat /\ rest g (e j).
Proof using K0 E F.
  intros G. destruct (cg_leads (fun s => p_gor s g = GHandle w c t) (fun s => p_gor s g = GFree w c) g i G) as (j & Hj & J).
  - intros s l s' K Gs HS. destruct (calm_gor idle s l s' g K HS) as [X|X]; rewrite Gs in X; [left; split; congruence|right; exact X].
  - intros s K Gs. eexists _, _. split; [eapply (ps_handled idle s g); exact Gs|]. split; [exact I|]. cbn. rewrite tset_eq. congruence.
  - destruct (cfree_leads j g w c J) as (k & Hk & X). exists k. split; [lia|exact X].
Qed.
Lemma crecv_leads i g w c : p_gor (e i) g = GRecv w c -> exists j, (i <= j)%nat /\ rest g (e j).
Proof using K0 E F.
  intros G. destruct (p_buf (e i) c) as [t0|] eqn:B; [|exists i; split; [lia|]; unfold rest; rewrite G; exact B].
  destruct (cg_leads (fun s => p_gor s g = GRecv w c /\ p_buf s c <> None) (fun s => rest g s \/ exists t, p_gor s g = GHandle w c t) g i) as (j & Hj & [J|[t J]]).
  - split; [exact G|congruence].
  - intros s l s' K [Gs Bs] HS. destruct (calm_gor idle s l s' g K HS) as [X|X]; rewrite Gs in X.
    + destruct (p_buf s' c) as [t|] eqn:B'; [left; split; [split; [exact X|congruence]|congruence]|right; left]. unfold rest. rewrite X. exact B'.
    + right. destruct X as [X|(_ & _ & X)]; [right; exact X|left; unfold rest; rewrite X; exact I].
  - intros s K [Gs Bs]. destruct (p_buf s c) as [t|] eqn:Bt; [|congruence]. eexists _, _. split; [eapply (ps_recv idle s g); eassumption|]. split; [exact I|]. cbn. rewrite tset_eq. congruence.
  - exists j. auto.
  - destruct (chandle_leads j g w c t J) as (k & Hk & X). exists k. split; [lia|exact X].
Qed.
Lemma rest_leads g i : exists j, (i <= j)%nat /\ rest g (e j).
Proof using K0 E F.
  destruct (p_gor (e i) g) as [|w|w|w c|w c t|w c|w c| |] eqn:G; try (exists i; split; [lia|]; unfold rest; rewrite G; exact I).
  - destruct (cg_leads (fun s => p_gor s g = GStart w) (fun s => exists c, p_gor s g = GRecv w c) g i G) as (j & Hj & [c J]).
    + intros s l s' K Gs HS. destruct (calm_gor idle s l s' g K HS) as [X|X]; rewrite Gs in X; [left; split; congruence|right; exact X].
    + intros s K Gs. assert (U : usable (p_own s w) = true) by (destruct (e_start s (k_e s K) g w Gs) as [[t U]|U]; rewrite U; reflexivity).
      destruct (a_open s (k_p s K) w U) as (c & O & _). eexists _, _. split; [eapply (ps_start idle s g); eassumption|]. split; [exact I|]. cbn. rewrite tset_eq. congruence.
    + destruct (crecv_leads j g w c J) as (k & Hk & X). exists k. split; [lia|exact X].
  - destruct (e_nil _ (k_e _ (ecalm i)) g w G).
  - exact (crecv_leads i g w c G).
  - exact (chandle_leads i g w c t G).
  - exact (cfree_leads i g w c G).
  - exact (clock_leads i g w c G).
Qed.
Lemma rest_keeps g i j : (i <= j)%nat -> rest g (e i) -> rest g (e j).
Proof using K0 E.
  intros Hij H. refine (always _ _ e ls E (rest g) _ i H j Hij). intros s l s' Rs R HS. exact (rest_step idle s l s' g (lcalm s Rs) HS R).
Qed.
Lemma ng_calm i j : (i <= j)%nat -> p_ng (e j) = p_ng (e i).
Proof using K0 E.
  intros Hij. refine (always _ _ e ls E (fun s => p_ng s = p_ng (e i)) _ i eq_refl j Hij). intros s l s' Rs N0 [HS N].
  pose proof (lcalm s Rs) as K. destruct HS; try (destruct N; fail); unfold new_worker; cbn; try exact N0; noisy K.
Qed.
Lemma all_rest : exists j, resting (e j).
Proof using K0 E F.
  destruct (eventually_all e (fun g s => rest g s) (p_ng (e 0%nat)) 0) as (j & _ & Q).
  - intros g _ j _. exact (rest_leads g j).
  - intros g j k _ Hjk R. exact (rest_keeps g j k Hjk R).
  - exists j. intros g. destruct (decide (g < p_ng (e 0%nat))%nat) as [L|L]; [exact (Q g L)|].
    unfold rest. rewrite (a_gor _ (k_p _ (ecalm j))); [exact I|]. rewrite (ng_calm 0 j) by lia. lia.
Qed.
(** the collector comes back to its select *)
Lemma cc_leads (a b : cpc) i : p_col (e i) = a -> a <> b ->
  (forall s l s', calm s -> p_col s = a -> p_step idle s l s' -> p_col s' = a \/ p_col s' = b) ->
  (forall s, calm s -> p_col s = a -> exists l s', p_go idle s l s' /\ p_col s' = b) ->
  exists j, (i <= j)%nat /\ p_col (e j) = b.
Proof using K0 E F.
  intros H N K C. refine (leads_weak _ _ e ls E (p_go idle) p_col (fun s => p_col s = a) (fun s => p_col s = b) (f_col _ _ F) _ _ i H).
  - intros s l s' R Ha [HS _]. destruct (K s l s' (lcalm s R) Ha HS) as [?|?]; [left; split; congruence|right; assumption].
  - intros s R Ha. destruct (C s (lcalm s R) Ha) as (l & s' & G & Hb). exists l, s'. split; [exact G|congruence].
Qed.
Lemma cdrain_leads ws : forall i, p_col (e i) = CDrain ws \/ (exists w, p_col (e i) = CNil w ws) \/ (exists w, p_col (e i) = CPut w ws) -> exists j, (i <= j)%nat /\ p_col (e j) = CWait.
Proof using K0 E F.
  assert (X : forall ws i w, p_col (e i) = CNil w ws -> exists j, (i <= j)%nat /\ p_col (e j) = CPut w ws).
  { intros ws0 i w H. refine (cc_leads (CNil w ws0) (CPut w ws0) i H ltac:(discriminate) _ _).
    - intros s l s' K Hc HS. pose proof (col_step idle s l s' (k_p s K) HS) as X. rewrite Hc in X. destruct X; auto.
    - intros s K Hc. eexists _, _. split; [split; [eapply (ps_nil idle s); exact Hc|exact I]|reflexivity]. }
  assert (Y : forall ws i w, p_col (e i) = CPut w ws -> exists j, (i <= j)%nat /\ p_col (e j) = CDrain ws).
  { intros ws0 i w H. refine (cc_leads (CPut w ws0) (CDrain ws0) i H ltac:(discriminate) _ _).
    - intros s l s' K Hc HS. pose proof (col_step idle s l s' (k_p s K) HS) as Z. rewrite Hc in Z. destruct Z; auto.
    - intros s K Hc. eexists _, _. split; [split; [eapply (ps_put idle s); exact Hc|exact I]|reflexivity]. }
  assert (Z : forall ws i, p_col (e i) = CDrain ws -> exists j, (i <= j)%nat /\ p_col (e j) = CWait).
  { induction ws0 as [|w ws0 IH]; intros i H.
    - refine (cc_leads (CDrain []) CWait i H ltac:(discriminate) _ _).
      + intros s l s' K Hc HS. pose proof (col_step idle s l s' (k_p s K) HS) as Z. rewrite Hc in Z. destruct Z; auto.
      + intros s K Hc. eexists _, _. split; [split; [apply (ps_drained idle s Hc)|exact I]|reflexivity].
    - destruct (cc_leads (CDrain (w :: ws0)) (CNil w ws0) i H ltac:(discriminate)) as (j & Hj & J).
      { intros s l s' K Hc HS. pose proof (col_step idle s l s' (k_p s K) HS) as Z. rewrite Hc in Z. destruct Z; auto. }
      { intros s K Hc. pose proof (k_p s K) as A. assert (O : p_own s w = OCol) by (apply (a_col s A); rewrite Hc; left).
        destruct (a_open s A w ltac:(rewrite O; reflexivity)) as (c & O1 & O2).
        eexists _, _. split; [split; [eapply (ps_close idle s); eassumption|exact I]|reflexivity]. }
      destruct (X _ _ _ J) as (k & Hk & J2). destruct (Y _ _ _ J2) as (m & Hm & J3). destruct (IH m J3) as (p & Hp & J4). exists p. split; [lia|exact J4]. }
  intros i [H|[[w H]|[w H]]].
  - exact (Z ws i H).
  - destruct (X _ _ _ H) as (k & Hk & J2). destruct (Y _ _ _ J2) as (m & Hm & J3). destruct (Z ws m J3) as (p & Hp & J4). exists p. split; [lia|exact J4].
  - destruct (Y _ _ _ H) as (m & Hm & J3). destruct (Z ws m J3) as (p & Hp & J4). exists p. split; [lia|exact J4].
Qed.
Lemma wait_leads i : exists j, (i <= j)%nat /\ p_col (e j) = CWait.
Proof using K0 E F.
  pose proof (k_col _ (ecalm i)) as H. destruct (p_col (e i)) as [|ws|w ws|w ws| | |] eqn:C; try (destruct H; fail); [exists i; auto| | |];
  apply (cdrain_leads ws i); eauto.
Qed.
(** all the idle workers have been idle for longer than the time-out *)
Record ripe (M : Z) (s : pstate) : Prop := { r_rest : resting s; r_tt : forall w, w ∈ p_dobby s -> p_tt s w <= M; r_clock : M + idle < p_clock s }.
Lemma ripe_step M s l s' : calm s -> ripe M s -> p_go idle s l s' -> ripe M s'.
Proof.
  intros K [R T C] H. destruct (rest_dobby idle s l s' M K R H T) as [C' T']. constructor; [|intros w Hw; apply T'; exact Hw|lia].
  intros g. exact (rest_step idle s l s' g K H (R g)).
Qed.
Definition bare (s : pstate) : Prop := resting s /\ p_dobby s = [].
Lemma bare_step s l s' : calm s -> bare s -> p_go idle s l s' -> bare s'.
Proof.
  intros K [R D] H. split; [intros g; exact (rest_step idle s l s' g K H (R g))|].
  destruct (rest_dobby idle s l s' 0 K R H) as [_ T]; [intros w Hw; rewrite D in Hw; inversion Hw|].
  destruct (p_dobby s') as [|w d]; [reflexivity|]. destruct (T w ltac:(left)) as [Hw _]. rewrite D in Hw. inversion Hw.
Qed.
Lemma ripe_leads M i : ripe M (e i) -> exists j, (i <= j)%nat /\ bare (e j).
Proof using K0 E F.
  intros H. destruct (wait_leads i) as (j & Hj & C).
  assert (Rj : ripe M (e j)) by (refine (always _ _ e ls E (ripe M) _ i H j Hj); intros s l s' Rs R HS; exact (ripe_step M s l s' (lcalm s Rs) R HS)).
  destruct (leads_weak _ _ e ls E (p_go idle) p_col (fun s => ripe M s /\ p_col s = CWait) bare (f_col _ _ F)) with (i := j) as (k & Hk & X).
  - intros s l s' Rs [R Cs] HS. pose proof (lcalm s Rs) as K. pose proof (ripe_step M s l s' K R HS) as R'.
    destruct HS as [HS N]. destruct HS; try (destruct N; fail); unfold new_worker in *; cbn in *; try congruence; try (left; split; [split; assumption|reflexivity]); try noisy K.
    right. split; [exact (r_rest M _ R')|]. cbn. replace n with (length (p_dobby s)); [apply drop_all|].
    subst n. rewrite collect_all, map_length; [reflexivity|]. intros x Hx. apply elem_of_list_In, in_map_iff in Hx as (w & <- & Hw). apply elem_of_list_In in Hw.
    pose proof (r_tt M s R w Hw). pose proof (r_clock M s R). lia.
  - intros s Rs [R Cs]. eapply can_go; [eapply (ps_tick idle s); [exact Cs|exact (calm_max s (lcalm s Rs))|reflexivity]|exact I|]. cbn. congruence.
  - auto.
  - exists k. split; [lia|exact X].
Qed.
(** no idle workers, and none in the hands of the collector *)
Definition empty (s : pstate) : Prop := bare s /\ (p_col s = CWait \/ p_col s = CDrain []).
Lemma empty_step s l s' : calm s -> empty s -> p_go idle s l s' -> empty s'.
Proof.
  intros K [B C] H. split; [exact (bare_step s l s' K B H)|]. destruct B as [_ D]. destruct H as [H N].
  destruct H; try (destruct N; fail); unfold new_worker; cbn; try exact C; try noisy K; try (destruct C; congruence).
  - right. rewrite D, take_nil. reflexivity.
  - left. reflexivity.
Qed.
Lemma empty_closed s g w c : calm s -> empty s -> p_gor s g = GRecv w c -> p_closed s c = true /\ p_buf s c = None.
Proof.
  intros K [[R D] C] G. assert (B : p_buf s c = None) by (specialize (R g); unfold rest in R; rewrite G in R; exact R). split; [|exact B].
  destruct (p_closed s c) eqn:Cl; [reflexivity|exfalso]. pose proof (k_p s K) as A.
  pose proof (e_open s (k_e s K) g w c G Cl) as Ow. destruct (a_recv s A g w c G) as [_ [O|O]]; [|congruence].
  destruct (p_own s w) as [| |t| | | | |] eqn:Own; try discriminate.
  - apply (a_dobby s A (calm_max s K)) in Own. rewrite D in Own. inversion Own.
  - apply (a_run s A) in Own. noisy K.
  - destruct (a_queued s A w Own) as (c' & t & O' & B'). congruence.
  - apply (a_col s A) in Own. destruct C as [C|C]; rewrite C in Own; inversion Own.
Qed.
Definition ended (g : nat) (s : pstate) : Prop := live (p_gor s g) = 0.
Lemma empty_leads i g : empty (e i) -> exists j, (i <= j)%nat /\ ended g (e j).
Proof using K0 E F.
  intros H. assert (X : forall i, p_gor (e i) g = GExit -> exists j, (i <= j)%nat /\ ended g (e j)).
  { intros i0 G. refine (cg_leads (fun s => p_gor s g = GExit) (ended g) g i0 G _ _).
    - intros s l s' K Gs HS. destruct (calm_gor idle s l s' g K HS) as [X|X]; rewrite Gs in X; [left; split; congruence|right; unfold ended; rewrite X; reflexivity].
    - intros s K Gs. eexists _, _. split; [eapply (ps_exit idle s g); exact Gs|]. split; [exact I|]. cbn. rewrite tset_eq. congruence. }
  pose proof (proj1 (proj1 H) g) as R. unfold rest in R. destruct (p_gor (e i) g) as [|w|w|w c|w c t|w c|w c| |] eqn:G; try (destruct R; fail).
  - exists i. split; [lia|]. unfold ended. rewrite G. reflexivity.
  - destruct (cg_leads (fun s => empty s /\ p_gor s g = GRecv w c) (fun s => p_gor s g = GExit) g i (conj H G)) as (j & Hj & J).
    + intros s l s' K [Em Gs] HS. destruct (empty_closed s g w c K Em Gs) as [Cl B]. pose proof (empty_step s l s' K Em HS) as Em'.
      destruct (calm_gor idle s l s' g K HS) as [Y|Y]; rewrite Gs in Y; [left; split; [split; assumption|congruence]|].
      destruct Y as [[t Y]|(_ & _ & Y)]; [exfalso|right; exact Y]. pose proof (proj1 (proj1 Em') g) as R'. unfold rest in R'. rewrite Y in R'. exact R'.
    + intros s K [Em Gs]. destruct (empty_closed s g w c K Em Gs) as [Cl B]. eexists _, _. split; [eapply (ps_range_end idle s g); eassumption|]. split; [exact I|]. cbn. rewrite tset_eq. congruence.
    + destruct (X j J) as (k & Hk & Y). exists k. split; [lia|exact Y].
  - exact (X i G).
  - exists i. split; [lia|]. unfold ended. rewrite G. reflexivity.
Qed.
Lemma ended_keeps g i j : (i <= j)%nat -> ended g (e i) -> ended g (e j).
Proof using K0 E.
  intros Hij H. refine (always _ _ e ls E (ended g) _ i H j Hij). intros s l s' Rs L HS. unfold ended in *.
  destruct (calm_gor idle s l s' g (lcalm s Rs) HS) as [X|X]; [rewrite X; exact L|]. destruct (p_gor s g); cbn in *; congruence || destruct X.
Qed.
Lemma shrinks : (forall x, exists i, x <= p_clock (e i)) -> exists j, forall k, (j <= k)%nat -> p_dobby (e k) = [] /\ forall g, ended g (e k).
Proof using K0 E F.
  intros CL. destruct all_rest as (j0 & R0).
  assert (MX : exists M, forall w, w ∈ p_dobby (e j0) -> p_tt (e j0) w <= M).
  { induction (p_dobby (e j0)) as [|w d [M IH]]; [exists 0; intros w Hw; inversion Hw|]. exists (Z.max (p_tt (e j0) w) M). intros v Hv. apply elem_of_cons in Hv as [->|Hv]; [lia|]. specialize (IH v Hv). lia. }
  destruct MX as [M MX]. destruct (CL (M + idle + 1)) as [i1 H1].
  assert (RT : forall j, (j0 <= j)%nat -> resting (e j) /\ (forall w, w ∈ p_dobby (e j) -> p_tt (e j) w <= M)).
  { intros j Hj. refine (always _ _ e ls E (fun s => resting s /\ (forall w, w ∈ p_dobby s -> p_tt s w <= M)) _ j0 (conj R0 MX) j Hj).
    intros s l s' Rs [R T] HS. pose proof (lcalm s Rs) as K. split; [intros g; exact (rest_step idle s l s' g K HS (R g))|].
    intros w Hw. apply (rest_dobby idle s l s' M K R HS T). exact Hw. }
  assert (CK : forall j, (i1 <= j)%nat -> M + idle + 1 <= p_clock (e j)).
  { intros j Hj. refine (always _ _ e ls E (fun s => M + idle + 1 <= p_clock s) _ i1 H1 j Hj). intros s l s' Rs C [HS N]. destruct HS; cbn in *; lia. }
  destruct (RT (j0 `max` i1)%nat ltac:(lia)) as [R2 T2]. pose proof (CK (j0 `max` i1)%nat ltac:(lia)) as C2.
  destruct (ripe_leads M (j0 `max` i1)) as (j3 & _ & B3); [constructor; [exact R2|exact T2|lia]|].
  destruct (wait_leads j3) as (j4 & H4 & C4).
  assert (B4 : bare (e j4)) by (refine (always _ _ e ls E bare _ j3 B3 j4 H4); intros s l s' Rs B HS; exact (bare_step s l s' (lcalm s Rs) B HS)).
  assert (EM : forall j, (j4 <= j)%nat -> empty (e j)).
  { intros j Hj. refine (always _ _ e ls E empty _ j4 (conj B4 (or_introl C4)) j Hj). intros s l s' Rs B HS. exact (empty_step s l s' (lcalm s Rs) B HS). }
  destruct (eventually_all e ended (p_ng (e 0%nat)) j4) as (j5 & H5 & Q).
  - intros g _ j Hj. exact (empty_leads j g (EM j Hj)).
  - intros g j k _ Hjk X. exact (ended_keeps g j k Hjk X).
  - exists j5. intros k Hk. split; [apply (EM k); lia|]. intros g. apply (ended_keeps g j5 k Hk). destruct (decide (g < p_ng (e 0%nat))%nat) as [L|L]; [exact (Q g L)|].
    unfold ended. rewrite (a_gor _ (k_p _ (ecalm j5))); [reflexivity|]. rewrite (ng_calm 0 j5) by lia. lia.
Qed.
End calm.
