(** C128: the plain fields of a TimedPool that are accessed outside its mutex:
    w.ch and w.tt of the workers, and pool.stop. *)
From Verif Require Import Base Conc RaceSpec PoolModel PoolProofs PoolProofs2 PoolProofs3.
Local Open Scope Z.

Inductive agent := ARun (t : nat) | AWork (g : nat) | ACol | AStop (u : nat).
Inductive place := PCh (w : nat) | PTt (w : nat) | PStop.
Section acc.
(** the goroutines that call Stop *)
Context (stoppers : nat -> Prop).
Inductive pool_acc (s : pstate) : agent -> place -> bool -> bool -> Prop :=
(* 162, under mu: w.ch = make(chan T, 1), of a worker from the sync.Pool or a new one *)
| pa_make t w : p_job s t = JLock -> p_max s <> -1 -> p_dobby s = [] -> p_workers s < p_max s -> w ∈ p_pool s \/ w = p_nobj s ->
    pool_acc s (ARun t) (PCh w) true true
(* 171 *)
| pa_send t w : p_job s t = JSend w -> pool_acc s (ARun t) (PCh w) false false
(* 33 *)
| pa_range g w : p_gor s g = GStart w -> pool_acc s (AWork g) (PCh w) false false
(* 132 *)
| pa_tt g w c : p_gor s g = GFree w c -> pool_acc s (AWork g) (PTt w) true false
(* 113: the select evaluates pool.stop *)
| pa_select : p_col s = CWait -> pool_acc s ACol PStop false false
(* 89 and 76, under mu *)
| pa_tick w : p_col s = CWait -> p_max s <> -1 -> w ∈ p_dobby s -> pool_acc s ACol (PTt w) false true
| pa_close_all w : p_col s = CWait -> p_max s = -1 -> w ∈ p_dobby s -> pool_acc s ACol (PCh w) false true
(* 105 *)
| pa_close w ws : p_col s = CDrain (w :: ws) -> pool_acc s ACol (PCh w) false false
(* 106, 107 *)
| pa_zero w ws : p_col s = CNil w ws -> pool_acc s ACol (PTt w) true false
| pa_nil w ws : p_col s = CNil w ws -> pool_acc s ACol (PCh w) true false
(* 117, under mu *)
| pa_stop w : p_col s = CStop -> w ∈ p_dobby s -> pool_acc s ACol (PCh w) false true
(* 208, 211, 212 *)
| pa_stop1 u : stoppers u -> p_st s u = SIdle -> pool_acc s (AStop u) PStop false false
| pa_stop2 u : p_st s u = SAgain -> pool_acc s (AStop u) PStop false false
| pa_stop3 u : p_st s u = SNil -> pool_acc s (AStop u) PStop true false.
End acc.
(** only [stoppers] call Stop *)
Definition p_step_by (stoppers : nat -> Prop) (idle : Z) (s : pstate) (l : plab) (s' : pstate) : Prop :=
  p_step idle s l s' /\ forall u, l = LStop u -> stoppers u.


(** *** pool.stop *)
Definition col_alive (p : cpc) : Prop := match p with CStop | CDead | CPanic => False | _ => True end.
Record stinv (P : nat -> Prop) (s : pstate) : Prop := {
  s_by : forall u, p_st s u <> SIdle -> P u;
  s_col : forall u, p_st s u = SNil -> ~ col_alive (p_col s);
  s_uniq : forall u v, p_st s u = SNil -> p_st s v = SNil -> u = v }.
Lemma stinv_step P idle s l s' : stinv P s -> p_step_by P idle s l s' -> stinv P s'.
Proof.
  intros [B C U] [H HP].
  assert (K : forall u p, P u -> (p <> SNil) -> p_st s' = tset (p_st s) u p -> p_col s' = p_col s -> stinv P s').
  { intros u p Pu Np Es Ec. constructor; rewrite ?Es, ?Ec.
    - intros v. destruct (tset_cases (p_st s) u p v) as [[-> ->]|[_ ->]]; [intros _; exact Pu|apply B].
    - intros v. destruct (tset_cases (p_st s) u p v) as [[-> ->]|[_ ->]]; [congruence|apply C].
    - intros v v'. destruct (tset_cases (p_st s) u p v) as [[-> ->]|[_ ->]]; [congruence|].
      destruct (tset_cases (p_st s) u p v') as [[-> ->]|[_ ->]]; [congruence|apply U]. }
  assert (K' : p_st s' = p_st s -> (col_alive (p_col s') -> col_alive (p_col s)) -> stinv P s').
  { intros Es Ec. constructor; rewrite ?Es; [exact B| |exact U]. intros u Hu Ha. exact (C u Hu (Ec Ha)). }
  destruct H; try (apply K'; [reflexivity|cbn; first [tauto|repeat match goal with E : p_col _ = _ |- _ => rewrite E end; cbn; tauto]]).
  - (* meet *) constructor; cbn.
    + intros v. destruct (tset_cases (p_st s) u SNil v) as [[-> ->]|[_ ->]]; [intros _; apply B; congruence|apply B].
    + intros _ _ [].
    + intros v v'. destruct (tset_cases (p_st s) u SNil v) as [[-> _]|[_ ->]], (tset_cases (p_st s) u SNil v') as [[-> _]|[_ ->]]; intros Hv Hv'.
      * reflexivity.
      * exfalso. apply (C v' Hv'). match goal with E : p_col _ = _ |- _ => rewrite E end. exact I.
      * exfalso. apply (C v Hv). match goal with E : p_col _ = _ |- _ => rewrite E end. exact I.
      * exact (U v v' Hv Hv').
  - eapply (K u); [exact (HP u eq_refl)| |reflexivity|reflexivity]. destruct (p_stop s); discriminate.
  - eapply (K u); [apply B; congruence| |reflexivity|reflexivity]. destruct (p_stop s); discriminate.
  - eapply (K u SDone); [apply B; congruence|discriminate|reflexivity|reflexivity].
Qed.
Lemma stinv_reach P maxw n tts clock idle s : reach (p_init maxw n tts clock) (p_step_by P idle) s -> stinv P s.
Proof. apply reach_invariant; [constructor; cbn; congruence|intros; eapply stinv_step; eassumption]. Qed.
Lemma by_reach P maxw n tts clock idle s : reach (p_init maxw n tts clock) (p_step_by P idle) s -> reach (p_init maxw n tts clock) (p_step idle) s.
Proof. apply reach_invariant; [apply reach_refl|]. intros a l b R [H _]. eapply reach_snoc; eassumption. Qed.

(** pool.stop races exactly if one Stop is about to clear it while another one is
    about to read it; never with the collector *)
Theorem pool_stop_race_exact P maxw n tts clock idle s : reach (p_init maxw n tts clock) (p_step_by P idle) s ->
  race (pool_acc P) s PStop <-> exists u v, u <> v /\ p_st s u = SNil /\ (p_st s v = SAgain \/ P v /\ p_st s v = SIdle).
Proof.
  intros R. pose proof (stinv_reach _ _ _ _ _ _ _ R) as [B C U]. split.
  - intros (i & j & wi & wj & li & lj & N & A1 & A2 & W & _).
    assert (G : forall i' j' w', i' <> j' -> pool_acc P s i' PStop true false -> pool_acc P s j' PStop w' false ->
      exists u v, u <> v /\ p_st s u = SNil /\ (p_st s v = SAgain \/ P v /\ p_st s v = SIdle)).
    { intros i' j' w' N' A B'. inversion A as [| | | | | | | | | | | | |u Hu]; subst. inversion B' as [| | | |Hc| | | | | | |v Pv Hv|v Hv|v Hv]; subst.
      - destruct (C u Hu). rewrite Hc. exact I.
      - exists u, v. split; [congruence|auto].
      - exists u, v. split; [congruence|auto].
      - destruct N'. f_equal. exact (U u v Hu Hv). }
    assert (L : forall i' w' l', pool_acc P s i' PStop w' l' -> l' = false) by (intros i' w' l' A; inversion A; reflexivity).
    pose proof (L _ _ _ A1) as ->. pose proof (L _ _ _ A2) as ->. destruct wi; [eapply G; eassumption|]. destruct wj; [|discriminate].
    eapply (G j i); [congruence|eassumption|eassumption].
  - intros (u & v & N & Hu & [Hv|[Pv Hv]]).
    + exists (AStop u), (AStop v), true, false, false, false. repeat split; [congruence|apply pa_stop3; exact Hu|apply pa_stop2; exact Hv].
    + exists (AStop u), (AStop v), true, false, false, false. repeat split; [congruence|apply pa_stop3; exact Hu|apply pa_stop1; [exact Pv|exact Hv]].
Qed.
Print Assumptions pool_stop_race_exact.
(** so not if one goroutine only calls Stop ... *)
Theorem pool_stop_race_free_partial u0 maxw n tts clock idle s : reach (p_init maxw n tts clock) (p_step_by (eq u0) idle) s ->
  ~ race (pool_acc (eq u0)) s PStop.
Proof.
  intros R. rewrite (pool_stop_race_exact _ _ _ _ _ _ _ R). intros (u & v & N & Hu & Hv). pose proof (stinv_reach _ _ _ _ _ _ _ R) as [B _ _].
  apply N. transitivity u0; [symmetry; apply B; congruence|]. destruct Hv as [Hv|[Hv _]]; [apply B; congruence|exact Hv].
Qed.
Print Assumptions pool_stop_race_free_partial.

(** *** w.ch and w.tt *)
Lemma start_lt idle maxw n tts clock s : reach (p_init maxw n tts clock) (p_step idle) s -> 0 < maxw ->
  forall g w, p_gor s g = GStart w -> (w < p_nobj s)%nat.
Proof.
  intros R Hm. cut (pinv s /\ forall g w, p_gor s g = GStart w -> (w < p_nobj s)%nat); [tauto|].
  revert s R. apply reach_invariant.
  - split; [apply pinv_init; exact Hm|]. intros g w. cbn. case_decide; [|discriminate]. intros [= <-]. assumption.
  - intros s l s' [A D] H. split; [eapply pinv_step; eassumption|]. intros g' w'.
    destruct H; try exact (D g' w'); unfold new_worker; cbn.
    all: try (match goal with |- tset _ ?g ?p _ = _ -> _ => destruct (tset_cases (p_gor s) g p g') as [[-> ->]|[_ ->]]; [|try exact (D g' w')] end; try discriminate).
    + intros [= <-]. lia.
    + intros G. pose proof (D g' w' G). lia.
    + intros [= <-]. apply (a_pool s A). match goal with E : p_pool s = _ |- _ => rewrite E end. apply elem_of_app. right. left.
Qed.

(** the fields of a worker race exactly if a goroutine has not yet evaluated w.ch
    in its range loop while the collector, or a Run that gets w from the pool, is
    about to assign it *)
Theorem pool_worker_race_exact P maxw n tts clock idle s w : 0 < maxw -> reach (p_init maxw n tts clock) (p_step idle) s ->
  ~ race (pool_acc P) s (PTt w) /\
  (race (pool_acc P) s (PCh w) <-> (exists g, p_gor s g = GStart w) /\
    ((exists ws, p_col s = CNil w ws) \/
     (exists t, p_job s t = JLock) /\ p_max s <> -1 /\ p_dobby s = [] /\ p_workers s < p_max s /\ w ∈ p_pool s)).
Proof.
  intros Hm R. pose proof (pinv_reach idle maxw n tts clock s Hm R) as A. pose proof (start_lt idle maxw n tts clock s R Hm) as SL.
  assert (D : forall v, w = v -> p_max s <> -1 -> v ∈ p_dobby s -> p_own s w = ODobby) by (intros v -> M I; apply (a_dobby s A M); exact I).
  assert (F : w ∈ p_pool s \/ w = p_nobj s -> p_own s w = OFree).
  { intros [I|I]; [apply (a_pool s A) in I; tauto|apply (a_new s A); lia]. }
  assert (CN : forall ws, p_col s = CNil w ws -> p_own s w = OClosing) by (intros ws Hc; apply (a_closing s A); rewrite Hc; reflexivity).
  assert (CD : forall ws, p_col s = CDrain (w :: ws) -> p_own s w = OCol) by (intros ws Hc; apply (a_col s A); rewrite Hc; left).
  assert (GF : forall g c, p_gor s g = GFree w c -> p_own s w = OWork g) by (intros g c Hg; apply (a_work s A); exists c; rewrite Hg; reflexivity).
  assert (NM : p_max s = -1 -> p_col s = CDead) by apply (a_max s A).
  assert (MN : p_col s = CStop -> p_max s <> -1) by (intros Hc M; specialize (NM M); congruence).
  split; [|split].
  - intros (i & j & wi & wj & li & lj & N & A1 & A2 & W & L).
    inversion A1; subst; inversion A2; subst; try discriminate; try congruence.
    all: try (pose proof (GF _ _ ltac:(eassumption))); try (pose proof (CN _ ltac:(eassumption))); try (pose proof (D w eq_refl ltac:(assumption) ltac:(assumption))); try congruence.
    match goal with H1 : p_gor s ?g = GFree _ _, H2 : p_gor s ?g' = GFree _ _ |- _ => pose proof (GF _ _ H1); pose proof (GF _ _ H2); congruence end.
  - intros (i & j & wi & wj & li & lj & N & A1 & A2 & W & L).
    assert (G : forall i j wj li lj, i <> j -> pool_acc P s i (PCh w) true li -> pool_acc P s j (PCh w) wj lj -> li && lj = false ->
      (exists g, p_gor s g = GStart w) /\ ((exists ws, p_col s = CNil w ws) \/
        (exists t, p_job s t = JLock) /\ p_max s <> -1 /\ p_dobby s = [] /\ p_workers s < p_max s /\ w ∈ p_pool s)).
    { clear i j wi wj li lj N A1 A2 W L. intros i j wj li lj N A1 A2 L.
      inversion A1 as [t w0 J M E Wk Pl| | | | | | | | |w0 ws Cn| | | |]; subst.
      - pose proof (F Pl) as O. inversion A2; subst; try discriminate.
        + match goal with H : p_job s _ = JSend w |- _ => apply (a_run s A) in H; congruence end.
        + split; [eauto|]. right. split; [eauto|]. split; [exact M|]. split; [exact E|]. split; [exact Wk|].
          destruct Pl as [Pl| ->]; [exact Pl|]. match goal with H : p_gor s _ = GStart _ |- _ => pose proof (SL _ _ H); lia end.
        + match goal with H : p_col s = _ |- _ => pose proof (CD _ H); congruence end.
        + match goal with H : p_col s = _ |- _ => pose proof (CN _ H); congruence end.
      - pose proof (CN _ Cn) as O. inversion A2; subst; try congruence.
        + match goal with H : _ \/ _ |- _ => pose proof (F H); congruence end.
        + match goal with H : p_job s _ = JSend w |- _ => apply (a_run s A) in H; congruence end.
        + split; eauto. }
    destruct wi; [eapply G; eassumption|]. destruct wj; [|discriminate]. eapply (G j i); [congruence|eassumption|eassumption|]. rewrite andb_comm. exact L.
  - intros ((g & Hg) & [(ws & Hc)|((t & Ht) & M & E & Wk & Pl)]).
    + exists ACol, (AWork g), true, false, false, false. repeat split; [discriminate|eapply pa_nil; exact Hc|apply pa_range; exact Hg].
    + exists (ARun t), (AWork g), true, false, true, false. repeat split; [discriminate|apply pa_make; auto|apply pa_range; exact Hg].
Qed.
Print Assumptions pool_worker_race_exact.
(** ... so never without preheated workers ... *)
Theorem pool_worker_race_free_partial P maxw tts clock idle s w : 0 < maxw -> reach (p_init maxw 0 tts clock) (p_step idle) s ->
  ~ race (pool_acc P) s (PTt w) /\ ~ race (pool_acc P) s (PCh w).
Proof.
  intros Hm R. destruct (pool_worker_race_exact P maxw 0 tts clock idle s w Hm R) as [T C]. split; [exact T|]. rewrite C.
  pose proof (pinv_reach idle maxw 0 tts clock s Hm R) as A. pose proof (einv_reach idle maxw tts clock s Hm R) as E.
  intros ((g & Hg) & O). assert (Q : p_own s w = OFree \/ p_own s w = OClosing).
  { destruct O as [(ws & Hc)|(_ & _ & _ & _ & Pl)]; [right; apply (a_closing s A); rewrite Hc; reflexivity|left; apply (a_pool s A) in Pl; tauto]. }
  destruct (e_start s E g w Hg) as [[t Ht]|Ht]; destruct Q; congruence.
Qed.
Print Assumptions pool_worker_race_free_partial.
(** ... but with one preheated worker whose goroutine is late, both ways ... *)
Theorem pool_worker_race_refuted : exists s s',
  reach (p_init 1 1 (fun _ => 0) 0) (p_step 10) s /\ race (pool_acc (fun _ => True)) s (PCh 0) /\ p_col s = CNil 0 [] /\
  reach (p_init 2 1 (fun _ => 0) 0) (p_step 10) s' /\ race (pool_acc (fun _ => True)) s' (PCh 0) /\ p_col s' = CWait.
Proof.
  destruct (execs 10 (p_init 1 1 (fun _ => 0) 0) [MClock 100; MTick; MCol]) as [s|] eqn:E; [|vm_compute in E; discriminate].
  destruct (execs 10 (p_init 2 1 (fun _ => 0) 0) [MClock 100; MTick; MCol; MCol; MCol; MCol; MCall 0]) as [s'|] eqn:E'; [|vm_compute in E'; discriminate].
  assert (R : reach (p_init 1 1 (fun _ => 0) 0) (p_step 10) s) by (eapply execs_reach; [|exact E]; lia).
  assert (R' : reach (p_init 2 1 (fun _ => 0) 0) (p_step 10) s') by (eapply execs_reach; [|exact E']; lia).
  exists s, s'. split; [exact R|]. split; [|split; [|split; [exact R'|split]]].
  - apply (pool_worker_race_exact _ 1 1 (fun _ => 0) 0 10 s 0%nat ltac:(lia) R). vm_compute in E. injection E as <-. split; [exists 0%nat; reflexivity|left; eexists; reflexivity].
  - vm_compute in E. injection E as <-. reflexivity.
  - apply (pool_worker_race_exact _ 2 1 (fun _ => 0) 0 10 s' 0%nat ltac:(lia) R'). vm_compute in E'. injection E' as <-. split; [exists 0%nat; reflexivity|right].
    split; [exists 0%nat; reflexivity|]. cbn. split; [discriminate|]. split; [reflexivity|]. split; [lia|left].
  - vm_compute in E'. injection E' as <-. reflexivity.
Qed.
Print Assumptions pool_worker_race_refuted.
(** ... and two Stop calls race *)
Theorem pool_stop_race_refuted : exists s, reach (p_init 1 0 (fun _ => 0) 0) (p_step_by (fun _ => True) 10) s /\ race (pool_acc (fun _ => True)) s PStop.
Proof.
  destruct (execs 10 (p_init 1 0 (fun _ => 0) 0) [MStop 0; MStop 0; MMeet 0; MStop 1]) as [s|] eqn:E; [|vm_compute in E; discriminate].
  assert (R : reach (p_init 1 0 (fun _ => 0) 0) (p_step_by (fun _ => True) 10) s).
  { assert (R : reach (p_init 1 0 (fun _ => 0) 0) (p_step 10) s) by (eapply execs_reach; [|exact E]; lia).
    revert R. apply reach_invariant; [apply reach_refl|]. intros a l b Ra H. eapply reach_snoc; [exact Ra|]. split; [exact H|auto]. }
  exists s. split; [exact R|]. apply (pool_stop_race_exact _ _ _ _ _ _ _ R). exists 0%nat, 1%nat. split; [discriminate|].
  vm_compute in E. injection E as <-. split; [reflexivity|left; reflexivity].
Qed.
Print Assumptions pool_stop_race_refuted.
(** the states of the race-free theorems include running workers, the collector at
    work and a Stop in progress *)
Example race_free_busy_ex : option_map (fun s => (p_gor s 0%nat, p_gor s 1%nat, p_col s))
  (execs 10 (p_init 2 0 (fun _ => 0) 0) [MCall 0; MRun 0; MRun 0; MGor 0; MGor 0; MGor 0; MGor 0; MGor 0; MClock 100; MTick; MCol; MCall 1; MRun 1])
  = Some (GRecv 0 0, GStart 1, CNil 0 []).
Proof. vm_compute. reflexivity. Qed.
