(** osx/closex/closex.go: HandleKillSig with several handlers, nil loggers, and handlers that
    panic or leave. *)
From Verif Require Import Base Conc Fair SigModel SigProofs.

Section safety.
Context (lognil : nat -> bool) (hout : nat -> nat -> hres).
(** In every execution, whatever the loggers and handlers: no handler is begun more than
    twice, nor more often than signals have come; C is closed exactly when the handler has
    returned and the goroutine has come to close it; a handler with a nil logger is never begun
    and its C never closed; and one whose first run leaves by Goexit is begun once, and its C
    is never closed. *)
Theorem sig_runs tr s i : steps (s_step lognil hout) s_init tr s ->
  begins i tr <= 2 /\ begins i tr <= signals tr /\ ends i tr <= begins i tr /\
  (g_closed (s_gor s i) = true -> 1 <= ends i tr) /\
  (lognil i = true -> begins i tr = 0 /\ g_closed (s_gor s i) = false) /\
  (hout i 0 = HExit -> begins i tr <= 1 /\ ends i tr = 0 /\ g_closed (s_gor s i) = false).
Proof.
  intros H. destruct (sinv_steps lognil hout tr s H) as [V VS _ _]. destruct (V i) as [R B En C Lg Ex Nw]. unfold credit in C. rewrite VS in C.
  destruct (g_pc (s_gor s i)) eqn:P, (g_closed (s_gor s i)) eqn:Cl; cbn in *.
  all: repeat split; try lia; try discriminate.
  all: try (match goal with L : lognil _ = true |- _ => destruct (Lg L) end); try (match goal with L : hout _ 0 = HExit |- _ => specialize (Ex L) end); try congruence; lia.
Qed.

(** What ends the process: a signal before the first call of HandleKillSig, a nil logger, a
    handler that panics, or a handler that returns for the second time; and what the handlers
    have done until then. *)
Theorem sig_process_ends tr s l s' : steps (s_step lognil hout) s_init tr s -> s_step lognil hout s l s' -> s_dead s' = true ->
  (s_n s = 0 /\ exists x, l = LSig x) \/
  (l = LSTau /\ s_gor s' = s_gor s /\ exists i, 1 <= signals tr /\
    (lognil i = true \/ (exists k, hout i k = HPanic /\ begins i tr = S k) \/ 2 <= signals tr /\ ends i tr = 2 /\ begins i tr = 2)).
Proof.
  intros H HS D. destruct (sinv_steps lognil hout tr s H) as [V VS _ _]. destruct HS; cbn in D; try discriminate; cbn [s_n s_gor].
  - left. eauto.
  - right. split; [reflexivity|]. split; [reflexivity|]. exists i. destruct (V i) as [R B En C Lg Ex Nw]. unfold credit in *. cbn [s_gor s_n s_sigs s_pend s_todo] in *. rewrite H0 in *. cbn in *. split; [lia|auto].
  - right. split; [reflexivity|]. split; [reflexivity|]. exists i. destruct (V i) as [R B En C Lg Ex Nw]. unfold credit in *. cbn [s_gor s_n s_sigs s_pend s_todo] in *. rewrite H0 in *. cbn in *. split; [lia|]. right. left. exists r. split; [assumption|lia].
  - right. split; [reflexivity|]. split; [reflexivity|]. exists i. destruct (V i) as [R B En C Lg Ex Nw]. unfold credit in *. cbn [s_gor s_n s_sigs s_pend s_todo] in *. rewrite H0 in *. cbn in *. split; [lia|]. right. right. lia.
Qed.
End safety.
Print Assumptions sig_runs.
Print Assumptions sig_process_ends.

(** *** One signal *)
(** the only signal comes after the first call of HandleKillSig *)
Definition s_once (lognil : nat -> bool) (hout : nat -> nat -> hres) (s : sst) (l : slab) (s' : sst) : Prop :=
  s_step lognil hout s l s' /\ forall x, l = LSig x -> s_sigs s = 0 /\ s_n s <> 0.
(** the steps that somebody has to take *)
Definition s_go (lognil : nat -> bool) (hout : nat -> nat -> hres) (s : sst) (l : slab) (s' : sst) : Prop :=
  s_step lognil hout s l s' /\ match l with LReg _ | LSig _ => False | _ => True end.
Record sig_fair (lognil : nat -> bool) (hout : nat -> nat -> hres) (e : nat -> sst) : Prop := {
  sf_os : weakly_fair (s_go lognil hout) s_todo e;
  sf_gor : forall i, weakly_fair (s_go lognil hout) (fun s => g_pc (s_gor s i)) e }.

Section one.
Context (lognil : nat -> bool) (hout : nat -> nat -> hres) (HL : forall i, lognil i = false) (HO : forall i, hout i 0 = HRet).
Local Notation rch s := (reach s_init (s_once lognil hout) s).
Lemma once_steps tr s : steps (s_once lognil hout) s_init tr s -> steps (s_step lognil hout) s_init tr s.
Proof. revert tr s. apply steps_trace_invariant; [constructor|]. intros tr s l s' _ IH [H _]. econstructor; eassumption. Qed.
Lemma once_calm tr s : steps (s_once lognil hout) s_init tr s -> s_sigs s <= 1 /\ s_dead s = false /\ forall i, g_pc (s_gor s i) <> GGone.
Proof using HL HO.
  revert tr s. apply (steps_trace_invariant _ _ (fun tr s => s_sigs s <= 1 /\ s_dead s = false /\ forall i, g_pc (s_gor s i) <> GGone)); [cbn; repeat split; try lia; discriminate|].
  intros tr s l s' H0 (S1 & D & N) [H HS]. destruct (sinv_steps lognil hout tr s (once_steps tr s H0)) as [V VS _ _].
  assert (T : forall i g, g_pc g <> GGone -> forall j, g_pc (tset (s_gor s) i g j) <> GGone). { intros i g Hg j. destruct (tset_cases (s_gor s) i g j) as [[_ ->]|[_ ->]]; [exact Hg|apply N]. }
  destruct H as [n gr p k|gr p td k x|n gr p td k x Hn|n gr p k x Hx|n gr p k l1 i l2 b c pc r Hi|n gr p k|n gr p td k i c r Hi|n gr p td k i b c r Hi HL'|n gr p td k i b c r Hi HL'|n gr p td k i b c r Hi|n gr p td k i b c r Hi HO'|n gr p td k i b c r Hi HO'|n gr p td k i b c r Hi HO'|n gr p td k i b r Hi|n gr p td k i b r Hi];
    cbn in *; try (split; [assumption|split; [reflexivity|]]; first [exact N|apply T; discriminate]).
  - destruct (HS x eq_refl). congruence.
  - destruct (HS x eq_refl). split; [lia|]. auto.
  - split; [assumption|split; [reflexivity|]]. apply T. specialize (N i). rewrite Hi in N. exact N.
  - rewrite HL in HL'. discriminate.
  - exfalso. destruct (V i) as [R B En C Lg Ex Nw]. unfold credit in C. cbn in *. rewrite Hi in *. cbn in *. destruct c; cbn in *; [lia|]. assert (r = 0) as -> by lia. rewrite HO in HO'. discriminate.
  - exfalso. destruct (V i) as [R B En C Lg Ex Nw]. unfold credit in C. cbn in *. rewrite Hi in *. cbn in *. destruct c; cbn in *; [lia|]. assert (r = 0) as -> by lia. rewrite HO in HO'. discriminate.
  - exfalso. destruct (V i) as [R B En C Lg Ex Nw]. unfold credit in C. cbn in *. rewrite Hi in *. cbn in *. lia.
Qed.
Lemma once_inv s : rch s -> exists tr, sinv lognil hout tr s /\ s_sigs s <= 1 /\ s_dead s = false /\ forall i, g_pc (s_gor s i) <> GGone.
Proof using HL HO. intros [tr H]. exists tr. split; [exact (sinv_steps _ _ _ _ (once_steps tr s H))|exact (once_calm tr s H)]. Qed.
(** what a step does to one goroutine *)
Lemma gor_step s l s' i : s_step lognil hout s l s' -> s_dead s' = false ->
  (g_pc (s_gor s' i) = g_pc (s_gor s i) /\ g_closed (s_gor s' i) = g_closed (s_gor s i) /\ (g_buf (s_gor s i) = true -> g_buf (s_gor s' i) = true)) \/
  match g_pc (s_gor s i) with
  | GWait => g_pc (s_gor s' i) = GLog
  | GLog => g_pc (s_gor s' i) = GCall
  | GCall => g_pc (s_gor s' i) = GIn
  | GIn => g_pc (s_gor s' i) = GShut \/ g_pc (s_gor s' i) = GGone
  | GShut => g_closed (s_gor s' i) = true
  | GGone => False end /\ (g_closed (s_gor s i) = true -> g_closed (s_gor s' i) = true).
Proof.
  intros H D. destruct H as [n gr p k|gr p td k x|n gr p td k x Hn|n gr p k x Hx|n gr p k l1 i0 l2 b c pc r Hi|n gr p k|n gr p td k i0 c r Hi|n gr p td k i0 b c r Hi HL'|n gr p td k i0 b c r Hi HL'|n gr p td k i0 b c r Hi|n gr p td k i0 b c r Hi HO'|n gr p td k i0 b c r Hi HO'|n gr p td k i0 b c r Hi HO'|n gr p td k i0 b r Hi|n gr p td k i0 b r Hi];
    cbn in *; auto; try discriminate.
  all: match goal with |- context [tset ?gr ?a ?g ?ii] => destruct (tset_cases gr a g ii) as [[-> ->]|[_ ->]]; [rewrite Hi; cbn; auto|left; auto] end.
Qed.
Lemma closed_keeps s l s' i : s_step lognil hout s l s' -> g_closed (s_gor s i) = true -> g_closed (s_gor s' i) = true.
Proof.
  intros H C. destruct H as [n gr p k|gr p td k x|n gr p td k x Hn|n gr p k x Hx|n gr p k l1 i0 l2 b c pc r Hi|n gr p k|n gr p td k i0 c r Hi|n gr p td k i0 b c r Hi HL'|n gr p td k i0 b c r Hi HL'|n gr p td k i0 b c r Hi|n gr p td k i0 b c r Hi HO'|n gr p td k i0 b c r Hi HO'|n gr p td k i0 b c r Hi HO'|n gr p td k i0 b r Hi|n gr p td k i0 b r Hi];
    cbn in *; try exact C.
  all: match goal with |- context [tset ?gr ?a ?g ?ii] => destruct (tset_cases gr a g ii) as [[-> ->]|[_ ->]]; [rewrite Hi in C; cbn in *; auto|exact C] end.
Qed.

Context (e : nat -> sst) (ls : nat -> option slab) (E : execution (s_once lognil hout) s_init e ls) (F : sig_fair lognil hout e).
Local Notation closes i m := (exists j, m <= j /\ g_closed (s_gor (e j) i) = true).
Lemma pc_leads i a (Q : sst -> Prop) m : g_pc (s_gor (e m) i) = a ->
  (forall s l s', rch s -> rch s' -> g_pc (s_gor s i) = a -> s_step lognil hout s l s' -> g_pc (s_gor s' i) = a \/ Q s') ->
  (forall s, rch s -> g_pc (s_gor s i) = a -> exists l s', s_go lognil hout s l s' /\ g_pc (s_gor s' i) <> a) ->
  exists j, m <= j /\ Q (e j).
Proof using E F.
  intros H K C. refine (leads_weak _ _ e ls E (s_go lognil hout) (fun s => g_pc (s_gor s i)) (fun s => g_pc (s_gor s i) = a) Q (sf_gor _ _ _ F i) _ _ m H).
  - intros s l s' R P [HS HP]. destruct (K s l s' R ltac:(eapply reach_snoc; [exact R|split; eassumption]) P HS) as [X|X]; [left; split; congruence|right; exact X].
  - intros s R P. destruct (C s R P) as (l & s' & G & N). exists l, s'. split; [exact G|congruence].
Qed.
Lemma alive s : rch s -> exists n gr p td k, s = SS n gr p td false k.
Proof using HL HO. intros R. destruct (once_inv s R) as (tr & _ & _ & D & _). destruct s as [n gr p td d k]. cbn in D. subst. eauto 6. Qed.
Lemma shut_leads i m : g_pc (s_gor (e m) i) = GShut -> closes i m.
Proof using E F HL HO.
  intros H. refine (pc_leads i GShut (fun s => g_closed (s_gor s i) = true) m H _ _).
  - intros s l s' R R' P HS. destruct (once_inv s' R') as (_ & _ & _ & D & _). destruct (gor_step s l s' i HS D) as [(X & _)|[X _]]; [left; congruence|]. rewrite P in X. right. exact X.
  - intros s R P. destruct (once_inv s R) as (tr & [V _ _ _] & S1 & D & _). destruct (alive s R) as (n & gr & p & td & k & ->). destruct (V i) as [_ _ _ C _ _ _]. unfold credit in C. cbn in *.
    destruct (gr i) as [b pc c r] eqn:Hi. cbn in *. subst pc. destruct c; [cbn in C; lia|]. eexists _, _. split; [split; [eapply ss_close; exact Hi|exact I]|]. cbn. rewrite tset_eq. discriminate.
Qed.
Lemma in_leads i m : g_pc (s_gor (e m) i) = GIn -> closes i m.
Proof using E F HL HO.
  intros H. destruct (pc_leads i GIn (fun s => g_pc (s_gor s i) = GShut) m H) as (j & Hj & J).
  - intros s l s' R R' P HS. destruct (once_inv s' R') as (_ & _ & _ & D & N). destruct (gor_step s l s' i HS D) as [(X & _)|[X _]]; [left; congruence|]. rewrite P in X. right. destruct X as [X|X]; [exact X|destruct (N i X)].
  - intros s R P. destruct (once_inv s R) as (tr & [V _ _ _] & S1 & D & _). destruct (alive s R) as (n & gr & p & td & k & ->). destruct (V i) as [Rn B _ C _ _ _]. unfold credit in C. cbn in *.
    destruct (gr i) as [b pc c r] eqn:Hi. cbn in *. subst pc. destruct c; [cbn in C; lia|]. cbn in B. assert (r = 1) as -> by lia.
    eexists _, _. split; [split; [eapply ss_end; [exact Hi|apply HO]|exact I]|]. cbn. rewrite tset_eq. discriminate.
  - destruct (shut_leads i j J) as (k & Hk & K). exists k. split; [lia|exact K].
Qed.
Lemma call_leads i m : g_pc (s_gor (e m) i) = GCall -> closes i m.
Proof using E F HL HO.
  intros H. destruct (pc_leads i GCall (fun s => g_pc (s_gor s i) = GIn) m H) as (j & Hj & J).
  - intros s l s' R R' P HS. destruct (once_inv s' R') as (_ & _ & _ & D & N). destruct (gor_step s l s' i HS D) as [(X & _)|[X _]]; [left; congruence|]. rewrite P in X. right. exact X.
  - intros s R P. destruct (alive s R) as (n & gr & p & td & k & ->). cbn in *. destruct (gr i) as [b pc c r] eqn:Hi. cbn in *. subst pc.
    eexists _, _. split; [split; [eapply ss_begin; exact Hi|exact I]|]. cbn. rewrite tset_eq. discriminate.
  - destruct (in_leads i j J) as (k & Hk & K). exists k. split; [lia|exact K].
Qed.
Lemma log_leads i m : g_pc (s_gor (e m) i) = GLog -> closes i m.
Proof using E F HL HO.
  intros H. destruct (pc_leads i GLog (fun s => g_pc (s_gor s i) = GCall) m H) as (j & Hj & J).
  - intros s l s' R R' P HS. destruct (once_inv s' R') as (_ & _ & _ & D & N). destruct (gor_step s l s' i HS D) as [(X & _)|[X _]]; [left; congruence|]. rewrite P in X. right. exact X.
  - intros s R P. destruct (alive s R) as (n & gr & p & td & k & ->). cbn in *. destruct (gr i) as [b pc c r] eqn:Hi. cbn in *. subst pc.
    eexists _, _. split; [split; [eapply ss_log; [exact Hi|apply HL]|exact I]|]. cbn. rewrite tset_eq. discriminate.
  - destruct (call_leads i j J) as (k & Hk & K). exists k. split; [lia|exact K].
Qed.
Lemma buf_leads i m : g_buf (s_gor (e m) i) = true -> closes i m.
Proof using E F HL HO.
  intros H. destruct (leads_weak _ _ e ls E (s_go lognil hout) (fun s => g_pc (s_gor s i)) (fun s => g_buf (s_gor s i) = true) (fun s => g_pc (s_gor s i) = GLog) (sf_gor _ _ _ F i)) with (i := m) as (j & Hj & J).
  - intros s l s' R P [HS HP]. assert (R' : rch s') by (eapply reach_snoc; [exact R|split; eassumption]). destruct (once_inv s' R') as (_ & _ & _ & D & N).
    destruct (once_inv s R) as (tr & [V _ _ _] & S1 & _). destruct (V i) as [_ _ _ C _ _ _]. unfold credit in C. rewrite P in C. cbn in C.
    destruct (gor_step s l s' i HS D) as [(X & _ & Y)|[X _]]; [left; split; [exact (Y P)|exact X]|]. destruct (g_pc (s_gor s i)); cbn in C; try lia. right. exact X.
  - intros s R P. destruct (once_inv s R) as (tr & [V _ _ _] & S1 & _). destruct (V i) as [_ _ _ C _ _ _]. destruct (alive s R) as (n & gr & p & td & k & ->). unfold credit in C. cbn in *.
    destruct (gr i) as [b pc c r] eqn:Hi. cbn in *. subst b. destruct pc; cbn in C; try lia.
    eexists _, _. split; [split; [eapply ss_recv; exact Hi|exact I]|]. cbn. rewrite tset_eq, Hi. discriminate.
  - exact H.
  - destruct (log_leads i j J) as (k & Hk & K). exists k. split; [lia|exact K].
Qed.
Lemma serve_leads i : forall d m l, length l = d -> s_todo (e m) = Some l -> i ∈ l -> closes i m.
Proof using E F HL HO.
  induction d as [d IH] using lt_wf_ind. intros m l Hd T Hi.
  destruct (leads_weak _ _ e ls E (s_go lognil hout) s_todo (fun s => s_todo s = Some l) (fun s => g_buf (s_gor s i) = true \/ exists l', s_todo s = Some l' /\ i ∈ l' /\ length l' < length l) (sf_os _ _ _ F)) with (i := m) as (j & Hj & [J|(l' & J1 & J2 & J3)]).
  - intros s lb s' R P [HS HP]. destruct HS as [n gr p k|gr p td k x|n gr p td k x Hn|n gr p k x Hx|n gr p k l1 i0 l2 b c pc r Hi0|n gr p k|n gr p td k i0 c r Hi0|n gr p td k i0 b c r Hi0 HL'|n gr p td k i0 b c r Hi0 HL'|n gr p td k i0 b c r Hi0|n gr p td k i0 b c r Hi0 HO'|n gr p td k i0 b c r Hi0 HO'|n gr p td k i0 b c r Hi0 HO'|n gr p td k i0 b r Hi0|n gr p td k i0 b r Hi0];
      cbn in *; try (left; split; congruence); try discriminate.
    + right. injection P as <-. destruct (decide (i = i0)) as [->|Hne]; [left; rewrite tset_eq; reflexivity|right]. exists (l1 ++ l2). split; [reflexivity|].
      split; [|rewrite !app_length; cbn; lia]. rewrite elem_of_app in *. rewrite elem_of_cons in Hi. tauto.
    + injection P as <-. inversion Hi.
  - intros s R P. destruct (alive s R) as (n & gr & p & td & k & ->). cbn in *. subst td. destruct l as [|i0 l]; [inversion Hi|]. destruct (gr i0) as [b pc c r] eqn:Hi0.
    eexists _, _. split; [split; [apply (ss_deliver lognil hout n gr p k [] i0 l b c pc r Hi0)|exact I]|]. cbn. intros X. injection X as X. apply (f_equal length) in X. cbn in X. lia.
  - exact T.
  - destruct (buf_leads i j J) as (k & Hk & K). exists k. split; [lia|exact K].
  - destruct (IH (length l') ltac:(lia) j l' eq_refl J1 J2) as (k & Hk & K). exists k. split; [lia|exact K].
Qed.
Lemma pend_leads i x m : s_pend (e m) x = true -> i < s_n (e m) -> closes i m.
Proof using E F HL HO.
  intros H Hi. destruct (leads_weak _ _ e ls E (s_go lognil hout) s_todo (fun s => s_pend s x = true /\ i < s_n s) (fun s => exists l, s_todo s = Some l /\ i ∈ l) (sf_os _ _ _ F)) with (i := m) as (j & Hj & l & J1 & J2).
  - intros s lb s' R [P Pn] [HS HP]. destruct (once_inv s R) as (tr & [_ _ _ VU] & S1 & _).
    assert (PP : 1 <= pending (s_pend s)) by (unfold pending; destruct x; rewrite P; cbn; lia).
    destruct HS as [n gr p k|gr p td k y|n gr p td k y Hn|n gr p k y Hx|n gr p k l1 i0 l2 b c pc r Hi0|n gr p k|n gr p td k i0 c r Hi0|n gr p td k i0 b c r Hi0 HL'|n gr p td k i0 b c r Hi0 HL'|n gr p td k i0 b c r Hi0|n gr p td k i0 b c r Hi0 HO'|n gr p td k i0 b c r Hi0 HO'|n gr p td k i0 b c r Hi0 HO'|n gr p td k i0 b r Hi0|n gr p td k i0 b r Hi0];
      cbn in *; try (left; auto; fail); try lia.
    + left. split; [|reflexivity]. split; [|exact Pn]. destruct (decide (x = y)); [reflexivity|exact P].
    + right. exists (seq 0 n). split; [reflexivity|]. apply elem_of_seq. lia.
  - intros s R [P Pn]. destruct (once_inv s R) as (tr & [_ _ _ VU] & S1 & _). destruct (alive s R) as (n & gr & p & td & k & ->). cbn in *.
    assert (PP : 1 <= pending p) by (unfold pending; destruct x; rewrite P; cbn; lia). destruct td as [l|]; [cbn in VU; lia|].
    eexists _, _. split; [split; [apply (ss_take lognil hout n gr p k x P)|exact I]|]. cbn. discriminate.
  - auto.
  - destruct (serve_leads i (length l) j l eq_refl J1 J2) as (k & Hk & K). exists k. split; [lia|exact K].
Qed.
(** One signal, loggers that are not nil and handlers that return: in every fair execution
    every handler registered before the signal runs to its end exactly once, and its C is
    closed for ever; and the process does not end. *)
Theorem sig_once_all_run m x i : ls m = Some (LSig x) ->
  (i < s_n (e m) -> exists j, m <= j /\ forall k, j <= k -> g_closed (s_gor (e k) i) = true /\ begins i (trace ls k) = 1 /\ ends i (trace ls k) = 1) /\
  forall k, s_dead (e k) = false.
Proof using E F HL HO.
  intros M. split; [|intros k; destruct (once_inv _ (exec_reach _ _ _ _ E k)) as (_ & _ & _ & D & _); exact D]. intros Hi.
  destruct E as [E0 ES]. pose proof (ES m) as HS. rewrite M in HS. destruct HS as [HS HP]. destruct (HP x eq_refl) as [_ N0].
  assert (P1 : s_pend (e (1 + m)) x = true /\ i < s_n (e (1 + m))).
  { revert HS N0 Hi. generalize (e m) (e (1 + m)). intros s s' HS N0 Hi. inversion HS; subst; cbn in *; [congruence|]. rewrite decide_True by reflexivity. auto. }
  destruct (pend_leads i x (1 + m) (proj1 P1) (proj2 P1)) as (j & Hj & J). exists j. split; [lia|]. intros k Hk.
  assert (C : g_closed (s_gor (e k) i) = true).
  { refine (always _ _ e ls (conj E0 ES) (fun s => g_closed (s_gor s i) = true) _ j J k Hk). intros s l s' _ Q [H _]. exact (closed_keeps s l s' i H Q). }
  split; [exact C|]. pose proof (trace_steps _ _ e ls (conj E0 ES) k) as TS. destruct (once_calm _ _ TS) as (S1 & _ & _).
  destruct (sinv_steps lognil hout _ _ (once_steps _ _ TS)) as [V _ _ _]. destruct (V i) as [_ B En Cr _ _ _]. unfold credit in Cr. rewrite C in *. cbn in *.
  destruct (g_pc (s_gor (e k) i)); cbn in *; lia.
Qed.
End one.
Print Assumptions sig_once_all_run.


(** "after a signal every registered handler runs": false.  A second signal makes the process
    crash (the handler that was first has returned twice) before another handler has begun;
    so does the nil logger of another call; and C is never closed if the handler leaves by Goexit *)
Theorem sig_all_run_refuted :
  (exists tr s, steps (s_step (fun _ => false) (fun _ _ => HRet)) s_init tr s /\ s_n s = 2 /\ signals tr = 2 /\ s_dead s = true /\ ends 0 tr = 2 /\ begins 1 tr = 0) /\
  (exists tr s, steps (s_step (fun i => bool_decide (i = 1)) (fun _ _ => HRet)) s_init tr s /\ s_n s = 2 /\ signals tr = 1 /\ s_dead s = true /\ begins 0 tr = 0) /\
  (exists tr s, steps (s_step (fun _ => false) (fun _ _ => HExit)) s_init tr s /\ signals tr = 1 /\ s_dead s = false /\ begins 0 tr = 1 /\ g_pc (s_gor s 0) = GGone).
Proof.
  split; [|split].
  - eexists _, _. split.
    { eapply steps_cons; [apply ss_reg|]. eapply steps_cons; [apply ss_reg|]. eapply steps_cons; [eapply (ss_sig _ _ 2 _ _ _ _ SigInt); lia|].
      eapply steps_cons; [eapply (ss_take _ _ _ _ _ _ SigInt); reflexivity|]. cbn [seq].
      eapply steps_cons; [eapply (ss_deliver _ _ _ _ _ _ [] 0 [1]); reflexivity|]. eapply steps_cons; [eapply (ss_deliver _ _ _ _ _ _ [] 1 []); reflexivity|]. eapply steps_cons; [apply ss_delivered|].
      eapply steps_cons; [eapply (ss_recv _ _ _ _ _ _ _ 0); reflexivity|]. eapply steps_cons; [eapply (ss_log _ _ _ _ _ _ _ 0); reflexivity|]. eapply steps_cons; [eapply (ss_begin _ _ _ _ _ _ _ 0); reflexivity|].
      eapply steps_cons; [eapply (ss_end _ _ _ _ _ _ _ 0); reflexivity|]. eapply steps_cons; [eapply (ss_close _ _ _ _ _ _ _ 0); reflexivity|].
      eapply steps_cons; [eapply (ss_sig _ _ 2 _ _ _ _ SigInt); lia|]. eapply steps_cons; [eapply (ss_take _ _ _ _ _ _ SigInt); reflexivity|]. cbn [seq].
      eapply steps_cons; [eapply (ss_deliver _ _ _ _ _ _ [] 0 [1]); reflexivity|].
      eapply steps_cons; [eapply (ss_recv _ _ _ _ _ _ _ 0); reflexivity|]. eapply steps_cons; [eapply (ss_log _ _ _ _ _ _ _ 0); reflexivity|]. eapply steps_cons; [eapply (ss_begin _ _ _ _ _ _ _ 0); reflexivity|].
      eapply steps_cons; [eapply (ss_end _ _ _ _ _ _ _ 0); reflexivity|]. eapply steps_cons; [eapply (ss_crash _ _ _ _ _ _ _ 0); reflexivity|]. apply steps_nil. }
    repeat split.
  - eexists _, _. split.
    { eapply steps_cons; [apply ss_reg|]. eapply steps_cons; [apply ss_reg|]. eapply steps_cons; [eapply (ss_sig _ _ 2 _ _ _ _ SigInt); lia|].
      eapply steps_cons; [eapply (ss_take _ _ _ _ _ _ SigInt); reflexivity|]. cbn [seq].
      eapply steps_cons; [eapply (ss_deliver _ _ _ _ _ _ [0] 1 []); reflexivity|].
      eapply steps_cons; [eapply (ss_recv _ _ _ _ _ _ _ 1); reflexivity|]. eapply steps_cons; [eapply (ss_lognil _ _ _ _ _ _ _ 1); reflexivity|]. apply steps_nil. }
    repeat split.
  - eexists _, _. split.
    { eapply steps_cons; [apply ss_reg|]. eapply steps_cons; [eapply (ss_sig _ _ 1 _ _ _ _ SigInt); lia|].
      eapply steps_cons; [eapply (ss_take _ _ _ _ _ _ SigInt); reflexivity|]. cbn [seq].
      eapply steps_cons; [eapply (ss_deliver _ _ _ _ _ _ [] 0 []); reflexivity|].
      eapply steps_cons; [eapply (ss_recv _ _ _ _ _ _ _ 0); reflexivity|]. eapply steps_cons; [eapply (ss_log _ _ _ _ _ _ _ 0); reflexivity|]. eapply steps_cons; [eapply (ss_begin _ _ _ _ _ _ _ 0); reflexivity|].
      eapply steps_cons; [eapply (ss_exit _ _ _ _ _ _ _ 0); reflexivity|]. apply steps_nil. }
    repeat split.
Qed.
Print Assumptions sig_all_run_refuted.

Local Tactic Notation "go" uconstr(t) := eapply steps_cons; [split; [eapply t; try reflexivity; try lia|intros ?; cbn; discriminate || (intros _; split; [reflexivity|lia])]|]; cbn [seq app].
(** the hypotheses of sig_once_all_run are met: two calls of HandleKillSig, then a signal *)
Example sig_once_case : exists e ls m, execution (s_once (fun _ => false) (fun _ _ => HRet)) s_init e ls /\ sig_fair (fun _ => false) (fun _ _ => HRet) e /\
  ls m = Some (LSig SigTerm) /\ s_n (e m) = 2 /\ s_sigs (e (1 + m)) = 1.
Proof.
  assert (exists s, steps (s_once (fun _ => false) (fun _ _ => HRet)) s_init
      [LReg 0; LReg 1; LSig SigTerm; LSTau; LSTau; LSTau; LSTau; LSTau; LSTau; LBegin 0; LEnd 0; LSTau; LSTau; LSTau; LBegin 1; LEnd 1; LSTau] s /\
    (exists gr, s = SS 2 gr (s_pend s) None false 1 /\ (forall i, g_pc (gr i) = GWait) /\ (forall i, g_buf (gr i) = false) /\ forall x, s_pend s x = false)) as (s & HS & gr & Es & W & B & Pn).
  { eexists. split.
    { go ss_reg. go ss_reg. go ss_sig. go (ss_take _ _ 2 _ _ _ SigTerm). go (ss_deliver _ _ 2 (fun _ => G false GWait false 0) _ _ [] 0 [1]). go (ss_deliver _ _ 2 _ _ _ [] 1 []). go ss_delivered.
      go (ss_recv _ _ 2 _ _ None 1 0). go (ss_log _ _ 2 _ _ None 1 0). go (ss_begin _ _ 2 _ _ None 1 0). go (ss_end _ _ 2 _ _ None 1 0). go (ss_close _ _ 2 _ _ None 1 0).
      go (ss_recv _ _ 2 _ _ None 1 1). go (ss_log _ _ 2 _ _ None 1 1). go (ss_begin _ _ 2 _ _ None 1 1). go (ss_end _ _ 2 _ _ None 1 1). go (ss_close _ _ 2 _ _ None 1 1). apply steps_nil. }
    eexists. split; [reflexivity|]. split; [|split].
    - intros [|[|i]]; reflexivity.
    - intros [|[|i]]; reflexivity.
    - intros []; reflexivity. }
  assert (NM : forall P (v : sst -> P), ~ can_move (s_go (fun _ => false) (fun _ _ => HRet)) v s).
  { intros P v (l & s' & [X Y] & _). rewrite Es in X. inversion X; subst; cbn in Y; try contradiction.
    all: match goal with Q : s_pend _ _ = true |- _ => rewrite Pn in Q; discriminate | Q : ?g ?i = G _ _ _ _ |- _ => pose proof (W i) as W'; pose proof (B i) as B'; rewrite Q in W', B'; cbn in W', B'; discriminate end. }
  destruct (settled_execution _ _ _ _ HS) as (e & ls & [E0 ES] & D & LS). exists e, ls, 2. split; [split; assumption|]. split; [|split; [rewrite LS; reflexivity|]].
  - split; [|intros i]; apply strong_weak; apply (settled_fair _ _ e _ _ D); apply NM.
  - assert (ST : forall s1 l s2, s_once (fun _ => false) (fun _ _ => HRet) s1 l s2 -> s_n s2 = s_n s1 + (match l with LReg _ => 1 | _ => 0 end) /\ s_sigs s2 = s_sigs s1 + (match l with LSig _ => 1 | _ => 0 end)) by (intros s1 l s2 [X _]; destruct X; cbn; lia).
    pose proof (ES 0) as X0. pose proof (ES 1) as X1. pose proof (ES 2) as X2. rewrite LS in X0, X1, X2. cbn [lookup list_lookup] in X0, X1, X2.
    apply ST in X0, X1, X2. rewrite E0 in X0. cbn in *. lia.
Qed.
