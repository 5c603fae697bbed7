(** sync.Mutex, under which the rest of the code is written: it excludes, the runtime never aborts, and no
    wakeup is lost. *)
From Verif Require Import Base Conc RWProofs MutexModel MutexProofs MutexDrain.
Local Open Scope Z.

Section props.
Context (N : nat).
Lemma mx_inv ls s : steps (mx_step N) mx_new ls s -> mxinv N s.
Proof. apply steps_invariant; [apply mxinv_new|]. intros s1 t s2. apply mxinv_step. Qed.

(** *** At most one goroutine has the mutex *)
Theorem mutex_exclusion ls s t u : steps (mx_step N) mx_new ls s -> x_pc s t = XHold -> x_pc s u = XHold -> t = u.
Proof.
  intros HS Ht Hu. destruct (mx_inv _ _ HS) as [IN _ _ (_ & _ & G & _)]. destruct (decide (t = u)) as [E|E]; [exact E|exfalso].
  assert (LT : forall v, x_pc s v = XHold -> (v < N)%nat) by (intros v Hv; destruct (decide (v < N)%nat) as [L|L]; [exact L|]; rewrite IN in Hv by lia; discriminate).
  assert (S2 : ct N n_hold (tset (x_pc s) t XIdle) = ct N n_hold (x_pc s) - 1) by (rewrite ct_set by auto; rewrite Ht; cbn; lia).
  assert (Q : n_hold (tset (x_pc s) t XIdle u) <= ct N n_hold (tset (x_pc s) t XIdle)) by (apply ct_ge; [intros []; cbn; lia|auto]).
  rewrite tset_ne, Hu in Q by auto. cbn in Q. destruct (w_l (x_w s)); cbn in G; lia.
Qed.
(** *** The runtime never finds the state inconsistent, and never an Unlock of an unlocked mutex *)
Theorem mutex_never_aborts ls s : steps (mx_step N) mx_new ls s -> x_bad s = false.
Proof. intros HS. apply (mx_inv _ _ HS). Qed.
(** *** The word fits 32 bits *)
Theorem mutex_word ls s : (Z.of_nat N < 2^28) -> steps (mx_step N) mx_new ls s -> 0 <= enc (x_w s) < 2^31.
Proof.
  intros HN HS. destruct (mx_inv _ _ HS) as [_ _ _ G]. destruct s as [w a b pc]. cbn [x_w x_sema x_pc] in *. destruct G as (G1 & G2 & _ & G4 & _ & _ & _ & G8 & _).
  assert (ct N n_sem pc + ct N n_woke pc + ct N n_delta pc <= Z.of_nat N).
  { clear. unfold ct. induction N as [|M IH]; [reflexivity|]. rewrite !csum_S. destruct (pc M); cbn [n_sem n_woke n_delta]; lia. }
  assert (0 <= ct N n_rel pc) by (apply ct_nonneg; intros []; cbn; lia). assert (0 <= ct N n_woke pc) by (apply ct_nonneg; intros []; cbn; lia).
  assert (0 <= ct N n_delta pc) by (apply ct_nonneg; intros []; cbn; lia). assert (0 <= ct N n_aw pc) by (apply ct_nonneg; intros [| |? []|? [] ?| | | | | |]; cbn; lia).
  change (2^28) with 268435456 in HN. change (2^31) with 2147483648. unfold enc. destruct (w_l w), (w_k w), (w_s w); cbn [Z.b2z negb andb] in *; lia.
Qed.
(** *** When nobody is in Lock or Unlock the word is 0 but for the bit that says whether somebody has the mutex, and there is
    no token left in the semaphore: nothing of what happened remains *)
Theorem mutex_at_rest ls s : steps (mx_step N) mx_new ls s -> (forall t, x_pc s t = XIdle \/ x_pc s t = XHold) ->
  x_sema s = 0 /\ ((forall t, x_pc s t = XIdle) -> x_w s = mw0) /\ ((exists t, x_pc s t = XHold) -> x_w s = MW true false false 0).
Proof.
  intros HS HQ. assert (IV : mxinv N s /\ mxstarve s).
  { revert HS. apply (steps_invariant mx_new (mx_step N) (fun s => mxinv N s /\ mxstarve s)); [split; [apply mxinv_new|split; [discriminate|intros ? ? ? [=]]]|].
    intros s1 t s2 [A B] C. split; [eapply mxinv_step; eassumption|eapply mxstarve_step; eassumption]. }
  destruct IV as [[IN _ _ G] [S1 _]].
  assert (Z0 : forall f, f XIdle = 0 -> f XHold = 0 -> ct N f (x_pc s) = 0).
  { intros f E1 E2. unfold ct. clear -HQ E1 E2. induction N as [|M IH]; [reflexivity|]. rewrite csum_S, IH. destruct (HQ M) as [-> | ->]; rewrite ?E1, ?E2; reflexivity. }
  destruct s as [w a b pc]. cbn [x_w x_sema x_pc] in *. unfold good in G. rewrite (Z0 n_rel), (Z0 n_woke), (Z0 n_delta), (Z0 n_aw), (Z0 n_sem), (Z0 n_free) in G by reflexivity.
  assert (HI : (forall t, pc t = XIdle) -> ct N n_hold pc = 0) by (intros Q; unfold ct; clear -Q; induction N as [|M IH]; [reflexivity|]; rewrite csum_S, IH, Q; reflexivity).
  assert (HH : (exists t, pc t = XHold) -> 1 <= ct N n_hold pc).
  { intros (t & Q). assert (n_hold (pc t) <= ct N n_hold pc); [|rewrite Q in *; exact H]. apply ct_ge; [intros []; cbn; lia|]. destruct (decide (t < N)%nat) as [L|L]; [exact L|]. rewrite IN in Q by lia. discriminate. }
  destruct G as (G1 & G2 & G3 & G4 & G5 & _ & _ & G8 & G9). destruct w as [l k st n]. unfold mw0. cbn in *.
  assert (n = 0 /\ a = 0 /\ k = false /\ st = false) as (-> & -> & -> & ->).
  { destruct l, k, st; cbn in *; try specialize (S1 eq_refl); try specialize (G5 eq_refl); try discriminate; repeat split; try lia. }
  split; [reflexivity|]. split; intros Q; [specialize (HI Q)|specialize (HH Q)]; destruct l; cbn in *; try lia; reflexivity.
Qed.
Definition n_act (p : xpc) : Z := match p with XIdle | XSem _ | XHold => 0 | _ => 1 end.
(** *** No wakeup is lost: while somebody is in Lock or Unlock and nobody has the mutex, somebody in Lock or Unlock can go on *)
Theorem mutex_progress ls s t : steps (mx_step N) mx_new ls s -> x_pc s t <> XIdle ->
  (exists u, x_pc s u = XHold) \/ exists u s', mx_step N s u s' /\ x_pc s u <> XIdle /\ x_pc s u <> XHold.
Proof.
  intros HS Ht. pose proof (mx_inv _ _ HS) as [IN _ _ G]. destruct s as [w a b pc]. cbn [x_w x_sema x_pc] in *.
  assert (NN : forall f, (forall p, 0 <= f p) -> 0 <= ct N f pc) by (intros f; apply ct_nonneg).
  pose proof (NN n_rel ltac:(intros []; cbn; lia)) as B1. pose proof (NN n_woke ltac:(intros []; cbn; lia)) as B2. pose proof (NN n_delta ltac:(intros []; cbn; lia)) as B3. pose proof (NN n_aw ltac:(intros [| |? []|? [] ?| | | | | |]; cbn; lia)) as B4.
  pose proof (NN n_sem ltac:(intros []; cbn; lia)) as B5.
  destruct (Z_lt_dec 0 (ct N n_hold pc)) as [L|L].
  { left. destruct (csum_pos _ _ L) as (u & _ & Hu). exists u. destruct (pc u); cbn in Hu; lia || reflexivity. }
  right. assert (EL : w_l w = false) by (destruct G as (_ & _ & G & _); destruct (w_l w); [cbn in G; lia|reflexivity]).
  destruct (Z_lt_dec 0 (ct N n_act pc)) as [A|A].
  - destruct (csum_pos _ _ A) as (u & Hu & Hp). exists u. destruct (pc u) as [| |st aw|st aw old|st|st|st old| |old|] eqn:E; cbn in Hp; try lia.
    all: cut (exists s', mx_step N (MX w a b pc) u s'); [intros (s' & Q); exists s'; split; [exact Q|cbn; try rewrite E; split; discriminate]|].
    + destruct (decide (enc w = 0)) as [Q|Q]; [apply (enc_inj mw0 w) in Q; subst w|]; eexists; [apply mx_fast; exact E|apply mx_slow; [exact E|intros ->; apply Q; reflexivity]].
    + eexists. eapply mx_load. exact E.
    + destruct (decide (enc w = enc old)) as [Q|Q]; [apply enc_inj in Q; subst old|eexists; eapply mx_cas_fail; [exact E|congruence]].
      destruct aw, (w_k w) eqn:Ek; eexists; (eapply mx_throw1; eassumption) || (eapply mx_cas; [exact E|congruence]).
    + destruct (w_s w) eqn:Es; [|eexists; eapply mx_woke; eassumption]. destruct (w_k w) eqn:Ek; [eexists; eapply mx_throw2; eauto|].
      destruct (decide (w_n w = 0)); eexists; [eapply mx_throw2; eauto|eapply mx_woke_st; eauto].
    + assert (Q : w_s w = true /\ w_k w = false).
      { destruct G as (_ & _ & _ & G4 & G5 & _ & G7 & _). assert (Q : n_delta (pc u) <= ct N n_delta pc) by (apply ct_ge; [intros []; cbn; lia|exact Hu]). rewrite E in Q. cbn in Q. rewrite EL in G7.
        destruct (w_s w); cbn in G7; [|lia]. split; [reflexivity|]. apply G5. reflexivity. }
      destruct Q as [Q1 Q2]. eexists. eapply (mx_delta _ w (MW true false (negb (negb st || (w_n old =? 1))) (w_n w - 1))); [exact E|].
      unfold enc. rewrite EL, Q1, Q2. cbn [w_l w_k w_s w_n]. destruct (negb st || (w_n old =? 1)); cbn; lia.
    + destruct (decide (enc w = enc old)) as [Q|Q]; [apply enc_inj in Q; subst old|]; eexists; [eapply mx_free; exact E|eapply mx_free_fail; [exact E|congruence]].
    + eexists. apply mx_rel. exact E.
  - assert (Z0 : forall f, (forall p, 0 <= f p <= n_act p) -> ct N f pc = 0).
    { intros f Hf. assert (0 <= ct N f pc) by (apply NN; apply Hf). assert (ct N f pc <= ct N n_act pc); [|lia]. clear -Hf. unfold ct. induction N as [|M IH]; [reflexivity|]. rewrite !csum_S. specialize (Hf (pc M)). lia. }
    assert (E1 := Z0 n_rel ltac:(intros []; cbn; lia)). assert (E2 := Z0 n_woke ltac:(intros []; cbn; lia)). assert (E3 := Z0 n_delta ltac:(intros []; cbn; lia)).
    assert (E4 := Z0 n_aw ltac:(intros [| |? []|? [] ?| | | | | |]; cbn; lia)). assert (E5 := Z0 n_free ltac:(intros []; cbn; lia)).
    assert (TN : (t < N)%nat) by (destruct (decide (t < N)%nat) as [Q|Q]; [exact Q|]; destruct Ht; apply IN; lia).
    destruct (pc t) eqn:E; try (exfalso; assert (Q : n_act (pc t) <= ct N n_act pc) by (apply ct_ge; [intros []; cbn; lia|exact TN]); rewrite E in Q; cbn in Q; lia).
    + destruct (Ht eq_refl).
    + exists t. destruct (decide (0 < a)) as [Ha|Ha]; [eexists; split; [eapply (mx_sem _ w a b pc t st true); [exact E|exact Ha|reflexivity]|cbn; try rewrite E; split; discriminate]|].
      exfalso. destruct G as (G1 & G2 & _ & G4 & _ & _ & _ & G8 & G9). rewrite EL in *.
      assert (Q : n_sem (pc t) <= ct N n_sem pc) by (apply ct_ge; [intros []; cbn; lia|exact TN]). rewrite E in Q. cbn in Q.
      destruct (w_k w), (w_s w); cbn in *; try lia.
    + exfalso. apply L. assert (Q : n_hold (pc t) <= ct N n_hold pc) by (apply ct_ge; [intros []; cbn; lia|exact TN]). rewrite E in Q. cbn in Q. lia.
Qed.
End props.
Print Assumptions mutex_exclusion.
Print Assumptions mutex_never_aborts.
Print Assumptions mutex_word.
Print Assumptions mutex_at_rest.
Print Assumptions mutex_progress.

Local Tactic Notation "go" uconstr(t) := eapply steps_cons; [eapply t; reflexivity || (cbn; discriminate) || lia || auto|]; cbn [orb andb negb w_l w_k w_s w_n].
(** an execution through starvation mode: 1 waits, is woken, finds the mutex taken again by 0, waits again in starvation mode and is handed the mutex *)
Example mutex_case : exists ls s, steps (mx_step 2) mx_new ls s /\ x_pc s 1%nat = XHold /\ x_pc s 0%nat = XIdle /\ In 1%nat ls.
Proof.
  eexists _, _. split; [|split; [|split]].
  - unfold mx_new. go (mx_lock _ _ _ _ _ 0%nat). go (mx_fast _ _ _ _ 0%nat). go (mx_lock _ _ _ _ _ 1%nat). go (mx_slow _ _ _ _ _ 1%nat). go (mx_load _ _ _ _ _ 1%nat). go (mx_cas _ _ _ _ _ 1%nat).
    eapply steps_cons; [eapply (mx_unlock _ _ (MW false false false 1) _ _ _ 0%nat); reflexivity|]. cbn.
    go (mx_free _ _ _ _ _ 0%nat). go (mx_rel _ _ _ _ _ 0%nat). cbn.
    go (mx_lock _ _ _ _ _ 0%nat). go (mx_slow _ _ _ _ _ 0%nat). go (mx_load _ _ _ _ _ 0%nat). go (mx_cas _ _ _ _ _ 0%nat). cbn.
    eapply steps_cons; [eapply (mx_sem _ _ _ _ _ 1%nat _ true); [reflexivity|lia|auto]|]. go (mx_woke _ _ _ _ _ 1%nat). go (mx_cas _ _ _ _ _ 1%nat). cbn.
    eapply steps_cons; [eapply (mx_unlock _ _ (MW false false true 1) _ _ _ 0%nat); reflexivity|]. cbn. go (mx_rel _ _ _ _ _ 0%nat).
    eapply steps_cons; [eapply (mx_sem _ _ _ _ _ 1%nat _ true); [reflexivity|lia|auto]|]. go (mx_woke_st _ _ _ _ _ 1%nat).
    eapply steps_cons; [eapply (mx_delta _ _ (MW true false false 0) _ _ _ 1%nat); reflexivity|]. apply steps_nil.
  - reflexivity.
  - reflexivity.
  - cbn. auto.
Qed.
(** *** The mutex is not handed out in the order of the calls: who calls Lock later may get it without the one who waits doing
    anything *)
Theorem mutex_order_refuted : ~ (forall N ls s t st u ls' s', steps (mx_step N) mx_new ls s -> x_pc s t = XSem st -> x_pc s u = XIdle ->
  steps (mx_step N) s ls' s' -> x_pc s' u = XHold -> In t ls').
Proof.
  intros F. cut (exists ls s ls' s', steps (mx_step 3) mx_new ls s /\ x_pc s 1%nat = XSem false /\ x_pc s 2%nat = XIdle /\ steps (mx_step 3) s ls' s' /\ x_pc s' 2%nat = XHold /\ ~ In 1%nat ls').
  { intros (ls & s & ls' & s' & A & B & C & E & G & H). apply H. eapply (F 3%nat ls s 1%nat false 2%nat); eassumption. }
  eexists _, _, _, _. split; [|split; [|split; [|split; [|split]]]].
  - unfold mx_new. go (mx_lock _ _ _ _ _ 0%nat). go (mx_fast _ _ _ _ 0%nat). go (mx_lock _ _ _ _ _ 1%nat). go (mx_slow _ _ _ _ _ 1%nat). go (mx_load _ _ _ _ _ 1%nat). go (mx_cas _ _ _ _ _ 1%nat). apply steps_nil.
  - reflexivity.
  - reflexivity.
  - eapply steps_cons; [eapply (mx_unlock _ _ (MW false false false 1) _ _ _ 0%nat); reflexivity|]. cbn.
    go (mx_lock _ _ _ _ _ 2%nat). go (mx_slow _ _ _ _ _ 2%nat). go (mx_load _ _ _ _ _ 2%nat). go (mx_cas _ _ _ _ _ 2%nat). apply steps_nil.
  - reflexivity.
  - cbn. lia.
Qed.
Print Assumptions mutex_order_refuted.

(** the mutex of the other models: an owner or none *)
Inductive own_step : option nat -> nat -> option nat -> Prop :=
| own_other o t : own_step o t o
| own_take t : own_step None t (Some t)
| own_give t : own_step (Some t) t None.
(** *** What the goroutines see of it is what they see of an owner that is set when there is none, and cleared by the one who is *)
Theorem mutex_is_an_owner N ls s : steps (mx_step N) mx_new ls s ->
  exists o, steps own_step None ls o /\ forall t, x_pc s t = XHold <-> o = Some t.
Proof.
  intros HS. remember mx_new as s0 eqn:E0. revert E0. induction HS as [s|s ls s1 t s2 HS IH Hst]; intros ->.
  - exists None. split; [constructor|]. intros t. cbn. split; discriminate.
  - destruct (IH eq_refl) as (o & O & HO). assert (HS2 : steps (mx_step N) mx_new (ls ++ [t]) s2) by (econstructor; eassumption).
    assert (OT : forall u, u <> t -> x_pc s2 u = x_pc s1 u) by (intros u Hu; destruct Hst; cbn; try rewrite tset_ne by exact Hu; reflexivity).
    assert (HD : forall p : xpc, p = XHold \/ p <> XHold) by (intros []; (left; reflexivity) || (right; discriminate)).
    destruct (HD (x_pc s2 t)) as [H2|H2], (HD (x_pc s1 t)) as [H1|H1].
    + exists o. split; [econstructor; [exact O|constructor]|]. intros u. destruct (decide (u = t)) as [->|Nu]; [rewrite <- HO; tauto|rewrite OT by exact Nu; apply HO].
    + assert (o = None) as ->.
      { destruct o as [u|]; [exfalso|reflexivity]. pose proof (proj2 (HO u) eq_refl) as Hu. destruct (decide (u = t)) as [->|Nu]; [exact (H1 Hu)|].
        apply Nu. apply (mutex_exclusion N _ s2 u t HS2); [rewrite OT by exact Nu; exact Hu|exact H2]. }
      exists (Some t). split; [econstructor; [exact O|constructor]|]. intros u. destruct (decide (u = t)) as [->|Nu]; [tauto|].
      rewrite OT by exact Nu. rewrite HO. split; congruence.
    + apply HO in H1 as ->. exists None. split; [econstructor; [exact O|constructor]|]. intros u. destruct (decide (u = t)) as [->|Nu]; [split; [intros Q; destruct (H2 Q)|discriminate]|].
      rewrite OT by exact Nu. rewrite HO. split; congruence.
    + exists o. split; [econstructor; [exact O|constructor]|]. intros u. destruct (decide (u = t)) as [->|Nu]; [rewrite <- HO; tauto|rewrite OT by exact Nu; apply HO].
Qed.
Print Assumptions mutex_is_an_owner.

(** a step of a call that has begun; the flag says whether it is a spin *)
Definition mx_lab (N : nat) (s : mxstate) (l : nat * bool) (s' : mxstate) : Prop :=
  mx_step N s l.1 s' /\ x_pc s l.1 <> XIdle /\ (l.2 = true <-> spins s l.1 s').
Definition n_spins (ls : list (nat * bool)) : Z := Z.of_nat (length (filter (fun l => l.2 = true) ls)).
Lemma mx_lab_steps N s ls s' : steps (mx_lab N) s ls s' -> steps (mx_step N) s (map fst ls) s'.
Proof. induction 1 as [s|s ls s1 l s2 H IH (A & _)]; [constructor|]. rewrite map_app. econstructor; eassumption. Qed.
(** *** From wherever it is, without new calls of Lock, the goroutines have at most so many steps to do, and two more for
    every spin: nobody makes another try again for ever *)
Theorem mutex_drains N ls s ls' s' : steps (mx_step N) mx_new ls s -> steps (mx_lab N) s ls' s' ->
  Z.of_nat (length ls') <= 6 * (Z.of_nat N + 1) * (2 * Z.of_nat N + 1) * (3 * Z.of_nat N + 1) + 2 * n_spins ls'.
Proof.
  intros HS HL. pose proof (mu_b N s (mx_inv N _ _ HS)) as [_ B]. unfold zN in B.
  assert (Q : mu N s' + Z.of_nat (length ls') <= mu N s + 2 * n_spins ls').
  { clear B. induction HL as [s|s ls1 s1 l s2 HL IH (A & C & D)]; [unfold n_spins; cbn; lia|]. specialize (IH HS).
    assert (I1 : mxinv N s1) by (eapply mx_inv, steps_app; [exact HS|apply mx_lab_steps; exact HL]).
    rewrite app_length. unfold n_spins in *. rewrite filter_app, app_length. cbn [length filter list_filter]. destruct l as [t []]; cbn [fst snd] in *.
    - pose proof (mu_spin N _ _ _ I1 A (proj1 D eq_refl)). case_decide; [|congruence]. cbn [length]. lia.
    - pose proof (mu_step N _ _ _ I1 A C) as Q. case_decide; [discriminate|]. cbn [length]. specialize (Q ltac:(intros X; apply D in X; discriminate)). lia. }
  assert (0 <= mu N s') by (eapply mu_b, mx_inv, steps_app; [exact HS|apply mx_lab_steps; exact HL]). lia.
Qed.
(** *** And until all have returned somebody can do a step that is not a spin; so all return, the word is 0 again, and there is
    no token in the semaphore *)
Theorem mutex_all_return N ls s : steps (mx_step N) mx_new ls s ->
  (forall t, x_pc s t <> XIdle -> exists u s', mx_lab N s (u, false) s') /\
  exists ls' s', steps (mx_lab N) s ls' s' /\ n_spins ls' = 0 /\ (forall t, x_pc s' t = XIdle) /\ x_w s' = mw0 /\ x_sema s' = 0.
Proof.
  intros HS. assert (M : forall ls s t, steps (mx_step N) mx_new ls s -> x_pc s t <> XIdle -> exists u s', mx_lab N s (u, false) s').
  { clear ls s HS. intros ls s t HS Ht. pose proof (mx_inv N _ _ HS) as I. cut (exists u, x_pc s u <> XIdle /\ forall st, x_pc s u = XSem st -> 0 < x_sema s).
    { intros (u & A & B). destruct (mx_can_move N s u I A B) as (s' & C & D). exists u, s'. split; [exact C|]. split; [exact A|]. cbn. split; [discriminate|intros X; destruct (D X)]. }
    destruct (mutex_progress N _ _ t HS Ht) as [(u & Hu)|(u & s' & A & B & C)]; exists u.
    - rewrite Hu. split; discriminate.
    - split; [exact B|]. intros st E. destruct A; cbn in *; congruence || assumption. }
  split; [intros t; apply (M _ _ t HS)|].
  assert (K : forall n ls s, steps (mx_step N) mx_new ls s -> mu N s < Z.of_nat n ->
    exists ls' s', steps (mx_lab N) s ls' s' /\ n_spins ls' = 0 /\ (forall t, x_pc s' t = XIdle)).
  { clear ls s HS. induction n as [|n IH]; intros ls s HS B; [pose proof (mu_b N s (mx_inv N _ _ HS)); lia|].
    destruct (decide (ct N n_any (x_pc s) = 0)) as [Z0|Z0].
    - exists [], s. split; [constructor|]. split; [reflexivity|]. intros t. destruct (decide (t < N)%nat) as [L|L]; [|apply (mv_N _ _ (mx_inv N _ _ HS)); lia].
      pose proof (ct_ge N n_any (x_pc s) t ltac:(intros []; cbn; lia) L). destruct (x_pc s t); cbn in *; lia || reflexivity.
    - assert (0 <= ct N n_any (x_pc s)) by (apply ct_nonneg; intros []; cbn; lia). destruct (csum_pos N (fun t => n_any (x_pc s t)) ltac:(unfold ct in *; lia)) as (t & _ & Ht).
      destruct (M _ _ t HS ltac:(intros E; rewrite E in Ht; cbn in Ht; lia)) as (u & s1 & C & D & E). cbn in *.
      destruct (IH (ls ++ [u]) s1) as (ls' & s' & A1 & A2 & A3).
      { econstructor; eassumption. }
      { pose proof (mu_step N s u s1 (mx_inv N _ _ HS) C D ltac:(intros X; apply E in X; discriminate)). lia. }
      exists ((u, false) :: ls'), s'. split; [eapply steps_cons; [|exact A1]; repeat split; cbn; auto; apply E|]. split; [|exact A3].
      unfold n_spins in *. rewrite filter_cons. case_decide; [discriminate|]. exact A2. }
  destruct (K (Z.to_nat (mu N s + 1)) ls s HS ltac:(pose proof (mu_b N s (mx_inv N _ _ HS)); lia)) as (ls' & s' & A & B & C).
  exists ls', s'. split; [exact A|]. split; [exact B|]. split; [exact C|].
  destruct (mutex_at_rest N (ls ++ map fst ls') s') as (D & E & _); [eapply steps_app; [exact HS|apply mx_lab_steps; exact A]|auto|]. auto.
Qed.
Print Assumptions mutex_drains.
Print Assumptions mutex_all_return.

(** one has the mutex and another waits; both have something to do that is bounded, and it ends with the word 0 *)
Example mutex_drain_case : exists ls s, steps (mx_step 2) mx_new ls s /\ x_pc s 0%nat = XHold /\ x_pc s 1%nat = XSem false /\ x_w s = MW true false false 1.
Proof.
  eexists _, _. split; [|split; [|split]].
  - unfold mx_new. go (mx_lock _ _ _ _ _ 0%nat). go (mx_fast _ _ _ _ 0%nat). go (mx_lock _ _ _ _ _ 1%nat). go (mx_slow _ _ _ _ _ 1%nat). go (mx_load _ _ _ _ _ 1%nat). go (mx_cas _ _ _ _ _ 1%nat). apply steps_nil.
  - reflexivity.
  - reflexivity.
  - reflexivity.
Qed.
