From Verif Require Import Base Conc TimeModel TimeProofs SleepModel.
Local Open Scope Z.
Ltac cases u t := destruct (decide (u = t)) as [->|]; [rewrite ?tset_eq in *|rewrite ?tset_ne in * by assumption].

Definition in_sleep (p : spc) : Prop := match p with SDone _ | SWait _ _ _ | SStore _ _ _ => True | _ => False end.
Definition in_wake (p : spc) : Prop := match p with WLoad | WRead | WCancel _ | WCtx | WCan _ => True | _ => False end.
(** *** at most one sleeper *)
Record cinv (s : cstate) : Prop := {
  ci_excl : forall t u, in_sleep (c_th s t) -> in_sleep (c_th s u) -> t = u;
  ci_on : forall t, in_sleep (c_th s t) -> c_slept s = true;
  ci_off : c_slept s = true -> exists t, in_sleep (c_th s t) }.
Lemma cinv_keep s th t p s' : cinv s -> c_th s = th -> in_sleep p <-> in_sleep (th t) -> c_slept s' = c_slept s -> c_th s' = tset th t p -> cinv s'.
Proof.
  intros [E O F] <- Q Es Et.
  assert (K : forall u, in_sleep (c_th s' u) <-> in_sleep (c_th s u)) by (rewrite Et; intros u; cases u t; [exact Q|reflexivity]).
  constructor; rewrite ?Es; [intros u v; rewrite !K; apply E|intros u; rewrite K; apply O|].
  intros Hs. destruct (F Hs) as [u Hu]. exists u. rewrite K. exact Hu.
Qed.
Lemma cinv_step s l s' : cinv s -> c_step s l s' -> cinv s'.
Proof.
  intros Inv H. destruct H;
    try (eapply (cinv_keep _ _ t _ _ Inv eq_refl); [|reflexivity|reflexivity]; cbn; rewrite H; cbn; tauto).
  - destruct Inv as [E O F]. constructor; assumption.
  - destruct Inv as [E O F]. cbn in *.
    assert (N : forall u, ~ in_sleep (th u)) by (intros u Hu; specialize (O u Hu); discriminate).
    constructor; cbn.
    + intros u v Hu Hv. cases u t; cases v t; try reflexivity; exfalso; eapply N; eassumption.
    + reflexivity.
    + intros _. exists t. rewrite tset_eq. exact I.
  - destruct Inv as [E O F]. cbn in *.
    assert (Ht : in_sleep (th t)) by (rewrite H; exact I).
    assert (N : forall u, ~ in_sleep (tset th t SIdle u)).
    { intros u Hu. cases u t; [exact Hu|]. assert (u = t) by (apply E; assumption). congruence. }
    constructor; cbn.
    + intros u v Hu. exfalso. eapply N, Hu.
    + intros u Hu. exfalso. eapply N, Hu.
    + discriminate.
Qed.
Lemma cinv_reach now0 s : reach (c_init now0) c_step s -> cinv s.
Proof.
  apply reach_invariant; [|exact cinv_step]. constructor; cbn; [intros ? ? []|intros ? []|discriminate].
Qed.

(** *** why a sleeper ends *)
Definition ended_well (s : cstate) : Prop :=
  forall t k e t0, c_th s t = SStore k e t0 -> timer_fired k t0 (c_now s) \/ c_cancelled s e = true.
Lemma fired_later k t0 n1 n2 : timer_fired k t0 n1 -> n1 <= n2 -> timer_fired k t0 n2.
Proof. unfold timer_fired. destruct (delay k t0); [lia|auto]. Qed.
Lemma ended_well_step s l s' : ended_well s -> c_step s l s' -> ended_well s'.
Proof.
  intros I H. destruct H; intros u k' e' t0' Hu; cbn in *; try (cases u t; [try discriminate|]); try (apply (I u k' e' t0' Hu)).
  - destruct (I u k' e' t0' Hu) as [G|G]; [left; cbn in G; eapply fired_later; eassumption|right; exact G].
  - injection Hu as -> -> ->. left. assumption.
  - injection Hu as -> -> ->. right. assumption.
  - destruct (I u k' e' t0' Hu) as [G|G]; [left; exact G|right]. cbn in *. cases e' e; [reflexivity|exact G].
Qed.
Lemma ended_well_reach now0 s : reach (c_init now0) c_step s -> ended_well s.
Proof. apply reach_invariant; [|exact ended_well_step]. intros t k e t0. cbn. discriminate. Qed.

(** *** Wakeup, if Wakeup calls do not overlap *)
Definition serial (s : cstate) : Prop := forall t u, in_wake (c_th s t) -> in_wake (c_th s u) -> t = u.
Definition c_step_serial (s : cstate) (l : slab) (s' : cstate) : Prop := c_step s l s' /\ serial s'.
Record winv (s : cstate) : Prop := {
  wi_serial : serial s;
  wi_lt : (c_ctx s < c_next s)%nat;
  (* ctx and cancel belong together, except in the window *)
  wi_pair : (forall t e, c_th s t <> WCan e) -> c_cancel s = c_ctx s;
  wi_win : forall t e, c_th s t = WCan e -> e = c_ctx s;
  wi_can : forall t e, c_th s t = WCancel e -> e = c_ctx s /\ c_cancel s = c_ctx s;
  wi_ctx : forall t, c_th s t = WCtx -> c_cancelled s (c_ctx s) = true;
  (* a sleeper waits on the current context or on a cancelled one *)
  wi_wait : forall t k e t0, c_th s t = SWait k e t0 -> e = c_ctx s \/ c_cancelled s e = true }.
Lemma winv_keep s s' t p : winv s -> serial s' -> c_th s' = tset (c_th s) t p ->
  c_ctx s' = c_ctx s -> c_cancel s' = c_cancel s -> c_next s' = c_next s -> c_cancelled s' = c_cancelled s ->
  (forall e, c_th s t <> WCan e) -> (forall e, p <> WCan e) ->
  (forall e, p = WCancel e -> e = c_ctx s /\ c_cancel s = c_ctx s) -> p <> WCtx ->
  (forall k e t0, p = SWait k e t0 -> e = c_ctx s \/ c_cancelled s e = true) -> winv s'.
Proof.
  intros [S L P W C X T] S' Et E1 E2 E3 E4 N1 N2 HC HX HT. constructor; rewrite ?E1, ?E2, ?E3, ?E4, ?Et; try assumption.
  - intros HP. apply P. intros u e Hu. cases u t; [exact (N1 e Hu)|]. apply (HP u e). rewrite tset_ne by assumption. exact Hu.
  - intros u e Hu. cases u t; [destruct (N2 e Hu)|exact (W u e Hu)].
  - intros u e Hu. cases u t; [exact (HC e Hu)|exact (C u e Hu)].
  - intros u Hu. cases u t; [destruct (HX Hu)|exact (X u Hu)].
  - intros u k e t0 Hu. cases u t; [exact (HT k e t0 Hu)|exact (T u k e t0 Hu)].
Qed.
Lemma winv_step s l s' : winv s -> c_step_serial s l s' -> winv s'.
Proof.
  intros Inv [H S']. destruct H;
    try (eapply (winv_keep _ _ t _ Inv S'); [reflexivity|reflexivity|reflexivity|reflexivity|reflexivity|cbn; congruence|congruence|congruence|congruence|congruence]).
  - destruct Inv as [S L P W C X T]. constructor; assumption.
  - (* done *) eapply (winv_keep _ _ t _ Inv S'); [reflexivity|reflexivity|reflexivity|reflexivity|reflexivity|cbn; congruence|congruence|congruence|congruence|].
    cbn. intros k' e t0 [= -> -> ->]. left. reflexivity.
  - (* read *) assert (E : c = x).
    { apply (wi_pair _ Inv). cbn. intros u e Hu. assert (u = t) as -> by (apply (wi_serial _ Inv); cbn; [rewrite Hu|rewrite H]; exact I). congruence. }
    subst c. eapply (winv_keep _ _ t _ Inv S'); [reflexivity|reflexivity|reflexivity|reflexivity|reflexivity|cbn; congruence|congruence| |congruence|congruence].
    cbn. intros e [= ->]. auto.
  - (* cancel *) destruct Inv as [S L P W C X T]. cbn in *. destruct (C t e H) as [-> ->]. constructor; cbn; try assumption.
    + reflexivity.
    + intros u e Hu. cases u t; [discriminate|exact (W u e Hu)].
    + intros u e Hu. cases u t; [discriminate|]. exact (C u e Hu).
    + intros u Hu. rewrite tset_eq. reflexivity.
    + intros u k e t0 Hu. cases u t; [discriminate|]. destruct (T u k e t0 Hu) as [G|G]; [left; exact G|right]. cases e x; [reflexivity|exact G].
  - (* new context *) destruct Inv as [S L P W C X T]. cbn in *.
    assert (N : forall u, u <> t -> ~ in_wake (th u)).
    { intros u Hu Hw. apply Hu. apply S; cbn; [exact Hw|rewrite H; exact I]. }
    constructor; cbn; try assumption.
    + lia.
    + intros HP. exfalso. apply (HP t n). apply tset_eq.
    + intros u e Hu. cases u t; [congruence|]. destruct (N u ltac:(assumption)). rewrite Hu. exact I.
    + intros u e Hu. cases u t; [congruence|]. destruct (N u ltac:(assumption)). rewrite Hu. exact I.
    + intros u Hu. cases u t; [congruence|]. destruct (N u ltac:(assumption)). rewrite Hu. exact I.
    + intros u k e t0 Hu. cases u t; [congruence|]. right. destruct (T u k e t0 Hu) as [->|G]; [exact (X t H)|exact G].
  - (* new cancel *) destruct Inv as [S L P W C X T]. cbn in *. pose proof (W t e H) as ->.
    assert (N : forall u, u <> t -> ~ in_wake (th u)).
    { intros u Hu Hw. apply Hu. apply S; cbn; [exact Hw|rewrite H; exact I]. }
    constructor; cbn; try assumption.
    + reflexivity.
    + intros u e Hu. cases u t; [congruence|]. exact (W u e Hu).
    + intros u e Hu. cases u t; [congruence|]. destruct (N u ltac:(assumption)). rewrite Hu. exact I.
    + intros u Hu. cases u t; [congruence|]. exact (X u Hu).
    + intros u k e t0 Hu. cases u t; [congruence|]. exact (T u k e t0 Hu).
Qed.
Lemma winv_reach now0 s : reach (c_init now0) c_step_serial s -> winv s.
Proof.
  apply reach_invariant; [|exact winv_step]. constructor; cbn; try discriminate; try lia; try reflexivity. intros ? ? [].
Qed.
(** what a Wakeup cancels *)
Lemma cancel_hits s t e s' : winv s -> c_th s t = WCancel e -> c_step_serial s (LTau t) s' ->
  forall u k e' t0, c_th s' u = SWait k e' t0 -> c_cancelled s' e' = true.
Proof.
  intros Inv Ht [H S']. inversion H; subst; cbn in *; try congruence.
  assert (e0 = e) as -> by congruence. destruct (wi_can _ Inv t e Ht) as [E _]. cbn in E. subst e.
  intros u k e' t0 Hu. cases u t; [discriminate|]. destruct (wi_wait _ Inv u k e' t0 Hu) as [G|G]; cbn in G.
  - subst e'. apply tset_eq.
  - cases e' x; [reflexivity|exact G].
Qed.
(** cancelled stays cancelled *)
Lemma cancelled_stays s l s' e : c_step s l s' -> c_cancelled s e = true -> c_cancelled s' e = true.
Proof. intros H. destruct H; cbn; auto. intros Hc. cases e e0; [reflexivity|exact Hc]. Qed.
