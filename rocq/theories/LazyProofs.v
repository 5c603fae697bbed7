From Verif Require Import Base Conc LazyModel.

Section Proofs.
Context {A : Type} (zero : A) (ctor : nat -> res A).
Notation lstate := (lstate A).
Notation lpc := (lpc A).

Definition holds (p : lpc) : Prop :=
  match p with LCheck | LRun _ | LAssign _ | LSetDone _ | LUnlock _ => True | _ => False end.
(** in the section after the constructor was called and before done is set *)
Definition building (p : lpc) : Prop :=
  match p with LRun _ | LAssign _ | LSetDone _ => True | _ => False end.

(** what the first constructor call left in l.value *)
Definition final (v : A) : Prop := ctor 0 = Ret v \/ (ctor 0 = Panic /\ v = zero).

Definition pc_ok (s : lstate) (p : lpc) : Prop :=
  match p with
  | LRun n => n = 0 /\ l_value s = zero
  | LAssign x => ctor 0 = Ret x
  | LSetDone true => ctor 0 = Ret (l_value s)
  | LSetDone false => ctor 0 = Panic /\ l_value s = zero
  | LUnlock false => l_done s = true /\ ctor 0 = Panic
  | LUnlock true | LRead => l_done s = true
  | LRet v => l_done s = true /\ v = l_value s
  | LPanicked => ctor 0 = Panic
  | _ => True
  end.
Record linv (s : lstate) : Prop := {
  li_mutex : forall t, holds (l_th s t) <-> l_mutex s = Some t;
  li_pc : forall t, pc_ok s (l_th s t);
  li_done : l_done s = true -> l_calls s = 1 /\ final (l_value s) /\ forall t, ~ building (l_th s t);
  li_notdone : l_done s = false ->
    (l_calls s = 0 /\ l_value s = zero /\ (forall t, ~ building (l_th s t))) \/
    (l_calls s = 1 /\ exists t, building (l_th s t)) }.

Ltac cases u t := destruct (decide (u = t)) as [->|]; [rewrite ?tset_eq in *|rewrite ?tset_ne in * by assumption].

Lemma linv_init : linv (l_new zero).
Proof.
  split; cbn.
  - intros t. split; [intros []|discriminate].
  - tauto.
  - discriminate.
  - intros _. left. auto.
Qed.
Lemma linv_step s t s' : linv s -> l_step ctor s t s' -> linv s'.
Proof.
  intros [Im Ip Id In] H. destruct H as [d m v c th t H|d m v c th t H|d v c th t H|m v c th t H|m v c th t H
    |d m v c th t n x H Hc|d m v c th t n H Hc|d m v c th t x H|d m v c th t ok H|d m v c th t ok H|d m v c th t H];
    cbn [l_done l_mutex l_value l_calls l_th] in *; pose proof (Im t) as Imt; pose proof (Ip t) as Ipt.
  - (* call *)
    assert (NH : ~ holds (th t) /\ ~ building (th t)) by (destruct H as [->|[[x ->]| ->]]; cbn; tauto). destruct NH as [NH NB].
    split; cbn [l_done l_mutex l_value l_calls l_th].
    + intros u. cases u t; [cbn; tauto|apply Im].
    + intros u. cases u t; [exact I|apply Ip].
    + intros E. destruct (Id E) as (I1 & I2 & I3). split; [exact I1|]. split; [exact I2|]. intros u. cases u t; [cbn; tauto|apply I3].
    + intros E. destruct (In E) as [(I1 & I2 & I3)|(I1 & u & I2)]; [left|right]; (split; [exact I1|]).
      * split; [exact I2|]. intros u. cases u t; [cbn; tauto|apply I3].
      * exists u. cases u t; [tauto|exact I2].
  - (* load *)
    rewrite H in *. split; cbn [l_done l_mutex l_value l_calls l_th].
    + intros u. cases u t; [destruct d; cbn in *; tauto|apply Im].
    + intros u. cases u t; [destruct d; exact I || reflexivity|apply Ip].
    + intros E. destruct (Id E) as (I1 & I2 & I3). split; [exact I1|]. split; [exact I2|]. intros u. cases u t; [destruct d; cbn; tauto|apply I3].
    + intros E. destruct (In E) as [(I1 & I2 & I3)|(I1 & u & I2)]; [left|right]; (split; [exact I1|]).
      * split; [exact I2|]. intros u. cases u t; [destruct d; cbn; tauto|apply I3].
      * exists u. cases u t; [rewrite H in I2; destruct I2|exact I2].
  - (* lock *)
    rewrite H in *. split; cbn [l_done l_mutex l_value l_calls l_th].
    + intros u. cases u t; [cbn; tauto|]. rewrite Im. split; [discriminate|congruence].
    + intros u. cases u t; [exact I|apply Ip].
    + intros E. destruct (Id E) as (I1 & I2 & I3). split; [exact I1|]. split; [exact I2|]. intros u. cases u t; [cbn; tauto|apply I3].
    + intros E. destruct (In E) as [(I1 & I2 & I3)|(I1 & u & I2)]; [left|right]; (split; [exact I1|]).
      * split; [exact I2|]. intros u. cases u t; [cbn; tauto|apply I3].
      * exists u. cases u t; [rewrite H in I2; destruct I2|exact I2].
  - (* check, done *)
    rewrite H in *. split; cbn [l_done l_mutex l_value l_calls l_th]; [| | |discriminate].
    + intros u. cases u t; [cbn in *; tauto|apply Im].
    + intros u. cases u t; [reflexivity|apply Ip].
    + intros E. destruct (Id E) as (I1 & I2 & I3). split; [exact I1|]. split; [exact I2|]. intros u. cases u t; [cbn; tauto|apply I3].
  - (* check, run the constructor *)
    rewrite H in *. assert (Em : m = Some t) by (apply Imt; exact I). subst m.
    destruct (In eq_refl) as [(I1 & I2 & I3)|(I1 & u & I2)].
    2:{ exfalso. assert (Hu : holds (th u)) by (destruct (th u); cbn in *; tauto). apply Im in Hu. injection Hu as ->. rewrite H in I2. destruct I2. }
    subst c v. split; cbn [l_done l_mutex l_value l_calls l_th]; [| |discriminate|].
    + intros u. cases u t; [cbn; tauto|apply Im].
    + intros u. cases u t; [cbn; auto|]. specialize (Ip u). exact Ip.
    + intros _. right. split; [reflexivity|]. exists t. rewrite tset_eq. exact I.
  - (* constructor returns *)
    rewrite H in *. cbn in Ipt. destruct Ipt as [-> Ev]. split; cbn [l_done l_mutex l_value l_calls l_th].
    + intros u. cases u t; [cbn in *; tauto|apply Im].
    + intros u. cases u t; [exact Hc|apply Ip].
    + intros E. destruct (Id E) as (I1 & I2 & I3). exfalso. apply (I3 t). rewrite H. exact I.
    + intros E. right. destruct (In E) as [(I1 & I2 & I3)|(I1 & u & I2)]; [exfalso; apply (I3 t); rewrite H; exact I|].
      split; [exact I1|]. exists t. rewrite tset_eq. exact I.
  - (* constructor panics *)
    rewrite H in *. cbn in Ipt. destruct Ipt as [-> Ev]. split; cbn [l_done l_mutex l_value l_calls l_th].
    + intros u. cases u t; [cbn in *; tauto|apply Im].
    + intros u. cases u t; [cbn; auto|apply Ip].
    + intros E. destruct (Id E) as (I1 & I2 & I3). exfalso. apply (I3 t). rewrite H. exact I.
    + intros E. right. destruct (In E) as [(I1 & I2 & I3)|(I1 & u & I2)]; [exfalso; apply (I3 t); rewrite H; exact I|].
      split; [exact I1|]. exists t. rewrite tset_eq. exact I.
  - (* assign *)
    rewrite H in *. cbn in Ipt. assert (Em : m = Some t) by (apply Imt; exact I). subst m.
    assert (Ed : d = false).
    { destruct d; [|reflexivity]. destruct (Id eq_refl) as (_ & _ & I3). exfalso. apply (I3 t). rewrite H. exact I. } subst d.
    destruct (In eq_refl) as [(_ & _ & I3)|(I1 & _)]; [exfalso; apply (I3 t); rewrite H; exact I|].
    split; cbn [l_done l_mutex l_value l_calls l_th].
    + intros u. cases u t; [cbn; tauto|apply Im].
    + intros u. cases u t; [exact Ipt|]. specialize (Ip u). assert (NH : ~ holds (th u)) by (rewrite Im; congruence).
      destruct (th u) as [| | | | | |[]|[]| | |]; cbn in *; try tauto; try congruence. destruct Ip; congruence.
    + discriminate.
    + intros _. right. split; [exact I1|]. exists t. rewrite tset_eq. exact I.
  - (* set done *)
    rewrite H in *. assert (Em : m = Some t) by (apply Imt; exact I). subst m.
    assert (Ed : d = false).
    { destruct d; [|reflexivity]. destruct (Id eq_refl) as (_ & _ & I3). exfalso. apply (I3 t). rewrite H. exact I. } subst d.
    destruct (In eq_refl) as [(_ & _ & I3)|(I1 & _)]; [exfalso; apply (I3 t); rewrite H; exact I|].
    assert (NB : forall u, u <> t -> ~ building (th u)).
    { intros u Hu HB. assert (Hh : holds (th u)) by (destruct (th u); cbn in *; tauto). apply Im in Hh. congruence. }
    split; cbn [l_done l_mutex l_value l_calls l_th]; [| | |discriminate].
    + intros u. cases u t; [cbn; tauto|apply Im].
    + intros u. cases u t; [destruct ok; cbn in *; tauto|]. specialize (Ip u).
      destruct (th u) as [| | | | | |[]|[]| | |]; cbn in *; try tauto.
    + intros _. split; [exact I1|]. split; [destruct ok; cbn in Ipt; unfold final; tauto|]. intros u. cases u t; [cbn; tauto|apply NB; assumption].
  - (* unlock *)
    rewrite H in *. assert (Em : m = Some t) by (apply Imt; exact I). subst m.
    assert (Ed : d = true) by (destruct ok; cbn in Ipt; tauto). subst d.
    split; cbn [l_done l_mutex l_value l_calls l_th]; [| | |discriminate].
    + intros u. cases u t; [destruct ok; cbn; split; (tauto || discriminate)|]. rewrite Im. split; congruence.
    + intros u. cases u t; [destruct ok; cbn in *; tauto|apply Ip].
    + intros _. destruct (Id eq_refl) as (I1 & I2 & I3). split; [exact I1|]. split; [exact I2|]. intros u. cases u t; [destruct ok; cbn; tauto|apply I3].
  - (* read *)
    rewrite H in *. cbn in Ipt. subst d. split; cbn [l_done l_mutex l_value l_calls l_th]; [| | |discriminate].
    + intros u. cases u t; [cbn in *; tauto|apply Im].
    + intros u. cases u t; [cbn; auto|apply Ip].
    + intros _. destruct (Id eq_refl) as (I1 & I2 & I3). split; [exact I1|]. split; [exact I2|]. intros u. cases u t; [cbn; tauto|apply I3].
Qed.
Lemma linv_reach s : reach (l_new zero) (l_step ctor) s -> linv s.
Proof. apply reach_invariant; [exact linv_init|exact linv_step]. Qed.

Definition in_call (p : lpc) : Prop := match p with LIdle | LRet _ | LPanicked => False | _ => True end.
(** a goroutine in a call can move, or the one holding the mutex can *)
Lemma l_progress s t : linv s -> ctor 0 <> Spin -> in_call (l_th s t) ->
  exists u s', in_call (l_th s u) /\ l_step ctor s u s'.
Proof.
  intros L Hc Ht.
  assert (HH : forall u, holds (l_th s u) -> exists s', l_step ctor s u s').
  { intros u Hu. pose proof (li_pc s L u) as P. destruct s as [d m v c th]. cbn in *.
    destruct (th u) eqn:E; cbn in *; try tauto.
    - destruct d; eexists; [eapply ls_check_done; eauto|eapply ls_check_run; eauto].
    - destruct P as [-> _]. destruct (ctor 0) eqn:Ec; [|eexists; eapply ls_ctor_panic; eauto|congruence]. eexists. eapply ls_ctor_ret; eauto.
    - eexists. eapply ls_assign; eauto.
    - eexists. eapply ls_set_done; eauto.
    - eexists. eapply ls_unlock; eauto. }
  destruct (l_th s t) eqn:E; cbn in Ht; try tauto;
    try (exists t; destruct (HH t) as [s' Hs]; [rewrite E; exact I|]; exists s'; rewrite E; auto).
  - exists t. destruct s. cbn in *. eexists. rewrite E. split; [exact I|]. eapply ls_load; eauto.
  - destruct (l_mutex s) as [u|] eqn:Em.
    + assert (Hu : holds (l_th s u)) by (apply (li_mutex s L); exact Em). destruct (HH u Hu) as [s' Hs].
      exists u, s'. split; [|exact Hs]. destruct (l_th s u); cbn in *; tauto.
    + exists t. destruct s. cbn in *. subst. eexists. rewrite E. split; [exact I|]. eapply ls_lock; eauto.
  - exists t. destruct s. cbn in *. eexists. rewrite E. split; [exact I|]. eapply ls_read; eauto.
Qed.
End Proofs.
