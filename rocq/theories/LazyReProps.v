(** Lazy with a constructor that calls Get (C108). *)
From Verif Require Import Base Conc LazyReModel.

Section props.
Context {A : Type} (zero : A) (ctor : nat -> lcode A).
Notation step := (r_step ctor).
Notation init := (r_new zero).

(** what is true of a goroutine in a reachable state *)
Definition tok (d : bool) (m : option nat) (t : nat) (x : rthr A) : Prop :=
  match r_in x with
  | [] => match r_pc x with
          | RCheck => m = Some t
          | RRun _ | RAssign _ | RSetDone _ => m = Some t /\ d = false
          | RUnlock _ => m = Some t /\ d = true
          | RRead | RRet _ | RPanicked => d = true
          | RIdle | RLoad | RWait => True
          end
  | _ => m = Some t /\ d = false /\ (r_pc x = RLoad \/ r_pc x = RWait)
  end.
Definition rinv (s : rstate A) : Prop := forall t, tok (r_done s) (r_mutex s) t (r_th s t).
(** the other goroutines when t, which holds the mutex or finds it free, changes done and
    the mutex *)
Lemma tok_other d m d' m' t u x : u <> t -> m = None \/ m = Some t -> (d = true -> d' = true) -> tok d m u x -> tok d' m' u x.
Proof.
  intros Hu Hm Hd. assert (m <> Some u) as HN by (destruct Hm; congruence). unfold tok. destruct (r_in x); [|tauto].
  destruct (r_pc x); tauto.
Qed.
Lemma rinv_step s l s' : rinv s -> step s l s' -> rinv s'.
Proof.
  intros HI HS. unfold rinv in *.
  destruct HS; cbn [r_done r_mutex r_th] in *; intros u; pose proof (HI t) as Ht; unfold tok in Ht;
    (destruct (decide (u = t)) as [->|Hu]; [rewrite tset_eq; unfold tok; cbn [r_in r_pc]|rewrite tset_ne by exact Hu; try apply HI]);
    try (rewrite H in Ht; cbn [r_in r_pc] in Ht); try (destruct st as [|k' st]); try (destruct Ht as (Ht1 & Ht2 & [Ht3|Ht3]); discriminate); try tauto; try (exfalso; destruct Ht; discriminate).
  - destruct d; reflexivity || exact I.
  - destruct Ht as (H1 & -> & _). auto.
  - apply (tok_other d None d (Some t) t u _ Hu); auto.
  - destruct Ht as [-> _]. apply (tok_other d (Some t) true (Some t) t u _ Hu); auto.
  - destruct ok; tauto.
  - destruct Ht as [-> ->]. apply (tok_other true (Some t) true None t u _ Hu); auto.
Qed.
Lemma rinv_reach s : reach init step s -> rinv s.
Proof. apply reach_invariant; [intros t; exact I|apply rinv_step]. Qed.
Lemma rinv_steps s ls s' : rinv s -> steps step s ls s' -> rinv s'.
Proof. intros H. apply (steps_invariant s step rinv H rinv_step). Qed.

(** inside a constructor, about to call Get, or calling it *)
Definition at_get (k : A -> lcode A) (x : rthr A) : Prop := x = RThr (RRun (LCGet k)) [] \/ x = RThr RLoad [k] \/ x = RThr RWait [k].
Lemma at_get_step s l s' t k : rinv s -> at_get k (r_th s t) -> step s l s' -> at_get k (r_th s' t).
Proof.
  intros HI HT HS. pose proof (HI t) as HK.
  assert (HK' : r_mutex s = Some t /\ r_done s = false) by (unfold tok in HK; destruct HT as [E|[E|E]]; rewrite E in HK; cbn in HK; tauto). destruct HK' as [HM HD].
  destruct HS; cbn [r_done r_mutex r_th] in *; (destruct (decide (t = t0)) as [<-|Hu]; [rewrite tset_eq|rewrite tset_ne by exact Hu; exact HT]).
  all: unfold at_get in *; destruct HT as [E|[E|E]]; try (rewrite H in E; discriminate).
  all: try (destruct H as [H|[[x H]|H]]; rewrite H in E; discriminate).
  all: try (rewrite H in E; injection E as -> ; auto; fail).
  all: try discriminate HM.
  - rewrite H in E. injection E as ->. rewrite HD. auto.
  - rewrite H in E. injection E as -> ->. auto.
Qed.

(** C108: a constructor that calls Get of its own Lazy never gets an answer: that goroutine
    stays there, and no Get of this Lazy returns or panics, in any goroutine *)
Theorem lazy_reentrant_hangs s ls s' t k : reach init step s -> r_th s t = RThr (RRun (LCGet k)) [] -> steps step s ls s' ->
  at_get k (r_th s' t) /\ r_calls s' = r_calls s /\ forall u v, r_pc (r_th s' u) <> RRet v /\ r_pc (r_th s' u) <> RPanicked.
Proof.
  intros HR HT HS. pose proof (rinv_reach s HR) as HI.
  assert (HG : at_get k (r_th s' t) /\ r_calls s' = r_calls s).
  { induction HS as [|s ls s1 l s2 HS IH H1]; [split; [left; exact HT|reflexivity]|].
    destruct (IH HR HT HI) as [G1 G2]. pose proof (rinv_steps _ _ _ HI HS) as HI1. split; [eapply at_get_step; eauto|]. rewrite <- G2. clear IH HS HR HT HI G2 ls s.
    destruct H1; try reflexivity. cbn [r_calls]. exfalso. pose proof (HI1 t) as K1. pose proof (HI1 t0) as K2. unfold tok in *. cbn [r_th r_mutex r_done] in *. rewrite H in K2. cbn in K2.
    destruct st; [|destruct K2 as (_ & _ & [E|E]); discriminate].
    assert (t = t0) as -> by (destruct G1 as [E|[E|E]]; rewrite E in K1; cbn in K1; destruct K1; congruence). destruct G1 as [E|[E|E]]; rewrite E in H; discriminate. }
  destruct HG as [HG1 HG2]. split; [exact HG1|]. split; [exact HG2|]. intros u v. pose proof (rinv_steps _ _ _ HI HS) as HI'.
  assert (HD : r_done s' = false) by (pose proof (HI' t) as K; unfold tok in K; destruct HG1 as [E|[E|E]]; rewrite E in K; cbn in K; tauto).
  pose proof (HI' u) as K. unfold tok in K. rewrite HD in K. destruct (r_in (r_th s' u)); [|destruct K as (_ & _ & [-> | ->]); split; discriminate].
  destruct (r_pc (r_th s' u)); split; congruence.
Qed.
Definition early (p : rpc A) : bool := match p with RIdle | RLoad | RWait | RCheck => true | _ => false end.
Lemma early_step s l s' k : ctor 0 = LCGet k -> r_done s = false -> r_calls s = 0 -> (forall u, r_in (r_th s u) = [] /\ early (r_pc (r_th s u)) = true) -> step s l s' ->
  r_done s' = false /\ (r_calls s' = 0 /\ (forall u, r_in (r_th s' u) = [] /\ early (r_pc (r_th s' u)) = true) \/ exists u, r_th s' u = RThr (RRun (LCGet k)) []).
Proof.
  intros HC HD H0 HE HS. destruct HS; cbn [r_done r_calls r_th] in *; pose proof (HE t) as [H1 H2]; try discriminate HD;
    try (rewrite H in H1, H2; cbn [r_in r_pc] in H1, H2; try discriminate H2); subst; (split; [reflexivity|]).
  4: { right. exists t. rewrite tset_eq, HC. reflexivity. }
  all: left; split; [reflexivity|]; intros u; destruct (decide (u = t)) as [->|Hu]; [rewrite tset_eq; auto|rewrite tset_ne by exact Hu; apply HE].
Qed.
(** so if the constructor calls Get first thing, no Get ever returns, or panics *)
Theorem lazy_reentrant_never s k t v : ctor 0 = LCGet k -> reach init step s -> r_pc (r_th s t) <> RRet v /\ r_pc (r_th s t) <> RPanicked.
Proof.
  intros HC HR.
  cut (rinv s /\ r_done s = false /\ (r_calls s = 0 /\ (forall u, r_in (r_th s u) = [] /\ early (r_pc (r_th s u)) = true) \/ exists u, at_get k (r_th s u))).
  { intros (HI & HD & _). specialize (HI t). unfold tok in HI. rewrite HD in HI. destruct (r_in (r_th s t)); [|destruct HI as (_ & _ & [-> | ->]); split; discriminate].
    destruct (r_pc (r_th s t)); split; congruence. }
  revert s HR. apply (reach_invariant init step (fun s => rinv s /\ r_done s = false /\ (r_calls s = 0 /\ (forall u, r_in (r_th s u) = [] /\ early (r_pc (r_th s u)) = true) \/ exists u, at_get k (r_th s u)))).
  - split; [intros u; exact I|]. split; [reflexivity|]. left. auto.
  - intros s1 l s2 (HI & HD & HX) HS. pose proof (rinv_step _ _ _ HI HS) as HI2. split; [exact HI2|]. destruct HX as [(HX1 & HX2)|(u & Hu)].
    + destruct (early_step _ _ _ k HC HD HX1 HX2 HS) as [E1 [E2|(u & E2)]]; (split; [exact E1|]); [left; exact E2|right; exists u; left; exact E2].
    + pose proof (at_get_step _ _ _ _ _ HI Hu HS) as Hu2. split; [|eauto]. pose proof (HI2 u) as K. unfold tok in K. destruct Hu2 as [E|[E|E]]; rewrite E in K; cbn in K; tauto.
Qed.

(** how the Get that runs the constructor must end: with the value, or with the panic *)
Definition ending (v : option A) (x : rthr A) : Prop :=
  match v with
  | Some v => x = RThr (RRun (LCRet v)) [] \/ x = RThr (RAssign v) [] \/ x = RThr (RSetDone true) [] \/ x = RThr (RUnlock true) [] \/ x = RThr RRead []
  | None => x = RThr (RRun LCPanic) [] \/ x = RThr (RSetDone false) [] \/ x = RThr (RUnlock false) []
  end.
Definition ended (v : option A) : rthr A := RThr (match v with Some v => RRet v | None => RPanicked end) [].
(** the value is there once it has been assigned *)
Definition stored (v : option A) (s : rstate A) (t : nat) : Prop :=
  match v with
  | Some v => r_th s t = RThr (RSetDone true) [] \/ r_th s t = RThr (RUnlock true) [] \/ r_th s t = RThr RRead [] -> r_value s = v
  | None => True
  end.
Lemma ending_step s l s' t v : rinv s -> ending v (r_th s t) -> stored v s t -> step s l s' -> ending v (r_th s' t) /\ stored v s' t \/ r_th s' t = ended v.
Proof.
  intros HI HT HV HS. pose proof (HI t) as HK. destruct v as [w|]; unfold ending, stored, ended in *.
  - assert (HK' : forall u x st, r_th s u = RThr (RAssign x) st -> u <> t -> ~ (r_th s t = RThr (RSetDone true) [] \/ r_th s t = RThr (RUnlock true) [] \/ r_th s t = RThr RRead [])).
    { intros u x st E Hu HE. pose proof (HI u) as K. unfold tok in K, HK. rewrite E in K. cbn in K.
      destruct st; [|destruct K as (_ & _ & [K|K]); discriminate]. destruct K as [K1 K2]. rewrite K1, K2 in HK. destruct HE as [HE|[HE|HE]]; rewrite HE in HK; cbn in HK; [destruct HK as [HK _]; congruence|destruct HK; congruence|discriminate]. }
    destruct HS; cbn [r_done r_mutex r_th r_value] in *; (destruct (decide (t = t0)) as [<-|Hu]; [rewrite tset_eq|rewrite tset_ne by exact Hu; left; split; [exact HT|]]); try exact HV.
    all: try (destruct H as [H|[[x H]|H]]; rewrite H in HT; intuition discriminate).
    all: try (rewrite H in HT; intuition discriminate).
    all: try (intros HE; exfalso; apply (HK' t0 x st H ltac:(congruence) HE)).
    all: rewrite H in HT, HV; repeat (destruct HT as [HT|HT]; try discriminate HT); try discriminate HT; inversion HT; subst; clear HT.
    all: try (left; split; [auto 6|]; intros [E|[E|E]]; try discriminate E; auto 6; fail).
    all: try (right; rewrite HV by auto; reflexivity).
  - destruct HS; cbn [r_done r_mutex r_th r_value] in *; (destruct (decide (t = t0)) as [<-|Hu]; [rewrite tset_eq|rewrite tset_ne by exact Hu; left; split; [exact HT|exact I]]).
    all: try (destruct H as [H|[[x H]|H]]; rewrite H in HT; intuition discriminate).
    all: try (rewrite H in HT; intuition discriminate).
    all: rewrite H in HT; repeat (destruct HT as [HT|HT]; try discriminate HT); try discriminate HT; inversion HT; subst; clear HT; auto 6.
Qed.
(** a Get that has run the constructor returns the value of the constructor, or panics if it
    panics, before it does anything else *)
Theorem lazy_get_outcome s ls s' t v : reach init step s -> r_th s t = RThr (RRun (match v with Some v => LCRet v | None => LCPanic end)) [] ->
  steps step s ls s' -> ending v (r_th s' t) \/ exists ls1 s1 ls2, ls = ls1 ++ ls2 /\ steps step s ls1 s1 /\ r_th s1 t = ended v /\ steps step s1 ls2 s'.
Proof.
  intros HR HT HS. pose proof (rinv_reach s HR) as HI. clear HR.
  cut (ending v (r_th s' t) /\ stored v s' t \/ exists ls1 s1 ls2, ls = ls1 ++ ls2 /\ steps step s ls1 s1 /\ r_th s1 t = ended v /\ steps step s1 ls2 s'); [tauto|].
  induction HS as [|s ls s1 l s2 HS IH H1].
  - left. split; [unfold ending; rewrite HT; destruct v; auto|]. unfold stored. destruct v; [|exact I]. rewrite HT. intros [E|[E|E]]; discriminate.
  - destruct (IH HT HI) as [[E1 E2]|(ls1 & s3 & ls2 & -> & E1 & E2 & E3)].
    + destruct (ending_step _ _ _ _ _ (rinv_steps _ _ _ HI HS) E1 E2 H1) as [E|E]; [left; exact E|]. right. exists (ls ++ [l]), s2, []. rewrite app_nil_r. split; [reflexivity|].
      split; [|split; [exact E|]]; econstructor; eauto.
    + right. exists ls1, s3, (ls2 ++ [l]). rewrite app_assoc. split; [reflexivity|]. split; [exact E1|]. split; [exact E2|]. econstructor; eauto.
Qed.
End props.
Print Assumptions lazy_reentrant_hangs.
Print Assumptions lazy_reentrant_never.
Print Assumptions lazy_get_outcome.

(** two goroutines: the first is inside the constructor, which has called Get; the second
    waits for it *)
Example lazy_reentrant_case : exists s ls s', reach (r_new 0) (r_step (fun _ => LCGet (fun v => LCRet (v + 1)))) s /\
  r_th s 0 = RThr (RRun (LCGet (fun v => LCRet (v + 1)))) [] /\
  steps (r_step (fun _ => LCGet (fun v => LCRet (v + 1)))) s ls s' /\ r_pc (r_th s' 0) = RWait /\ r_pc (r_th s' 1) = RWait.
Proof.
  eexists _, _, _. split; [|split; [|split; [|split]]].
  - eexists. unfold r_new. eapply steps_cons; [eapply (rs_call _ _ _ _ _ _ 0); left; reflexivity|]. eapply steps_cons; [eapply (rs_load _ _ _ _ _ _ 0); reflexivity|].
    eapply steps_cons; [eapply (rs_lock _ _ _ _ _ 0); reflexivity|]. eapply steps_cons; [eapply (rs_check_run _ _ _ _ _ 0); reflexivity|]. apply steps_nil.
  - reflexivity.
  - eapply steps_cons; [eapply (rs_ctor_get _ _ _ _ _ _ 0); reflexivity|]. eapply steps_cons; [eapply (rs_load _ _ _ _ _ _ 0); reflexivity|].
    eapply steps_cons; [eapply (rs_call _ _ _ _ _ _ 1); left; reflexivity|]. eapply steps_cons; [eapply (rs_load _ _ _ _ _ _ 1); reflexivity|]. apply steps_nil.
  - reflexivity.
  - reflexivity.
Qed.
