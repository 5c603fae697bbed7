(** functionalx/lazyx/lazy.go: the two models of Get agree.  With constructors that do not
    call Get the executions of LazyReModel are those of LazyModel, step for step (C42, C108). *)
From Verif Require Import Base Conc LazyModel LazyProps LazyReModel.

Section same.
Context {A : Type} (zero : A) (ctor : nat -> lcode A).
(** the constructor of lazy.go 14 as an outcome *)
Definition outcome (c : lcode A) : res A := match c with LCRet v => Ret v | LCPanic => Panic | LCGet _ => Spin end.
Definition octor (n : nat) : res A := outcome (ctor n).
(** the same place in lazy.go 17-23 *)
Definition same_pc (x : rthr A) (y : lpc A) : Prop :=
  r_in x = [] /\
  match r_pc x, y with
  | RIdle, LIdle | RLoad, LLoad | RWait, LWait | RCheck, LCheck | RRead, LRead | RPanicked, LPanicked => True
  | RRun c, LRun n => c = ctor n
  | RAssign v, LAssign w => v = w
  | RSetDone b, LSetDone c => b = c
  | RUnlock b, LUnlock c => b = c
  | RRet v, LRet w => v = w
  | _, _ => False
  end.
Definition same (s : rstate A) (l : lstate A) : Prop :=
  r_done s = l_done l /\ r_mutex s = l_mutex l /\ r_value s = l_value l /\ r_calls s = l_calls l /\ forall t, same_pc (r_th s t) (l_th l t).
Lemma same_set (th : nat -> rthr A) (th' : nat -> lpc A) t p q : (forall u, same_pc (th u) (th' u)) -> same_pc (RThr p []) q -> forall u, same_pc (tset th t (RThr p []) u) (tset th' t q u).
Proof. intros H1 H2 u. destruct (decide (u = t)) as [->|N]; [rewrite !tset_eq; exact H2|rewrite !tset_ne by exact N; apply H1]. Qed.

Context (plain : forall n k, ctor n <> LCGet k).
Lemma same_forth s l t s' : same s l -> r_step ctor s t s' -> exists l', l_step octor l t l' /\ same s' l'.
Proof using plain.
  destruct l as [d m v c th]. intros (E1 & E2 & E3 & E4 & E5) HS. destruct HS; cbn [r_done r_mutex r_value r_calls r_th l_done l_mutex l_value l_calls l_th] in *; subst;
    pose proof (E5 t) as Ht.
  all: try (rewrite H in Ht; destruct Ht as [Hst Hp]; cbn [r_in r_pc] in *; try discriminate Hst; subst; destruct (th t) eqn:Et; try contradiction Hp; subst).
  - assert (Y : th t = LIdle \/ (exists x, th t = LRet x) \/ th t = LPanicked).
    { destruct H as [H|[[x H]|H]]; rewrite H in Ht; destruct Ht as [_ Hp]; cbn in Hp; destruct (th t); try contradiction Hp; eauto. }
    eexists. split; [apply ls_call; exact Y|]. repeat (split; [reflexivity|]). apply same_set; [exact E5|]. split; [reflexivity|exact I].
  - eexists. split; [apply ls_load; exact Et|]. repeat (split; [reflexivity|]). apply same_set; [exact E5|]. split; [reflexivity|]. destruct d; exact I.
  - eexists. split; [apply ls_lock; exact Et|]. repeat (split; [reflexivity|]). apply same_set; [exact E5|]. split; [reflexivity|exact I].
  - eexists. split; [apply ls_check_done; exact Et|]. repeat (split; [reflexivity|]). apply same_set; [exact E5|]. split; reflexivity.
  - eexists. split; [apply ls_check_run; exact Et|]. repeat (split; [reflexivity|]). apply same_set; [exact E5|]. split; reflexivity.
  - eexists. split; [eapply ls_ctor_ret; [exact Et|]; unfold octor; rewrite <- Hp; reflexivity|]. repeat (split; [reflexivity|]). apply same_set; [exact E5|]. split; reflexivity.
  - eexists. split; [eapply ls_ctor_panic; [exact Et|]; unfold octor; rewrite <- Hp; reflexivity|]. repeat (split; [reflexivity|]). apply same_set; [exact E5|]. split; reflexivity.
  - exfalso. eapply plain. symmetry. exact Hp.
  - eexists. split; [apply ls_assign; exact Et|]. repeat (split; [reflexivity|]). apply same_set; [exact E5|]. split; reflexivity.
  - eexists. split; [eapply ls_set_done; exact Et|]. repeat (split; [reflexivity|]). apply same_set; [exact E5|]. split; reflexivity.
  - eexists. split; [eapply ls_unlock; exact Et|]. repeat (split; [reflexivity|]). apply same_set; [exact E5|]. split; [reflexivity|]. match goal with |- context [if ?b then _ else _] => destruct b end; exact I.
  - eexists. split; [eapply ls_read; exact Et|]. repeat (split; [reflexivity|]). apply same_set; [exact E5|]. split; reflexivity.
Qed.
Lemma same_back s l t l' : same s l -> l_step octor l t l' -> exists s', r_step ctor s t s' /\ same s' l'.
Proof using plain.
  destruct s as [d m v c th]. intros (E1 & E2 & E3 & E4 & E5) HS. destruct HS; cbn [r_done r_mutex r_value r_calls r_th l_done l_mutex l_value l_calls l_th] in *; subst;
    pose proof (E5 t) as Ht; destruct (th t) as [p fr] eqn:Et; destruct Ht as [Hst Hp]; cbn [r_in r_pc] in *; subst fr.
  all: try (rewrite H in Hp; destruct p; try contradiction Hp; subst).
  - assert (Y : th t = RThr RIdle [] \/ (exists x, th t = RThr (RRet x) []) \/ th t = RThr RPanicked []).
    { rewrite Et. destruct H as [H|[[x H]|H]]; rewrite H in Hp; destruct p; try contradiction Hp; eauto. }
    eexists. split; [apply rs_call; exact Y|]. repeat (split; [reflexivity|]). apply same_set; [exact E5|]. split; [reflexivity|exact I].
  - eexists. split; [apply rs_load; exact Et|]. repeat (split; [reflexivity|]). apply same_set; [exact E5|]. split; [reflexivity|]. cbn. match goal with |- context [if ?b then _ else _] => destruct b end; exact I.
  - eexists. split; [apply rs_lock; exact Et|]. repeat (split; [reflexivity|]). apply same_set; [exact E5|]. split; [reflexivity|exact I].
  - eexists. split; [apply rs_check_done; exact Et|]. repeat (split; [reflexivity|]). apply same_set; [exact E5|]. split; reflexivity.
  - eexists. split; [apply rs_check_run; exact Et|]. repeat (split; [reflexivity|]). apply same_set; [exact E5|]. split; reflexivity.
  - unfold octor in H0. match type of H0 with outcome (ctor ?n) = _ => destruct (ctor n) as [y| |k] eqn:C end; try discriminate H0. injection H0 as ->.
    eexists. split; [eapply rs_ctor_ret; exact Et|]. repeat (split; [reflexivity|]). apply same_set; [exact E5|]. split; reflexivity.
  - unfold octor in H0. match type of H0 with outcome (ctor ?n) = _ => destruct (ctor n) as [y| |k] eqn:C end; try discriminate H0.
    eexists. split; [eapply rs_ctor_panic; exact Et|]. repeat (split; [reflexivity|]). apply same_set; [exact E5|]. split; reflexivity.
  - eexists. split; [apply rs_assign; exact Et|]. repeat (split; [reflexivity|]). apply same_set; [exact E5|]. split; reflexivity.
  - eexists. split; [eapply rs_set_done; exact Et|]. repeat (split; [reflexivity|]). apply same_set; [exact E5|]. split; reflexivity.
  - eexists. split; [eapply rs_unlock; exact Et|]. repeat (split; [reflexivity|]). apply same_set; [exact E5|]. split; [reflexivity|]. cbn. match goal with |- context [if ?b then _ else _] => destruct b end; exact I.
  - eexists. split; [eapply rs_read; exact Et|]. repeat (split; [reflexivity|]). apply same_set; [exact E5|]. split; reflexivity.
Qed.
Lemma same_new : same (r_new zero) (l_new zero).
Proof. do 4 (split; [reflexivity|]). intros t. split; [reflexivity|exact I]. Qed.
(** C108: a constructor that does not call Get behaves here as in LazyModel: the same
    goroutines can make the same steps, in every order *)
Theorem lazy_plain_same ls : (forall s, steps (r_step ctor) (r_new zero) ls s -> exists l, steps (l_step octor) (l_new zero) ls l /\ same s l) /\
  (forall l, steps (l_step octor) (l_new zero) ls l -> exists s, steps (r_step ctor) (r_new zero) ls s /\ same s l).
Proof using plain.
  split.
  - intros s HS. revert ls s HS. apply (steps_trace_invariant (r_new zero) (r_step ctor) (fun ls s => exists l, steps (l_step octor) (l_new zero) ls l /\ same s l)).
    + exists (l_new zero). split; [constructor|apply same_new].
    + intros ls s t s' _ (l & HL & HE) HS. destruct (same_forth s l t s' HE HS) as (l' & H1 & H2). exists l'. split; [econstructor; eassumption|exact H2].
  - intros l HL. revert ls l HL. apply (steps_trace_invariant (l_new zero) (l_step octor) (fun ls l => exists s, steps (r_step ctor) (r_new zero) ls s /\ same s l)).
    + exists (r_new zero). split; [constructor|apply same_new].
    + intros ls l t l' _ (s & HS & HE) HL. destruct (same_back s l t l' HE HL) as (s' & H1 & H2). exists s'. split; [econstructor; eassumption|exact H2].
Qed.
End same.
(** so C42 holds of both *)
Theorem lazy_plain_once {A} (zero : A) (ctor : nat -> lcode A) v s : (forall n k, ctor n <> LCGet k) -> ctor 0 = LCRet v -> reach (r_new zero) (r_step ctor) s ->
  r_calls s <= 1 /\ (forall t x, r_th s t = RThr (RRet x) [] -> x = v /\ r_done s = true /\ r_calls s = 1) /\ forall t, r_pc (r_th s t) <> RPanicked.
Proof.
  intros P C [ls HS]. destruct (lazy_plain_same zero ctor P ls) as [F _]. destruct (F s HS) as (l & HL & (E1 & E2 & E3 & E4 & E5)).
  destruct (lazy_once A zero (octor ctor) v) with (s := l) as (O1 & O2 & O3); [unfold octor; rewrite C; reflexivity|exists ls; exact HL|].
  rewrite E1, E4. split; [exact O1|]. split.
  - intros t x Hx. specialize (E5 t). rewrite Hx in E5. destruct E5 as [_ E5]. cbn in E5. destruct (l_th l t) eqn:El; try contradiction E5. subst. apply (O2 t _ El).
  - intros t Hx. specialize (E5 t). destruct E5 as [_ E5]. rewrite Hx in E5. destruct (l_th l t) eqn:El; try contradiction E5. exact (O3 t El).
Qed.
Print Assumptions lazy_plain_same.
Print Assumptions lazy_plain_once.
(** two goroutines, the second of which waits while the first constructs *)
Example lazy_plain_case : exists ls s, steps (r_step (fun n => LCRet (7 + n))) (r_new 0) ls s /\ r_th s 0 = RThr (RRet 7) [] /\ r_th s 1 = RThr (RRet 7) [].
Proof.
  eexists _, _. split; [|split].
  - unfold r_new. eapply steps_cons; [eapply (rs_call _ _ _ _ _ _ 0); left; reflexivity|]. eapply steps_cons; [eapply (rs_load _ _ _ _ _ _ 0); reflexivity|].
    eapply steps_cons; [eapply (rs_call _ _ _ _ _ _ 1); left; reflexivity|]. eapply steps_cons; [eapply (rs_load _ _ _ _ _ _ 1); reflexivity|].
    eapply steps_cons; [eapply (rs_lock _ _ _ _ _ 0); reflexivity|]. eapply steps_cons; [eapply (rs_check_run _ _ _ _ _ 0); reflexivity|].
    eapply steps_cons; [eapply (rs_ctor_ret _ _ _ _ _ _ 0); reflexivity|]. eapply steps_cons; [eapply (rs_assign _ _ _ _ _ _ 0); reflexivity|].
    eapply steps_cons; [eapply (rs_set_done _ _ _ _ _ _ 0); reflexivity|]. eapply steps_cons; [eapply (rs_unlock _ _ _ _ _ _ 0); reflexivity|].
    eapply steps_cons; [eapply (rs_read _ _ _ _ _ _ 0); reflexivity|].
    eapply steps_cons; [eapply (rs_lock _ _ _ _ _ 1); reflexivity|]. eapply steps_cons; [eapply (rs_check_done _ _ _ _ _ 1); reflexivity|].
    eapply steps_cons; [eapply (rs_unlock _ _ _ _ _ _ 1); reflexivity|]. eapply steps_cons; [eapply (rs_read _ _ _ _ _ _ 1); reflexivity|]. apply steps_nil.
  - reflexivity.
  - reflexivity.
Qed.
