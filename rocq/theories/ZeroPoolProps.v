(** A TimedPool declared with var (C169). *)
From Verif Require Import Base Conc PoolModel ZeroPoolModel.
Local Open Scope Z.

Record zinv (s : pstate) : Prop := {
  zi_max : p_max s = 0; zi_stop : p_stop s = false; zi_workers : p_workers s = 0; zi_dobby : p_dobby s = [];
  zi_gor : forall g, p_gor s g = GNone; zi_col : p_col s = CDead;
  zi_job : forall t, p_job s t = JIdle \/ p_job s t = JLock \/ p_job s t = JRet false;
  zi_st : forall u, p_st s u = SIdle \/ p_st s u = SDone }.
Lemma zinv_step idle s l s' : zinv s -> p_step idle s l s' ->
  zinv s' /\ match l with LCall _ | LRet _ false | LStop _ | LPTau => True | _ => False end.
Proof.
  intros I H. pose proof I as [I1 I2 I3 I4 I5 I6 I7 I8].
  destruct H as [s x C|s t E|s t E M|s t d w E M D|s t E M D W|s t p1 w p2 E M D W P|s t E M D W|s t w c E|s t w c E
    |s g w c E|s g w E|s g w c t E|s g w c E|s g w c t E|s g w c E|s g w c E|s g w c E|s g E
    |s n E|s E|s E|s w ws c E|s w ws E|s w ws E|s w ws E|s E|s u E|s E|s E|s u E|s u E|s u E].
  all: try (specialize (I5 g); congruence).
  all: try congruence.
  all: try (destruct (I7 t) as [?|[?|?]]; congruence).
  all: try (destruct (I8 u); congruence).
  all: try (rewrite I4 in D; destruct d; discriminate).
  all: try lia.
  - split; [|exact Logic.I]. constructor; assumption.
  - split; [|exact Logic.I]. constructor; try assumption. cbn. intros t'. destruct (tset_cases (p_job s) t JLock t') as [[-> ->]|[_ ->]]; auto.
  - split; [|exact Logic.I]. constructor; try assumption. cbn. intros t'. destruct (tset_cases (p_job s) t (JRet false) t') as [[-> ->]|[_ ->]]; auto.
  - split; [|exact Logic.I]. constructor; try assumption. cbn. intros u'. rewrite I2.
    destruct (tset_cases (p_st s) u SDone u') as [[-> ->]|[_ ->]]; auto.
Qed.
Lemma zinv_steps idle clock ls s : steps (p_step idle) (p_zero clock) ls s ->
  zinv s /\ Forall (fun l => match l with LCall _ | LRet _ false | LStop _ | LPTau => True | _ => False end) ls.
Proof.
  apply (steps_trace_invariant (p_zero clock) (p_step idle) (fun ls s => zinv s /\ Forall (fun l => match l with LCall _ | LRet _ false | LStop _ | LPTau => True | _ => False end) ls)).
  - split; [|constructor]. constructor; cbn; auto.
  - intros ls' s' l s2 _ [I F] H. destruct (zinv_step _ _ _ _ I H) as [I' Hl]. split; [exact I'|]. apply Forall_app. split; [exact F|]. constructor; [exact Hl|constructor].
Qed.

(** Run always answers false, and every call of Run and Stop that has begun ends with its
    next step; no handler runs, no goroutine exists, nothing panics, Workers is 0. *)
Theorem pool_zero :
  forall (idle clock : Z) ls (s : pstate), steps (p_step idle) (p_zero clock) ls s ->
    (forall t, LRet t true ∉ ls) /\ (forall t, LBegin t ∉ ls) /\
    p_workers s = 0 /\ (forall g, p_gor s g = GNone) /\ p_col s <> CPanic /\ (forall t, p_job s t <> JPanic) /\
    (forall t, p_job s t <> JIdle -> p_job s t = JRet false \/ exists s', p_step idle s (LRet t false) s') /\
    (forall u, p_st s u <> SIdle -> p_st s u = SDone).
Proof.
  intros idle clock ls s H. destruct (zinv_steps _ _ _ _ H) as [I F]. rewrite Forall_forall in F. destruct I as [I1 I2 I3 I4 I5 I6 I7 I8].
  split; [intros t Ht; exact (F _ Ht)|]. split; [intros t Ht; exact (F _ Ht)|]. split; [exact I3|]. split; [exact I5|].
  split; [congruence|]. split; [intros t; destruct (I7 t) as [?|[?|?]]; congruence|]. split.
  - intros t Ht. destruct (I7 t) as [?|[E|?]]; [congruence|right|auto]. eexists. apply ps_full; [exact E| |exact I4|]; lia.
  - intros u Hu. destruct (I8 u); congruence.
Qed.
Print Assumptions pool_zero.
Example pool_zero_case : exists s, steps (p_step 5) (p_zero 0) [LCall 0; LRet 0 false; LStop 0] s.
Proof.
  eexists. eapply steps_cons; [apply ps_call; reflexivity|]. eapply steps_cons; [apply ps_full; cbn; try reflexivity; lia|].
  eapply steps_cons; [apply ps_stop_call; reflexivity|]. constructor.
Qed.
