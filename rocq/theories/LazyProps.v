(** Properties of functionalx/lazyx (C42), under every interleaving of any number
    of goroutines calling Get any number of times. *)
From Verif Require Import Base Conc LazyModel LazyProofs.

(** C42: the constructor is called at most once; a Get that has returned did so
    after the constructor finished (done is set), with the value it returned. *)
Theorem lazy_once :
  forall (A : Type) (zero : A) (ctor : nat -> res A) (v : A), ctor 0 = Ret v ->
  forall s, reach (l_new zero) (l_step ctor) s ->
    l_calls s <= 1 /\
    (forall t x, l_th s t = LRet x -> x = v /\ l_done s = true /\ l_calls s = 1) /\
    (forall t, l_th s t <> LPanicked).
Proof.
  intros A zero ctor v Hv s R. pose proof (linv_reach zero ctor s R) as I. split; [|split].
  - destruct (l_done s) eqn:E; [destruct (li_done _ _ _ I E) as (-> & _); lia|].
    destruct (li_notdone _ _ _ I E) as [(-> & _)|(-> & _)]; lia.
  - intros t x E. pose proof (li_pc _ _ _ I t) as P. rewrite E in P. destruct P as [P1 P2].
    destruct (li_done _ _ _ I P1) as (C1 & F & _). subst x. destruct F as [F|[F _]]; [|congruence].
    rewrite Hv in F. injection F as F. auto.
  - intros t E. pose proof (li_pc _ _ _ I t) as P. rewrite E in P. cbn in P. congruence.
Qed.
Print Assumptions lazy_once.

(** the plain read of l.value never overlaps the constructor or the write of it *)
Theorem lazy_no_race :
  forall (A : Type) (zero : A) (ctor : nat -> res A) s t u n x, reach (l_new zero) (l_step ctor) s ->
    l_th s t = LRead -> l_th s u <> LRun n /\ l_th s u <> LAssign x.
Proof.
  intros A zero ctor s t u n x R E. pose proof (linv_reach zero ctor s R) as I.
  pose proof (li_pc _ _ _ I t) as P. rewrite E in P. destruct (li_done _ _ _ I P) as (_ & _ & NB).
  specialize (NB u). split; intros E'; rewrite E' in NB; apply NB; exact Logic.I.
Qed.
Print Assumptions lazy_no_race.

(** no deadlock: while somebody is inside Get, somebody inside Get can move *)
Theorem lazy_progress :
  forall (A : Type) (zero : A) (ctor : nat -> res A) s t, ctor 0 <> Spin -> reach (l_new zero) (l_step ctor) s ->
    in_call (l_th s t) -> exists u s', in_call (l_th s u) /\ l_step ctor s u s'.
Proof. intros A zero ctor s t Hc R. apply l_progress with (zero := zero); [apply linv_reach, R|exact Hc]. Qed.
Print Assumptions lazy_progress.

(** when the constructor panics, it is not retried: it runs at most once, the
    Gets that return give the zero value (C42's last clause fails then) *)
Theorem lazy_panic_refuted :
  forall (A : Type) (zero : A) (ctor : nat -> res A), ctor 0 = Panic ->
  (forall s, reach (l_new zero) (l_step ctor) s ->
     l_calls s <= 1 /\ forall t x, l_th s t = LRet x -> x = zero) /\
  (exists s, reach (l_new zero) (l_step ctor) s /\ l_th s 0 = LPanicked /\ l_th s 1 = LRet zero).
Proof.
  intros A zero ctor Hp. split.
  - intros s R. pose proof (linv_reach zero ctor s R) as I. split.
    + destruct (l_done s) eqn:E; [destruct (li_done _ _ _ I E) as (-> & _); lia|].
      destruct (li_notdone _ _ _ I E) as [(-> & _)|(-> & _)]; lia.
    + intros t x E. pose proof (li_pc _ _ _ I t) as P. rewrite E in P. destruct P as [P1 ->].
      destruct (li_done _ _ _ I P1) as (C1 & [F|[_ F]] & _); [congruence|exact F].
  - eexists. split.
    + eapply reach_snoc with (l := 1). eapply reach_snoc with (l := 1). eapply reach_snoc with (l := 1).
      eapply reach_snoc with (l := 0). eapply reach_snoc with (l := 0). eapply reach_snoc with (l := 0).
      eapply reach_snoc with (l := 0). eapply reach_snoc with (l := 0). eapply reach_snoc with (l := 0).
      eapply reach_snoc with (l := 0). apply reach_refl.
      * apply ls_call. auto.
      * apply ls_load. reflexivity.
      * apply ls_lock. reflexivity.
      * apply ls_check_run. reflexivity.
      * eapply ls_ctor_panic; [reflexivity|exact Hp].
      * eapply ls_set_done. reflexivity.
      * eapply ls_unlock. reflexivity.
      * apply ls_call. auto.
      * apply ls_load. reflexivity.
      * apply ls_read. reflexivity.
    + split; reflexivity.
Qed.
Print Assumptions lazy_panic_refuted.

(** two goroutines race into doSlow; the second returns the first one's value *)
Example lazy_case :
  exists s, reach (l_new 0) (l_step (fun n => Ret (41 + n))) s /\ l_th s 0 = LRet 41 /\ l_th s 1 = LRet 41 /\ l_calls s = 1.
Proof.
  eexists. split.
  - eapply reach_snoc with (l := 1). eapply reach_snoc with (l := 1). eapply reach_snoc with (l := 1). eapply reach_snoc with (l := 1).
    eapply reach_snoc with (l := 0). eapply reach_snoc with (l := 0). eapply reach_snoc with (l := 0). eapply reach_snoc with (l := 0).
    eapply reach_snoc with (l := 0). eapply reach_snoc with (l := 0). eapply reach_snoc with (l := 0).
    eapply reach_snoc with (l := 1). eapply reach_snoc with (l := 0). eapply reach_snoc with (l := 1). eapply reach_snoc with (l := 0). apply reach_refl.
    + apply ls_call. auto.
    + apply ls_call. auto.
    + apply ls_load. reflexivity.
    + apply ls_load. reflexivity.
    + apply ls_lock. reflexivity.
    + apply ls_check_run. reflexivity.
    + eapply ls_ctor_ret; reflexivity.
    + eapply ls_assign. reflexivity.
    + eapply ls_set_done. reflexivity.
    + eapply ls_unlock. reflexivity.
    + apply ls_read. reflexivity.
    + apply ls_lock. reflexivity.
    + apply ls_check_done. reflexivity.
    + eapply ls_unlock. reflexivity.
    + apply ls_read. reflexivity.
  - repeat split.
Qed.
