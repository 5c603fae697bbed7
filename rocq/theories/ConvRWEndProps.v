(** convx with the code of sync.RWMutex comes to its end (C193). *)
From Coq Require Import Relations Wellfounded.Transitive_Closure.
From Verif Require Import Base Conc ConvModel ConvConcModel ConvConcProofs ConvConcProps ConvEndProps RWModel RWProofs RWMuProofs ConvRWModel ConvRWProofs ConvRWProps.

Section ends.
Context {V : Type} (conv : nat -> V -> code V) (main : nat -> code V) (uid : nat -> nat -> nat) (N : nat) (UI : distinct uid) (HN : (Z.of_nat N <= 2^30)%Z).
Notation step := (z_step conv uid N).
Notation any_find := (fun (_ _ : gty) (_ : option gty) (_ : option nat) => True).
Notation any_exist := (fun (_ _ : gty) (_ : bool) => True).
Notation lo := (local conv any_find any_exist).
(** how far a user of the lock is from having it, or from having given it back *)
Definition rw_rank (p : rwpc) : nat :=
  match p with
  | PWPost r i => 30 + Z.to_nat (r - i) | PRDec => 25 | PRPost => 24 | PIdle => 20
  | PRWant => 15 | PRSem => 14 | PWWant => 15 | PWAnn => 14 | PWWait _ => 13 | PWSem => 12
  | PRHold | PWHold => 0
  end.
Lemma rank_step rw u rw' : rw_step N rw u rw' -> rw_pc rw u <> PRHold -> rw_pc rw u <> PWHold -> rw_pc rw' u <> PRHold -> rw_pc rw' u <> PWHold -> rw_rank (rw_pc rw' u) < rw_rank (rw_pc rw u).
Proof.
  intros H A B C D. destruct H; cbn in *; rewrite tset_eq in *; repeat match goal with K : ?pc ?t = _ |- _ => rewrite K in *; clear K end; repeat case_match; cbn; try congruence; try lia.
Qed.
(** a goroutine, with where its user is: it goes on in convx.go, or in the RWMutex *)
Definition down (x y : thr V * rwpc) : Prop := clos_trans _ (fun y x => lo x y) (fst y) (fst x) \/ (fst y = fst x /\ rw_rank (snd y) < rw_rank (snd x)).
Lemma down_acc x q : over conv any_find any_exist x -> Acc (fun y x => down x y) (x, q).
Proof.
  intros H. apply Acc_clos_trans in H. revert q. induction H as [x _ IH]. intros q.
  remember (rw_rank q) as n eqn:E. revert q E. induction (lt_wf n) as [n _ IHn]. intros q ->. constructor. intros [y q'] [L|[L R]]; cbn in *.
  - apply IH, L.
  - subst y. eapply IHn; [exact R|reflexivity].
Qed.
Definition place (z : zstate V) (t : nat) : thr V * rwpc := (z_th z t, rw_pc (z_rw z) (uid t (length (t_in (z_th z t))))).
Lemma place_other z t l z' u : step z l z' -> u <> t -> z_th z' u = z_th z u -> (forall d, fst l = uid t d -> True) -> (exists d, fst l = uid t d) -> place z' u = place z u.
Proof.
  intros H Ne E _ [d Ed]. unfold place. rewrite E. f_equal. destruct (z_moves conv uid N z l z' H) as [->|Q]; [reflexivity|].
  apply (rw_others N _ _ _ _ Q). rewrite Ed. intros X. apply UI in X. tauto.
Qed.
Lemma step_down ls z l z' : steps step (z_init main) ls z -> step z l z' -> exists t, down (place z t) (place z' t) /\ forall u, u <> t -> place z' u = place z u.
Proof.
  intros H0 HS. assert (CR : z_crash z' = false) by (eapply (conv_over_rwmutex_serial conv main uid N); [exact UI|exact HN|econstructor; eassumption]).
  destruct (zsim_steps conv uid N HN UI main ls z H0) as [_ IU _].
  assert (G : exists t d, fst l = uid t d /\ (forall u, u <> t -> z_th z' u = z_th z u) /\ down (place z t) (place z' t)).
  2: { destruct G as (t & d & A & B & C). exists t. split; [exact C|]. intros u Hu. apply (place_other z t l z' u HS Hu); eauto. }
  assert (L1 : forall x y p q, lo x y -> down (x, p) (y, q)) by (intros x y p q L; left; apply t_step; exact L).
  destruct HS as [m tn cr rw th t c fr rw' E u HR R1 R2 R3 R4|m tn cr rw th t c fr rw' E u HR R1|m tn cr rw th t c fr rw' E u HR R1|m tn cr rw th t c fr rw' E u HR|m tn cr rw th t c fr rw' E u HR
    |m cr rw th t T R k fr E|m cr rw th t T R d v k fr E F|m cr rw th t T R d v k fr f E F|m tn cr rw th t T R d v f k r fr E F|m tn cr rw th t k fr E F|m cr rw th t c fr E|m tn cr rw th t T R f k fr E|m tn cr rw th t T R k fr E|m cr rw th t c fr E];
    [..|discriminate CR]; unfold place; cbn [z_reg z_torn z_crash z_rw z_th fst] in *; (exists t; eexists; split; [reflexivity|]; split; [intros x Hx; try (rewrite tset_ne by exact Hx); reflexivity|]); rewrite ?tset_eq, E; cbn [t_in t_pc].
  - destruct (IU t) as (A & _). rewrite E in A. cbn in A. destruct A as (A1 & A2 & _). right. cbn. split; [reflexivity|]. apply rank_step; assumption.
  - apply L1. destruct (IU t) as (A & _). rewrite E in A. cbn in A. constructor. apply A. eapply rw_to_rhold; eassumption.
  - destruct (IU t) as (A & _). rewrite E in A. cbn in A. left. cbn [fst]. eapply t_trans; [apply t_step; apply lo_lock|apply t_step; apply lo_announce]. apply A. eapply rw_to_whold; eassumption.
  - apply L1. constructor.
  - apply L1. constructor.
  - apply L1. constructor. exact I.
  - apply L1. constructor. exact I.
  - apply L1. constructor. exact I.
  - apply L1. constructor.
  - apply L1. constructor.
  - apply L1. constructor.
  - apply L1. constructor.
  - apply L1. constructor.
Qed.
(** a goroutine that calls nothing does nothing *)
Lemma z_still ls z t : is_call (main t) = false -> steps step (z_init main) ls z -> z_th z t = Thr (PRun (main t)) [] /\ rw_pc (z_rw z) (uid t 0) = PIdle.
Proof.
  intros Hc. revert ls z. apply (steps_trace_invariant (z_init main) step (fun _ z => z_th z t = Thr (PRun (main t)) [] /\ rw_pc (z_rw z) (uid t 0) = PIdle)); [split; reflexivity|].
  intros ls z l z' _ [A B] H. unfold is_call in Hc. apply orb_false_iff in Hc as [Hc1 Hc2].
  assert (OT : forall x d rw', x <> t -> rw_step N (z_rw z) (uid x d) rw' -> rw_pc rw' (uid t 0) = PIdle) by (intros x d rw' Ne HR; rewrite (rw_others N _ _ _ _ HR); [exact B|intros X; apply UI in X; destruct X; congruence]).
  destruct H as [m tn cr rw th x c fr rw' E u HR R1 R2 R3 R4|m tn cr rw th x c fr rw' E u HR R1|m tn cr rw th x c fr rw' E u HR R1|m tn cr rw th x c fr rw' E u HR|m tn cr rw th x c fr rw' E u HR
    |m cr rw th x T R k fr E|m cr rw th x T R d v k fr E F|m cr rw th x T R d v k fr f E F|m tn cr rw th x T R d v f k r fr E F|m tn cr rw th x k fr E F|m cr rw th x c fr E|m tn cr rw th x T R f k fr E|m tn cr rw th x T R k fr E|m cr rw th x c fr E];
    cbn [z_reg z_torn z_crash z_rw z_th fst] in *; try (split; [exact A|exact B]).
  all: destruct (decide (x = t)) as [->|Ne]; [rewrite A in E; try discriminate E; injection E as <- <-; cbn [length] in *; subst u|rewrite ?tset_ne by auto; split; [exact A|first [exact B|eapply OT; eassumption]]].
  - exfalso. destruct HR; cbn in *; rewrite tset_eq in *; cbn in *; try congruence; [rewrite R1 in Hc1 by reflexivity|rewrite R2 in Hc2 by reflexivity]; discriminate.
  - exfalso. pose proof (rw_to_rhold N _ _ _ HR R1) as Y. rewrite B in Y. discriminate Y.
  - exfalso. pose proof (rw_to_whold N _ _ _ HR R1) as Y. rewrite B in Y. discriminate Y.
Qed.

(** *** Finitely many goroutines whose code ends, whatever the lookups answer, with converters that may call convx: every
    execution is finite, down to the steps of the RWMutex *)
Theorem conv_over_rwmutex_finite n ls z : (forall t, t < n -> ends conv any_find any_exist (main t)) -> (forall t, n <= t -> is_call (main t) = false) ->
  steps step (z_init main) ls z -> Acc (fun z' z => exists l, step z l z') z.
Proof.
  intros HE HM HS.
  assert (A : Acc (fun y x => one down n x y) (place (z_init main))) by (apply one_acc; intros t Ht; apply down_acc, over_start, HE, Ht).
  assert (G : forall p, Acc (fun y x => one down n x y) p -> forall ls z, steps step (z_init main) ls z -> p = place z -> Acc (fun z' z => exists l, step z l z') z).
  { intros p Hp. induction Hp as [p _ IH]. intros ls1 z1 H1 ->. constructor. intros z2 [l H2]. destruct (step_down ls1 z1 l z2 H1 H2) as (t & D & O).
    apply (IH (place z2)) with (ls := ls1 ++ [l]); [|econstructor; eassumption|reflexivity]. exists t. split; [|split; [exact D|intros u _ Hu; apply O, Hu]].
    destruct (decide (t < n)) as [|G]; [assumption|exfalso]. pose proof (HM t ltac:(lia)) as C.
    destruct (z_still _ _ t C H1) as [E1 E2]. destruct (z_still _ _ t C (steps_snoc _ _ _ _ _ _ H1 H2)) as [E3 E4]. unfold place in D. rewrite E1, E3 in D. cbn in D. rewrite E2, E4 in D.
    destruct D as [D|[_ D]]; cbn in D; [|lia]. clear - D C. remember (Thr (PRun (main t)) []) as x eqn:E. assert (F : ~ exists y, lo x y).
    { intros [y L]. eapply local_alive; [exact L|]. subst x. split; [reflexivity|eauto]. }
    apply F. clear - D. induction D; eauto. }
  assert (A' : Acc (fun z' z => exists l, step z l z') (z_init main)) by (apply (G _ A []); [constructor|reflexivity]).
  clear - A' HS. revert HS. apply (steps_invariant (z_init main) step (fun z => Acc (fun z' z => exists l, step z l z') z)); [exact A'|]. intros s1 l s2 [B] H. apply B. exists l. exact H.
Qed.
(** *** When converters only compute, every execution is finite, and where one cannot go on all goroutines are done *)
Theorem conv_over_rwmutex_ends n ls z : (forall f v, exists r, conv f v = KRet r \/ conv f v = KPanic) -> (forall t, t < n -> uid t 0 < N) -> (forall t, n <= t -> is_call (main t) = false) ->
  steps step (z_init main) ls z -> Acc (fun z' z => exists l, step z l z') z /\ ((forall l z', ~ step z l z') -> forall t, finished (z_th z t)).
Proof.
  intros HC HU HM HS. split; [eapply conv_over_rwmutex_finite; [intros t _; apply all_end; exact HC|exact HM|exact HS]|].
  intros St t. destruct (finished_dec (z_th z t)) as [F|F]; [exact F|exfalso].
  destruct (conv_over_rwmutex_no_deadlock conv main uid N ls z t UI HN) as (l & z' & Q & _); [intros x; destruct (decide (x < n)); [left; auto|right; apply HM; lia]|exact HC|exact HS|exact F|]. exact (St l z' Q).
Qed.
End ends.
Print Assumptions conv_over_rwmutex_finite.
Print Assumptions conv_over_rwmutex_ends.
(** the program of ConvRWProps.v, with converters that call Exists, and with converters that compute *)
Example conv_over_rwmutex_finite_case : let conv := fun (_ : nat) v => KExists cA cB (fun b => KRet (if b then v else v + 1)%Z) in
  (forall t, t < 4 -> ends conv (fun _ _ _ _ => True) (fun _ _ _ => True) (zmain t)) /\ forall t, 4 <= t -> is_call (zmain t) = false.
Proof.
  intros conv. split; [|intros [|[|[|[|t]]]] H; try lia; reflexivity].
  intros [|[|[|[|t]]]] H; cbn; repeat (constructor; intros).
Qed.
Example conv_over_rwmutex_ends_case : let conv := fun (_ : nat) v => KRet (v + 1)%Z in
  (forall f v, exists r, conv f v = KRet r \/ conv f v = KPanic) /\ (forall t, t < 4 -> cuid t 0 < 10) /\ (forall t, 4 <= t -> is_call (zmain t) = false) /\
  ~ finished (z_th (z_init zmain) 0).
Proof.
  intros conv. split; [eauto|]. split; [intros [|[|[|[|t]]]] H; try lia; vm_compute; lia|]. split; [intros [|[|[|[|t]]]] H; try lia; reflexivity|].
  intros (_ & c & E & Hc). cbn in E. injection E as <-. discriminate Hc.
Qed.
