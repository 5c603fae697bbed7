(** Properties of dsx/slicex/queuex (C20, C21). *)
From Verif Require Import Base SeqSpec RingSpec RingModel RingProofs.

(** C20 (natural statement, false): a Ring made with capacity n>0 is the bounded
    FIFO queue of capacity n on every history. *)
Theorem ring_fifo_refuted :
  ~ (forall (n : nat) (os : list (rop nat)), 0 < n ->
       exists p, r_history 0 (Z.of_nat n) os = (ideal_results (bounded_step n) [] os, Ret p)).
Proof.
  intros H. destruct (H 1 [REnqueue 7; RDequeue; REnqueue 8] ltac:(lia)) as [p Hp]. vm_compute in Hp. discriminate.
Qed.
Print Assumptions ring_fifo_refuted.

(** It fails for every capacity: fill, take one out, put one in. *)
Theorem ring_fifo_every_capacity_refuted :
  forall (A : Type) (zero x : A) (n : nat), 0 < n ->
    r_history zero (Z.of_nat n) (replicate n (REnqueue x) ++ [RDequeue; REnqueue x])
    = (replicate n (RBool true) ++ [RVal (Some x)], Panic).
Proof.
  intros A zero x n Hn.
  assert (G : forall k l, length l + k <= n ->
            ideal_run (bounded_step n) l (replicate k (REnqueue x)) = (replicate k (RBool true), l ++ replicate k x)).
  { induction k as [|k IH]; intros l Hl; cbn [replicate ideal_run bounded_step]; [rewrite app_nil_r; reflexivity|].
    destruct (Nat.ltb_spec (length l) n); [|lia]. rewrite IH by (rewrite app_length; cbn; lia).
    rewrite <- app_assoc. reflexivity. }
  assert (K : forall k l, length l + k <= n -> accepted n l (replicate k (REnqueue x)) = k).
  { induction k as [|k IH]; intros l Hl; [reflexivity|]. cbn [replicate accepted bounded_step].
    destruct (Nat.ltb_spec (length l) n); [|lia]. cbn [fst]. rewrite IH by (rewrite app_length; cbn; lia). reflexivity. }
  specialize (G n [] ltac:(cbn; lia)). specialize (K n [] ltac:(cbn; lia)).
  change [RDequeue; REnqueue x] with ([RDequeue] ++ REnqueue x :: []). rewrite app_assoc.
  assert (S1 : ideal_state (bounded_step n) [] (replicate n (REnqueue x)) = replicate n x) by (unfold ideal_state; rewrite G; reflexivity).
  assert (R1 : ideal_results (bounded_step n) [] (replicate n (REnqueue x)) = replicate n (RBool true)) by (unfold ideal_results; rewrite G; reflexivity).
  rewrite ring_then_panics; [| exact Hn | |].
  - rewrite ideal_results_app, S1, R1. destruct n; [lia|]. reflexivity.
  - rewrite accepted_app, K. cbn. lia.
  - rewrite ideal_state_app, S1. destruct n; [lia|]. cbn. rewrite replicate_length. lia.
Qed.
Print Assumptions ring_fifo_every_capacity_refuted.

(** C20, the part that holds (missing: any history with more than n accepted
    Enqueues, where the code panics, see C21). *)
Theorem ring_fifo_partial :
  forall (A : Type) (zero : A) (n : nat) (os : list (rop A)), 0 < n ->
    accepted n [] os <= n ->
    exists p, r_history zero (Z.of_nat n) os = (ideal_results (bounded_step n) [] os, Ret p).
Proof. exact @ring_until. Qed.
Print Assumptions ring_fifo_partial.

(** C21: exact domain.  Every history either has at most n accepted Enqueues and
    behaves as the ideal queue to its end, or is the ideal queue up to the
    (n+1)-th accepted Enqueue, which panics. *)
Theorem ring_exact :
  forall (A : Type) (zero : A) (n : nat) (os : list (rop A)), 0 < n ->
    (accepted n [] os <= n /\
     exists p, r_history zero (Z.of_nat n) os = (ideal_results (bounded_step n) [] os, Ret p)) \/
    (exists pre x post, os = pre ++ REnqueue x :: post /\ accepted n [] pre = n /\
       length (ideal_state (bounded_step n) [] pre) < n /\
       r_history zero (Z.of_nat n) os = (ideal_results (bounded_step n) [] pre, Panic)).
Proof.
  intros A zero n os Hn. destruct (ring_dichotomy n os Hn) as [H|(pre & x & post & -> & H1 & H2)].
  - left. split; [exact H|]. apply ring_until; assumption.
  - right. exists pre, x, post. repeat split; try assumption. apply ring_then_panics; assumption.
Qed.
Print Assumptions ring_exact.

(** the two cases are exclusive: the panic does come *)
Theorem ring_excess_panics :
  forall (A : Type) (zero : A) (n : nat) (pre : list (rop A)) (x : A) (post : list (rop A)), 0 < n ->
    accepted n [] pre = n -> length (ideal_state (bounded_step n) [] pre) < n ->
    r_history zero (Z.of_nat n) (pre ++ REnqueue x :: post) = (ideal_results (bounded_step n) [] pre, Panic).
Proof. exact @ring_then_panics. Qed.
Print Assumptions ring_excess_panics.

(** Head returns the oldest element whenever there is one. *)
Theorem ring_head_front :
  forall (A : Type) (zero : A) (n : nat) (os : list (rop A)), 0 < n ->
    accepted n [] os <= n ->
    forall rs p, r_history zero (Z.of_nat n) os = (rs, Ret (Some p)) ->
    forall x, head (ideal_state (bounded_step n) [] os) = Some x -> r_head p = Ret x.
Proof. exact @ring_head. Qed.
Print Assumptions ring_head_front.

(** Of an empty queue Head returns the zero value, until as many elements as the capacity
    have been accepted; from then on it panics. *)
Theorem ring_head_empty :
  forall (A : Type) (zero : A) (n : nat) (os : list (rop A)), 0 < n ->
    accepted n [] os <= n ->
    forall rs p, r_history zero (Z.of_nat n) os = (rs, Ret (Some p)) ->
    ideal_state (bounded_step n) [] os = [] -> r_head p = if accepted n [] os <? n then Ret zero else Panic.
Proof. exact @ring_head_none. Qed.
Print Assumptions ring_head_empty.
Example ring_head_empty_case :
  let os := [REnqueue 7; RDequeue] in
  ideal_state (bounded_step 2) [] os = [] /\ accepted 2 [] os = 1 /\ ideal_state (bounded_step 1) [] os = [] /\ accepted 1 [] os = 1.
Proof. vm_compute. auto. Qed.

(** New(0) is nil, on which every call panics; New(negative) panics. *)
Theorem ring_new_degenerate :
  forall (A : Type) (zero : A),
    (forall o os, r_history zero 0 (o :: os) = ([], Panic)) /\
    (forall c os, (c < 0)%Z -> r_history zero c os = ([], Panic)).
Proof.
  intros A zero. split; [reflexivity|]. intros c os Hc. unfold r_history, r_new.
  destruct (Z.eqb_spec c 0); [lia|]. destruct (Z.ltb_spec c 0); [reflexivity|lia].
Qed.
Print Assumptions ring_new_degenerate.

Example ring_partial_case :
  let os := [REnqueue 1; REnqueue 2; RIsFull; RDequeue; REnqueue 3; RPeek; RIsFull; RDequeue; RDequeue; RDequeue; RIsEmpty; RCap] in
  accepted 3 [] os <= 3 /\
  (r_history 0 3 os).1 = [RBool true; RBool true; RBool false; RVal (Some 1); RBool true; RVal (Some 2); RBool false;
                        RVal (Some 2); RVal (Some 3); RVal None; RBool true; RInt 3].
Proof. split; [vm_compute; lia|reflexivity]. Qed.
Example ring_excess_case :
  let pre := [REnqueue 1; REnqueue 2; REnqueue 9; RDequeue] in
  accepted 2 [] pre = 2 /\ length (ideal_state (bounded_step 2) [] pre) < 2 /\
  r_history 0 2 (pre ++ [REnqueue 3; RPeek]) = ([RBool true; RBool true; RBool false; RVal (Some 1)], Panic).
Proof. repeat split; vm_compute; lia. Qed.
