(** Properties of dsx/linkedx/queuex (C12, C13). *)
From Verif Require Import Base SeqSpec LinkedHeap LinkedQueueModel LinkedQueueSpec LinkedQueueProofs LinkedQueueProofs2.

(** C12 (natural statement, false): every history behaves as the ideal FIFO queue. *)
Theorem linked_queue_fifo_refuted :
  ~ (forall (hist : list (nat * qop nat)),
       exists s', run (q_step 0) q_new hist = (ideal_results fifo_step [] hist.*2, Ret s')).
Proof.
  intros H. destruct (H [(0, Enqueue 1); (0, Enqueue 2); (0, Dequeue)]) as [s' Hs].
  vm_compute in Hs. discriminate.
Qed.
Print Assumptions linked_queue_fifo_refuted.

(** C12, restricted to histories that never Dequeue a non-empty queue. *)
Theorem linked_queue_fifo_partial :
  forall (A : Type) (zero : A) (hist : list (nat * qop A)),
    (forall pre post, hist.*2 = pre ++ Dequeue :: post -> ideal_state fifo_step [] pre = []) ->
    exists s', run (q_step zero) q_new hist = (ideal_results fifo_step [] hist.*2, Ret s').
Proof. exact @queue_no_dequeue. Qed.
Print Assumptions linked_queue_fifo_partial.

Example linked_queue_fifo_partial_nonvacuous :
  let hist := [(0, Dequeue); (0, Enqueue 7); (3, Enqueue 8); (0, Peek); (0, IsEmpty)] in
  (forall pre post, hist.*2 = pre ++ Dequeue :: post -> ideal_state (@fifo_step nat) [] pre = []) /\
  ideal_results fifo_step [] hist.*2
  = [RVal None; RBool true; RBool true; RVal (Some 7); RBool false].
Proof.
  split; [|reflexivity]. cbn. intros pre post E.
  destruct pre as [|o pre]; [reflexivity|].
  exfalso. destruct pre as [|? [|? [|? [|? pre]]]]; cbn in E; try discriminate E.
  injection E. intros E' _ _ _ _ _. destruct pre; discriminate E'.
Qed.

(** C13: n elements enqueued, then k dequeues, any pool behaviour: the first n-1
    dequeues answer the 2nd, 3rd, ... n-th element, and the n-th one panics. *)
Theorem linked_queue_dequeue_exact :
  forall (A : Type) (zero x : A) (cxs : list (nat * A)) (c0 : nat) (cs : list nat),
  let xs := x :: cxs.*2 in
  let enqueues := (fun cx => (cx.1, Enqueue cx.2)) <$> ((c0, x) :: cxs) in
  let dequeues := (fun c => (c, Dequeue)) <$> cs in
  let r := run (q_step zero) q_new (enqueues ++ dequeues) in
  (length cs < length xs ->
     r.1 = replicate (length xs) (RBool true)
           ++ ((fun y => RVal (Some y)) <$> take (length cs) (tail xs))
     /\ ended r.2 = Ret tt)
  /\ (length cs = length xs ->
     r.1 = replicate (length xs) (RBool true) ++ ((fun y => RVal (Some y)) <$> tail xs)
     /\ r.2 = Panic).
Proof. exact @queue_dequeues. Qed.
Print Assumptions linked_queue_dequeue_exact.

(** C13, all histories in which every Enqueue gets a new node (no recycling):
    exact behaviour, given by [coded_queue_step]. *)
Theorem linked_queue_exact_no_recycling :
  forall (A : Type) (zero : A) (hist : list (nat * qop A)),
  no_recycling 0 hist ->
  (run (q_step zero) q_new hist).1 = (run coded_queue_step [] hist.*2).1 /\
  ended (run (q_step zero) q_new hist).2 = ended (run coded_queue_step [] hist.*2).2 /\
  (run coded_queue_step [] hist.*2).2 <> Spin.
Proof. exact @queue_exact. Qed.
Print Assumptions linked_queue_exact_no_recycling.

Example linked_queue_exact_case :
  let hist := [(0,Enqueue 1);(0,Enqueue 2);(9,Peek);(0,Dequeue);(1,Enqueue 3);(0,IsEmpty);(0,Dequeue);(0,Dequeue)] in
  no_recycling 0 hist /\
  run (q_step 0) q_new hist
  = ([RBool true; RBool true; RVal (Some 1); RVal (Some 2); RBool true; RBool false;
      RVal (Some 3)], Panic).
Proof. split; [cbn; lia|reflexivity]. Qed.

(** C13, all histories and every pool behaviour, recycled nodes included, as long
    as the last element is never dequeued (where [coded_queue_step] panics). *)
Theorem linked_queue_exact_recycling :
  forall (A : Type) (zero : A) (hist : list (nat * qop A)) l,
  (run coded_queue_step [] hist.*2).2 = Ret l ->
  exists q, run (q_step zero) q_new hist = ((run coded_queue_step [] hist.*2).1, Ret q) /\
    (q_isempty q = true <-> l = []) /\ forall c, q_step zero q (c, Peek) = Ret (q, RVal (head l)).
Proof.
  intros A zero hist l E. destruct (qown_run zero q_new [] hist l qown_new E) as (q & -> & HQ). exists q.
  split; [reflexivity|]. split.
  - destruct HQ as (ls & e & HS & _ & _ & HE). unfold q_isempty. destruct l as [|x l], ls as [|y ls]; cbn in HS; try tauto.
    + rewrite (HE eq_refl). tauto.
    + destruct HS as (-> & _). split; discriminate.
  - intros c. destruct HQ as (ls & e & HS & _ & _ & HE). unfold q_step, q_peek. cbn [fst snd].
    destruct l as [|x l], ls as [|y ls]; cbn in HS; try tauto.
    + rewrite (HE eq_refl). reflexivity.
    + destruct HS as (-> & nx & -> & _). reflexivity.
Qed.
Print Assumptions linked_queue_exact_recycling.

Example linked_queue_exact_recycling_case :
  let hist := [(0,Enqueue 1);(0,Enqueue 2);(0,Enqueue 3);(0,Dequeue);(0,Enqueue 4);(0,Dequeue);(0,Enqueue 5);(0,Dequeue);(0,Peek)] in
  ~ no_recycling 0 hist /\
  (run coded_queue_step [] hist.*2).2 = Ret [4; 5] /\
  (run (q_step 0) q_new hist).1
  = [RBool true; RBool true; RBool true; RVal (Some 2); RBool true; RVal (Some 3); RBool true; RVal (Some 4); RVal (Some 4)].
Proof. split; [cbn; lia|split; reflexivity]. Qed.

(** C12, second defect: when the pool recycles a node, its stale link closes the
    chain into a ring and four enqueued elements can be dequeued for ever. *)
Theorem linked_queue_recycling_endless :
  forall (A : Type) (zero a b c d : A) (n : nat),
  ended (run (q_step zero) q_new
     ([(0, Enqueue a); (0, Enqueue b); (0, Enqueue c); (0, Dequeue); (0, Enqueue d)]
      ++ replicate n (0, Dequeue))).2 = Ret tt.
Proof. exact @queue_endless. Qed.
Print Assumptions linked_queue_recycling_endless.
