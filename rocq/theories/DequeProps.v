(** Properties of dsx/linkedx/dequex (C16, C17). *)
From Verif Require Import Base SeqSpec LinkedHeap DequeModel DequeSpec DequeProofs.

(** C16 (natural statement, false): every history behaves as the ideal deque.
    After the deque was emptied from the front, an element pushed at the back is
    invisible from the front. *)
Theorem deque_refuted :
  ~ (forall (hist : list (nat * dop nat)),
       exists s', run (d_step 0) d_new hist = (ideal_results deque_step [] hist.*2, Ret s')).
Proof.
  intros H. destruct (H [(0, PushBack 1); (0, PopFront); (0, PushBack 2); (0, PopFront)]) as [s' Hs].
  vm_compute in Hs. discriminate.
Qed.
Print Assumptions deque_refuted.

(** For arbitrary elements: an element pushed after the deque was emptied from
    the front is lost, and after it was emptied from the back the popped element
    is delivered a second time. *)
Theorem deque_reuse_loses_refuted :
  forall (A : Type) (zero a b : A),
  (run (d_step zero) d_new [(0, PushBack a); (0, PopFront); (0, PushBack b); (0, PeekFront)]).1
    = [RUnit; RVal (Some a); RUnit; RVal None] /\
  (run (d_step zero) d_new [(0, PushFront a); (0, PopBack); (0, PopFront)]).1
    = [RUnit; RVal (Some a); RVal (Some a)].
Proof. intros; split; reflexivity. Qed.
Print Assumptions deque_reuse_loses_refuted.

(** C17: until it is first emptied the deque is exactly the ideal one (the pop
    that empties it included), for any number of chunks and any recycling. *)
Theorem deque_until_emptied :
  forall (A : Type) (zero : A) (hist : list (nat * dop A)),
  never_used_after_emptied hist.*2 ->
  exists s', run (d_step zero) d_new hist = (ideal_results deque_step [] hist.*2, Ret s').
Proof. exact @deque_refines. Qed.
Print Assumptions deque_until_emptied.

(** C16, the part that holds (missing: calls on a deque emptied after a push). *)
Theorem deque_partial :
  forall (A : Type) (zero : A) (hist : list (nat * dop A)),
  never_used_after_emptied hist.*2 ->
  exists s', run (d_step zero) d_new hist = (ideal_results deque_step [] hist.*2, Ret s').
Proof. exact @deque_refines. Qed.
Print Assumptions deque_partial.

Example deque_until_emptied_nonvacuous :
  let hist := [(0, PopFront); (0, PeekBack)]
              ++ ((fun i => (i, PushBack i)) <$> seq 0 70) ++ ((fun i => (i, PushFront i)) <$> seq 0 3)
              ++ replicate 72 (0, PopFront) ++ [(0, PeekBack); (0, PopBack)] in
  never_used_after_emptied hist.*2 /\
  drop 145 (ideal_results deque_step [] hist.*2) = [RVal (Some 67); RVal (Some 68); RVal (Some 69); RVal (Some 69)].
Proof.
  split; [apply check_never_used; vm_compute; reflexivity|vm_compute; reflexivity].
Qed.
