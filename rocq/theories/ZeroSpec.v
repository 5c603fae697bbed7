(** What a container declared with var, without its New, does; every panic recovered. *)
From Verif Require Import Base SeqSpec RingSpec.

Section Spec.
Context {A : Type}.
(** linkedx/stackx: Len counts the Pushes, all of which panicked *)
Definition zero_stack_step (n : Z) (o : sop A) : Z * res (ret A) :=
  match o with
  | Push _ => ((n + 1)%Z, Panic)
  | Pop | STop => (n, Ret (RVal None))
  | SLen => (n, Ret (RInt n))
  end.
(** linkedx/listx: Len counts the calls that should insert less those that should remove *)
Definition zero_list_step (n : Z) (o : lop A) : Z * res (ret A) :=
  match o with
  | Append _ | Insert _ _ => ((n + 1)%Z, Panic)
  | Remove _ => ((n - 1)%Z, Ret (RVal None))
  | At _ => (n, Ret (RVal None))
  | Iterate _ => (n, Ret (RSeen []))
  | LLen => (n, Ret (RInt n))
  end.
(** linkedx/queuex, linkedx/dequex, slicex/queuex: always empty *)
Definition zero_queue_answer (o : qop A) : res (ret A) :=
  match o with
  | Enqueue _ => Panic
  | Dequeue | Peek => Ret (RVal None)
  | IsEmpty => Ret (RBool true)
  end.
Definition zero_deque_answer (o : dop A) : res (ret A) :=
  match o with PushFront _ | PushBack _ => Panic | _ => Ret (RVal None) end.
Definition zero_ring_answer (o : rop A) : res (ret A) :=
  match o with
  | REnqueue _ | RIsFull => Panic
  | RDequeue | RPeek => Ret (RVal None)
  | RIsEmpty => Ret (RBool true)
  | RCap => Ret (RInt (-1))
  end.
End Spec.
