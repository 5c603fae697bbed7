(** What dsx/linkedx/queuex really implements while its pool hands out new
    nodes, as a function of the list of elements (oldest first): like the ideal
    FIFO queue, except that Dequeue discards the front element and answers with
    the one *after* it, and panics when there is none. *)
From Verif Require Import Base SeqSpec.

Definition coded_queue_step {A} (l : list A) (o : qop A) : res (list A * ret A) :=
  match o with
  | Dequeue => match l with
           | [] => Ret ([], RVal None)
           | [_] => Panic
           | _ :: y :: l' => Ret (y :: l', RVal (Some y))
           end
  | _ => Ret (fifo_step l o)
  end.

(** "Every Enqueue gets a new node": the pool holds at most one node per Dequeue
    made so far ([n]), and the oracle number of an Enqueue is not below it, so it
    names no pool entry.  Holds for every oracle when no Enqueue follows a Dequeue. *)
Fixpoint no_recycling {A} (n : nat) (hist : list (nat * qop A)) : Prop :=
  match hist with
  | [] => True
  | (c, Enqueue _) :: hist' => n <= c /\ no_recycling n hist'
  | (_, Dequeue) :: hist' => no_recycling (S n) hist'
  | _ :: hist' => no_recycling n hist'
  end.
