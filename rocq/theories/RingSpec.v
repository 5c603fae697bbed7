(** The ideal bounded FIFO queue of capacity [n]: the list of its elements,
    oldest first. *)
From Verif Require Import Base SeqSpec.

Inductive rop (A : Type) := REnqueue (x : A) | RDequeue | RPeek | RIsEmpty | RIsFull | RCap.
Arguments REnqueue {A} x.
Arguments RDequeue {A}.
Arguments RPeek {A}.
Arguments RIsEmpty {A}.
Arguments RIsFull {A}.
Arguments RCap {A}.

Definition bounded_step {A} (n : nat) (l : list A) (o : rop A) : list A * ret A :=
  match o with
  | REnqueue x => if length l <? n then (l ++ [x], RBool true) else (l, RBool false)
  | RDequeue => (tail l, RVal (head l))
  | RPeek => (l, RVal (head l))
  | RIsEmpty => (l, RBool (length l =? 0))
  | RIsFull => (l, RBool (length l =? n))
  | RCap => (l, RInt (Z.of_nat n))
  end.

(** how many Enqueues of a history the ideal queue of capacity [n] accepts *)
Fixpoint accepted {A} (n : nat) (l : list A) (os : list (rop A)) : nat :=
  match os with
  | [] => 0
  | o :: os' =>
      match o with
      | REnqueue _ => if length l <? n then 1 else 0
      | _ => 0
      end + accepted n (bounded_step n l o).1 os'
  end.
