(** What is left of a container when a call panics and the caller recovers: the
    behaviour of each package on the list of its elements. *)
From Verif Require Import Base SeqSpec RingSpec BitSetSpec SliceStackSpec LinkedListExactSpec.

Section Spec.
Context {A : Type}.

(** linkedx/stackx: Pop answers with the element below the top; of the last element
    it panics, and the element is gone *)
Definition rec_stack_step (l : list A) (o : sop A) : list A * res (ret A) :=
  match o with
  | Pop => match l with
           | [] => ([], Ret (RVal None))
           | [_] => ([], Panic)
           | _ :: y :: l' => (y :: l', Ret (RVal (Some y)))
           end
  | _ => let '(l', r) := lifo_step l o in (l', Ret r)
  end.
(** linkedx/queuex, while no node is recycled: the same *)
Definition rec_queue_step (l : list A) (o : qop A) : list A * res (ret A) :=
  match o with
  | Dequeue => match l with
           | [] => ([], Ret (RVal None))
           | [_] => ([], Panic)
           | _ :: y :: l' => (y :: l', Ret (RVal (Some y)))
           end
  | _ => let '(l', r) := fifo_step l o in (l', Ret r)
  end.
(** linkedx/listx: Insert at Len()+1 when there is no last node yet panics; the
    elements stay, Len counts the one that was not inserted *)
Definition rec_list_step (s : lstate A) (o : bool * lop A) : lstate A * res (ret A) :=
  match exact_step s o with
  | Ret (s', r) => (s', Ret r)
  | Panic => (LState (e_seq s) (e_tail s) (e_len s + 1), Panic)
  | Spin => (s, Spin)
  end.
(** slicex/queuex of capacity n, which has accepted [a] elements in all: Enqueue
    panics from the (n+1)-th on, unless it answers false; nothing changes then *)
Definition rec_ring_step (n : nat) (s : nat * list A) (o : rop A) : (nat * list A) * res (ret A) :=
  let '(a, l) := s in
  match o with
  | REnqueue x => if length l =? n then (s, Ret (RBool false))
                  else if a <? n then ((S a, l ++ [x]), Ret (RBool true)) else (s, Panic)
  | _ => let '(l', r) := bounded_step n l o in ((a, l'), Ret r)
  end.
(** slicex/listx: an Insert outside the list panics, and appends *)
Definition rec_vlist_step (l : list A) (o : lop A) : list A * res (ret A) :=
  match o with
  | Insert i x => if in_range i 0 (zlen l + 1) then let '(l', r) := seq_step l o in (l', Ret r) else (l ++ [x], Panic)
  | _ => let '(l', r) := seq_step l o in (l', Ret r)
  end.
End Spec.

(** bitsetx: the indices before the first negative one *)
Fixpoint before_negative (is : list Z) : list Z :=
  match is with [] => [] | i :: is' => if (i <? 0)%Z then [] else i :: before_negative is' end.
Definition rec_bitset_step (l : list bool) (o : bop) : list bool * res (ret unit) :=
  match bitset_spec l o with
  | Ret (l', r) => (l', Ret r)
  | Panic =>
      (match o with
       | BSet is => fold_left (upd (fun _ => true)) (before_negative is) l
       | BClear is => fold_left (upd (fun _ => false)) (before_negative is) l
       | BToggle is => fold_left (upd negb) (before_negative is) l
       | _ => l
       end, Panic)
  | Spin => (l, Spin)
  end.
