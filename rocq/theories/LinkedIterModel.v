(** dsx/linkedx/listx/listx.go: Iterate with callbacks that use the list they are called
    from.  The callback is a program that calls methods of the list; the methods are those
    of LinkedListModel. *)
From Verif Require Import Base LinkedHeap SeqSpec LinkedListModel.

(** a callback: return r, or call a method (with the number that drives the pool) and look
    at its result; listx.go 115, 117: f *)
Inductive lprog (A R : Type) :=
| LPRet (r : R)
| LPCall (o : nat * lop A) (k : ret A -> lprog A R).
Arguments LPRet {A R} r.
Arguments LPCall {A R} o k.

Section M.
Context {A : Type} (zero : A).

(** listx.go 33-125: the calls the callback makes *)
Fixpoint run_lprog {R} (p : lprog A R) (l : llist A) : res (llist A * R) :=
  match p with
  | LPRet r => Ret (l, r)
  | LPCall o k => let! (l, r) := l_step zero l o in run_lprog (k r) l
  end.

(** 115-121 Iterate: p.data is read before the callback runs, p.next after it has returned.
    The callback has a state of type B (the variables it captures), and answers whether to
    go on.  The fuel bounds the number of calls of the callback. *)
Fixpoint iter_prog {B} (fuel : nat) (f : B -> A -> lprog A (B * bool)) (p : option nat) (l : llist A) (b : B) : res (llist A * B) :=
  match p with
  | None => Ret (l, b)
  | Some n =>
      match fuel with
      | O => Spin
      | S fu =>
          let! nd := deref (l_heap l !! n) in
          let! (l, (b, go)) := run_lprog (f b (ndata nd)) l in
          if go : bool then let! nd := deref (l_heap l !! n) in iter_prog fu f (nnext nd) l b
          else Ret (l, b)
      end
  end.
(** listx.go 115-121: Iterate *)
Definition l_iterate_prog {B} (fuel : nat) (f : B -> A -> lprog A (B * bool)) (l : llist A) (b : B) : res (llist A * B) :=
  iter_prog fuel f (l_head l) l b.
End M.
