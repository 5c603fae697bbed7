(** Model of dsx/linkedx/queuex/queuex.go *)
From Verif Require Import Base LinkedHeap SeqSpec.

Section Queue.
Context {A : Type} (zero : A).

(** queuex.go:16-20 type Queue *)
Record queue := Queue {
  q_heap : list (node A);
  q_pool : list nat;
  q_head : option nat;
  q_tail : option nat }.

(** queuex.go:22-30 New *)
Definition q_new : queue := Queue [] [] None None.

(** queuex.go:32-43 Enqueue.  [c] is the pool oracle. Note that [n.next] is not reset. *)
Definition q_enqueue (c : nat) (q : queue) (x : A) : res (queue * bool) :=
  let '(n, pool, h) := pool_get (Node zero None) c (q_pool q) (q_heap q) in
  let! nd := deref (h !! n) in
  let h := <[n := Node x (nnext nd)]> h in                        (* n.data = data *)
  match q_head q with
  | None => Ret (Queue h pool (Some n) (Some n), true)
  | Some _ =>
      let! t := deref (q_tail q) in
      let! tn := deref (h !! t) in
      let h := <[t := Node (ndata tn) (Some n)]> h in              (* q.tail.next = n *)
      Ret (Queue h pool (q_head q) (Some n), true)
  end.

(** queuex.go:45-52 Dequeue *)
Definition q_dequeue (q : queue) : res (queue * answer A) :=
  match q_head q with
  | None => Ret (q, None)
  | Some hd =>
      let! nd := deref (q_heap q !! hd) in
      let q' := Queue (q_heap q) (q_pool q ++ [hd]) (nnext nd) (q_tail q) in
      let! hd' := deref (q_head q') in                             (* q.head.data *)
      let! nd' := deref (q_heap q' !! hd') in
      Ret (q', Some (ndata nd'))
  end.

(** queuex.go:54-59 Peek *)
Definition q_peek (q : queue) : res (queue * answer A) :=
  match q_head q with
  | None => Ret (q, None)
  | Some hd => let! nd := deref (q_heap q !! hd) in Ret (q, Some (ndata nd))
  end.

(** queuex.go:61-63 IsEmpty *)
Definition q_isempty (q : queue) : bool :=
  match q_head q with None => true | Some _ => false end.

(** One call; [o.1] is the pool oracle used if the call allocates. queuex.go 32-63 *)
Definition q_step (q : queue) (o : nat * qop A) : res (queue * ret A) :=
  match o.2 with
  | Enqueue x => let! (q', b) := q_enqueue o.1 q x in Ret (q', RBool b)
  | Dequeue => let! (q', v) := q_dequeue q in Ret (q', RVal v)
  | Peek => let! (q', v) := q_peek q in Ret (q', RVal v)
  | IsEmpty => Ret (q, RBool (q_isempty q))
  end.
End Queue.
Arguments queue A : clear implicits.
