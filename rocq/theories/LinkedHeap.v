(** Heap of singly linked nodes and the node pool shared by
    dsx/linkedx/{queuex,stackx,listx}.

    Every one of these packages declares the same node type
      type node[T any] struct { data T; next *node[T] }
    (queuex.go:9-12, stackx.go:9-12, listx.go:9-12).
    A heap is the list of all nodes ever allocated, a location is an index in
    it, nil is [None].

    sync.Pool (Go runtime, not in /repo): the pool is the list of nodes that were
    Put.  A Get is driven by an oracle number [c]: if the pool has a [c]-th entry
    it is removed and returned, otherwise the pool's New function runs and a new
    zero node is allocated.  (The garbage collector may also drop pool entries:
    a Get that never picks an entry covers that.) *)
From Verif Require Import Base.

(** queuex.go 9-12, stackx.go 9-12, listx.go 9-12 *)
Record node (A : Type) := Node { ndata : A; nnext : option nat }.
Arguments Node {A} _ _.
Arguments ndata {A} _.
Arguments nnext {A} _.

(** pool.Get(): queuex.go:33, stackx.go:34, listx.go:35 and 49. *)
Definition pool_get {N} (zero_node : N) (c : nat) (pool : list nat) (h : list N)
  : nat * list nat * list N :=
  match pool !! c with
  | Some l => (l, delete c pool, h)
  | None => (length h, pool, h ++ [zero_node])
  end.
