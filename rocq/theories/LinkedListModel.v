(** Model of dsx/linkedx/listx/listx.go *)
From Verif Require Import Base LinkedHeap SeqSpec.

Section LList.
Context {A : Type} (zero : A).

(** listx.go:16-21 type List *)
Record llist := LList {
  l_heap : list (node A);
  l_pool : list nat;
  l_head : option nat;
  l_tail : option nat;
  l_length : Z }.

(** listx.go:23-31 New *)
Definition l_new : llist := LList [] [] None None 0.

(** listx.go:33-45 Append *)
Definition l_append (c : nat) (l : llist) (x : A) : res llist :=
  let len := (l_length l + 1)%Z in
  let '(n, pool, h) := pool_get (Node zero None) c (l_pool l) (l_heap l) in
  let h := <[n := Node x None]> h in               (* n.data = data; n.next = nil *)
  match l_tail l with
  | None => Ret (LList h pool (Some n) (Some n) len)
  | Some t =>
      let! tn := deref (h !! t) in
      let h := <[t := Node (ndata tn) (Some n)]> h in  (* l.tail.next = n *)
      Ret (LList h pool (l_head l) (Some n) len)
  end.

(** The loop of listx.go:62-70 / 85-98: walk from [p], counting [i], until
    [i == target]; the location reached, or [None] when the chain ends. The fuel
    bounds the walk (a cyclic chain would walk for ever). *)
Fixpoint l_walk (fuel : nat) (h : list (node A)) (p : option nat) (i target : Z)
  : res (option nat) :=
  match p with
  | None => Ret None
  | Some l =>
      if (i =? target)%Z then Ret (Some l)
      else match fuel with
           | O => Spin
           | S f => let! nd := deref (h !! l) in l_walk f h (nnext nd) (i + 1)%Z target
           end
  end.

(** listx.go:47-71 Insert *)
Definition l_insert (c : nat) (l : llist) (index : Z) (x : A) : res llist :=
  let len := (l_length l + 1)%Z in
  let '(n, pool, h) := pool_get (Node zero None) c (l_pool l) (l_heap l) in
  let h := <[n := Node x None]> h in
  if (index =? 0)%Z then
    let h := <[n := Node x (l_head l)]> h in
    Ret (LList h pool (Some n) (l_tail l) len)
  else if (index =? len)%Z then
    let! t := deref (l_tail l) in
    let! tn := deref (h !! t) in
    let h := <[t := Node (ndata tn) (Some n)]> h in
    Ret (LList h pool (l_head l) (Some n) len)
  else
    let! r := l_walk (length h) h (l_head l) 0 (index - 1) in
    match r with
    | None => Ret (LList h pool (l_head l) (l_tail l) len)
    | Some p =>
        let! pn := deref (h !! p) in
        let h := <[n := Node x (nnext pn)]> h in          (* n.next = p.next *)
        let! pn := deref (h !! p) in
        let h := <[p := Node (ndata pn) (Some n)]> h in   (* p.next = n *)
        Ret (LList h pool (l_head l) (l_tail l) len)
    end.

(** listx.go:73-100 Remove *)
Definition l_remove (l : llist) (index : Z) : res (llist * answer A) :=
  let len := (l_length l - 1)%Z in
  if (index =? 0)%Z then
    match l_head l with
    | None => Ret (LList (l_heap l) (l_pool l) (l_head l) (l_tail l) len, None)
    | Some hd =>
        let! nd := deref (l_heap l !! hd) in
        Ret (LList (l_heap l) (l_pool l ++ [hd]) (nnext nd) (l_tail l) len, Some (ndata nd))
    end
  else
    let! r := l_walk (length (l_heap l)) (l_heap l) (l_head l) 0 (index - 1) in
    match r with
    | None => Ret (LList (l_heap l) (l_pool l) (l_head l) (l_tail l) len, None)
    | Some p =>
        let! pn := deref (l_heap l !! p) in
        match nnext pn with
        | None => Ret (LList (l_heap l) (l_pool l) (l_head l) (l_tail l) len, None)
        | Some q =>
            let! qn := deref (l_heap l !! q) in
            let h := <[p := Node (ndata pn) (nnext qn)]> (l_heap l) in (* p.next = p.next.next *)
            Ret (LList h (l_pool l ++ [q]) (l_head l) (l_tail l) len, Some (ndata qn))
        end
    end.

(** listx.go:102-113 At *)
Definition l_at (l : llist) (index : Z) : res (answer A) :=
  let! r := l_walk (length (l_heap l)) (l_heap l) (l_head l) 0 index in
  match r with
  | None => Ret None
  | Some p => let! pn := deref (l_heap l !! p) in Ret (Some (ndata pn))
  end.

(** listx.go:115-121 Iterate with a callback that may stop: the elements on
    which the callback [f] was called, in order. The callback is modelled as a
    predicate of the element; it does not modify the list. *)
Fixpoint l_iter (fuel : nat) (h : list (node A)) (p : option nat) (f : A -> bool)
  : res (list A) :=
  match p with
  | None => Ret []
  | Some l =>
      match fuel with
      | O => Spin
      | S fu =>
          let! nd := deref (h !! l) in
          if f (ndata nd)
          then let! rest := l_iter fu h (nnext nd) f in Ret (ndata nd :: rest)
          else Ret [ndata nd]
      end
  end.
(** listx.go 115-121: Iterate *)
Definition l_iterate (l : llist) (f : A -> bool) : res (list A) :=
  l_iter (length (l_heap l)) (l_heap l) (l_head l) f.

(** listx.go:123-125 Len *)
Definition l_len (l : llist) : Z := l_length l.

(** the methods, listx.go 33-125, as one step function *)
Definition l_step (l : llist) (o : nat * lop A) : res (llist * ret A) :=
  match o.2 with
  | Append x => let! l' := l_append o.1 l x in Ret (l', RUnit)
  | Insert i x => let! l' := l_insert o.1 l i x in Ret (l', RUnit)
  | Remove i => let! (l', v) := l_remove l i in Ret (l', RVal v)
  | At i => let! v := l_at l i in Ret (l, RVal v)
  | Iterate f => let! v := l_iterate l f in Ret (l, RSeen v)
  | LLen => Ret (l, RInt (l_len l))
  end.
End LList.
Arguments llist A : clear implicits.
