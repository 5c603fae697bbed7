(** Model of dsx/linkedx/dequex/dequex.go *)
From Verif Require Import Base LinkedHeap SeqSpec.

(** dequex.go:11 nodeBufferSize *)
Definition chunk : Z := 64.

(** Go array indexing: panics outside [0,len). dequex.go 89, 106, 121, 128 *)
Definition aget {A} (l : list A) (i : Z) : res A :=
  if (0 <=? i)%Z then deref (l !! Z.to_nat i) else Panic.
(** dequex.go 40, 49, 58, 64, 73, 81: assignment to an element *)
Definition aset {A} (l : list A) (i : Z) (x : A) : res (list A) :=
  if ((0 <=? i) && (i <? zlen l))%Z then Ret (<[Z.to_nat i := x]> l) else Panic.

Section Deque.
Context {A : Type} (zero : A).

(** dequex.go:13-19 node *)
Record dnode := DNode {
  ddata : list A; dstart : Z; dend : Z; dnext : option nat; dprev : option nat }.
(** new(node[T]) dequex.go 31 *)
Definition dzero : dnode := DNode (replicate 64 zero) 0 0 None None.

(** dequex.go:21-25 Deque *)
Record deque := Deque {
  d_heap : list dnode; d_pool : list nat; d_head : option nat; d_tail : option nat }.

(** dequex.go:27-35 New *)
Definition d_new : deque := Deque [] [] None None.

(** dequex.go:38-46 and 62-70: the first node *)
Definition d_first (c : nat) (d : deque) (x : A) : res deque :=
  let '(n, pool, h) := pool_get dzero c (d_pool d) (d_heap d) in
  let! nd := deref (h !! n) in
  let! data := aset (ddata nd) 0 x in
  Ret (Deque (<[n := DNode data 0 1 (dnext nd) (dprev nd)]> h) pool (Some n) (Some n)).

(** dequex.go:37-59 PushFront *)
Definition d_push_front (c : nat) (d : deque) (x : A) : res deque :=
  match d_head d with
  | None => d_first c d x
  | Some hd =>
      let! hn := deref (d_heap d !! hd) in
      if (dstart hn =? 0)%Z then
        let '(n, pool, h) := pool_get dzero c (d_pool d) (d_heap d) in
        let! nd := deref (h !! n) in
        let! data := aset (ddata nd) (chunk - 1) x in
        let h := <[n := DNode data (chunk - 1) chunk (Some hd) (dprev nd)]> h in
        let! hn := deref (h !! hd) in
        let h := <[hd := DNode (ddata hn) (dstart hn) (dend hn) (dnext hn) (Some n)]> h in
        Ret (Deque h pool (Some n) (d_tail d))
      else
        let s := (dstart hn - 1)%Z in
        let! data := aset (ddata hn) s x in
        Ret (Deque (<[hd := DNode data s (dend hn) (dnext hn) (dprev hn)]> (d_heap d))
                   (d_pool d) (d_head d) (d_tail d))
  end.

(** dequex.go:61-83 PushBack *)
Definition d_push_back (c : nat) (d : deque) (x : A) : res deque :=
  match d_tail d with
  | None => d_first c d x
  | Some tl =>
      let! tn := deref (d_heap d !! tl) in
      if (dend tn =? chunk)%Z then
        let '(n, pool, h) := pool_get dzero c (d_pool d) (d_heap d) in
        let! nd := deref (h !! n) in
        let! data := aset (ddata nd) 0 x in
        let h := <[n := DNode data 0 1 (dnext nd) (Some tl)]> h in
        let! tn := deref (h !! tl) in
        let h := <[tl := DNode (ddata tn) (dstart tn) (dend tn) (Some n) (dprev tn)]> h in
        Ret (Deque h pool (d_head d) (Some n))
      else
        let! data := aset (ddata tn) (dend tn) x in
        Ret (Deque (<[tl := DNode data (dstart tn) (dend tn + 1)%Z (dnext tn) (dprev tn)]> (d_heap d))
                   (d_pool d) (d_head d) (d_tail d))
  end.

(** dequex.go:85-99 PopFront *)
Definition d_pop_front (d : deque) : res (deque * answer A) :=
  match d_head d with
  | None => Ret (d, None)
  | Some hd =>
      let! hn := deref (d_heap d !! hd) in
      let! x := aget (ddata hn) (dstart hn) in
      let s := (dstart hn + 1)%Z in
      let h := <[hd := DNode (ddata hn) s (dend hn) (dnext hn) (dprev hn)]> (d_heap d) in
      if (s =? dend hn)%Z then
        let pool := d_pool d ++ [hd] in
        match dnext hn with
        | None => Ret (Deque h pool None (d_tail d), Some x)
        | Some m =>
            let! mn := deref (h !! m) in
            let h := <[m := DNode (ddata mn) (dstart mn) (dend mn) (dnext mn) None]> h in
            Ret (Deque h pool (Some m) (d_tail d), Some x)
        end
      else Ret (Deque h (d_pool d) (d_head d) (d_tail d), Some x)
  end.

(** dequex.go:101-115 PopBack *)
Definition d_pop_back (d : deque) : res (deque * answer A) :=
  match d_tail d with
  | None => Ret (d, None)
  | Some tl =>
      let! tn := deref (d_heap d !! tl) in
      let e := (dend tn - 1)%Z in
      let! x := aget (ddata tn) e in
      let h := <[tl := DNode (ddata tn) (dstart tn) e (dnext tn) (dprev tn)]> (d_heap d) in
      if (dstart tn =? e)%Z then
        let pool := d_pool d ++ [tl] in
        match dprev tn with
        | None => Ret (Deque h pool (d_head d) None, Some x)
        | Some m =>
            let! mn := deref (h !! m) in
            let h := <[m := DNode (ddata mn) (dstart mn) (dend mn) None (dprev mn)]> h in
            Ret (Deque h pool (d_head d) (Some m), Some x)
        end
      else Ret (Deque h (d_pool d) (d_head d) (d_tail d), Some x)
  end.

(** dequex.go:117-122 PeekFront *)
Definition d_peek_front (d : deque) : res (answer A) :=
  match d_head d with
  | None => Ret None
  | Some hd =>
      let! hn := deref (d_heap d !! hd) in
      let! x := aget (ddata hn) (dstart hn) in Ret (Some x)
  end.

(** dequex.go:124-129 PeekBack *)
Definition d_peek_back (d : deque) : res (answer A) :=
  match d_tail d with
  | None => Ret None
  | Some tl =>
      let! tn := deref (d_heap d !! tl) in
      let! x := aget (ddata tn) (dend tn - 1) in Ret (Some x)
  end.

(** the methods, dequex.go 37-129, as one step function *)
Definition d_step (d : deque) (o : nat * dop A) : res (deque * ret A) :=
  match o.2 with
  | PushFront x => let! d' := d_push_front o.1 d x in Ret (d', RUnit)
  | PushBack x => let! d' := d_push_back o.1 d x in Ret (d', RUnit)
  | PopFront => let! (d', v) := d_pop_front d in Ret (d', RVal v)
  | PopBack => let! (d', v) := d_pop_back d in Ret (d', RVal v)
  | PeekFront => let! v := d_peek_front d in Ret (d, RVal v)
  | PeekBack => let! v := d_peek_back d in Ret (d, RVal v)
  end.
End Deque.
Arguments dnode A : clear implicits.
Arguments deque A : clear implicits.
