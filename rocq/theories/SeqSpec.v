(** Ideal sequential containers: the reading of the interfaces of dsx/dsx.go
    (Deque 3-10, List 12-19, Queue 21-26, Stack 28-33) that a user relies on.
    A container is just the list of its elements.  A Go pair (T, bool) is an
    [option]: [None] is (zero value, false). *)
From Verif Require Import Base.

(** What a call returns. *)
Inductive ret (A : Type) : Type :=
| RUnit                        (* nothing *)
| RBool (b : bool)
| RInt (z : Z)
| RVal (v : option A)          (* (T, bool) *)
| RSeen (l : list A).          (* arguments on which a callback was called, in order *)
Arguments RUnit {A}.
Arguments RBool {A} b.
Arguments RInt {A} z.
Arguments RVal {A} v.
Arguments RSeen {A} l.

(** *** Queue: front of the list = oldest element *)
Inductive qop (A : Type) := Enqueue (x : A) | Dequeue | Peek | IsEmpty.
Arguments Enqueue {A} x.
Arguments Dequeue {A}.
Arguments Peek {A}.
Arguments IsEmpty {A}.
Definition fifo_step {A} (l : list A) (o : qop A) : list A * ret A :=
  match o with
  | Enqueue x => (l ++ [x], RBool true)
  | Dequeue => (tail l, RVal (head l))
  | Peek => (l, RVal (head l))
  | IsEmpty => (l, RBool (match l with [] => true | _ => false end))
  end.

(** *** Stack: front of the list = most recent element *)
Inductive sop (A : Type) := Push (x : A) | Pop | STop | SLen.
Arguments Push {A} x.
Arguments Pop {A}.
Arguments STop {A}.   (* the Go method is called Peek *)
Arguments SLen {A}.
Definition lifo_step {A} (l : list A) (o : sop A) : list A * ret A :=
  match o with
  | Push x => (x :: l, RBool true)
  | Pop => (tail l, RVal (head l))
  | STop => (l, RVal (head l))
  | SLen => (l, RInt (Z.of_nat (length l)))
  end.

(** *** Indexed sequence *)
Inductive lop (A : Type) :=
| Append (x : A) | Insert (i : Z) (x : A) | Remove (i : Z) | At (i : Z)
| Iterate (f : A -> bool) | LLen.
Arguments Append {A} x.
Arguments Insert {A} i x.
Arguments Remove {A} i.
Arguments At {A} i.
Arguments Iterate {A} f.
Arguments LLen {A}.

(** the elements a callback sees when it is called on one after the other until
    it answers [false] *)
Fixpoint seen_until_false {A} (f : A -> bool) (l : list A) : list A :=
  match l with
  | [] => []
  | x :: l' => x :: (if f x then seen_until_false f l' else [])
  end.

Definition in_range (i : Z) (lo hi : Z) : bool := ((lo <=? i) && (i <? hi))%Z.  (* lo <= i < hi *)
Definition zlen {A} (l : list A) : Z := Z.of_nat (length l).

Definition seq_step {A} (l : list A) (o : lop A) : list A * ret A :=
  match o with
  | Append x => (l ++ [x], RUnit)
  | Insert i x =>
      if in_range i 0 (zlen l + 1)
      then (take (Z.to_nat i) l ++ x :: drop (Z.to_nat i) l, RUnit)
      else (l, RUnit)
  | Remove i =>
      if in_range i 0 (zlen l)
      then (take (Z.to_nat i) l ++ drop (S (Z.to_nat i)) l, RVal (l !! Z.to_nat i))
      else (l, RVal None)
  | At i => (l, RVal (if in_range i 0 (zlen l) then l !! Z.to_nat i else None))
  | Iterate f => (l, RSeen (seen_until_false f l))
  | LLen => (l, RInt (zlen l))
  end.

(** *** Deque *)
Inductive dop (A : Type) :=
| PushFront (x : A) | PushBack (x : A) | PopFront | PopBack | PeekFront | PeekBack.
Arguments PushFront {A} x.
Arguments PushBack {A} x.
Arguments PopFront {A}.
Arguments PopBack {A}.
Arguments PeekFront {A}.
Arguments PeekBack {A}.
Definition deque_step {A} (l : list A) (o : dop A) : list A * ret A :=
  match o with
  | PushFront x => (x :: l, RUnit)
  | PushBack x => (l ++ [x], RUnit)
  | PopFront => (tail l, RVal (head l))
  | PopBack => (take (length l - 1) l, RVal (last l))
  | PeekFront => (l, RVal (head l))
  | PeekBack => (l, RVal (last l))
  end.
