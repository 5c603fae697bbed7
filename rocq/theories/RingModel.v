(** Model of dsx/slicex/queuex/queuex.go *)
From Verif Require Import Base SeqSpec RingSpec.

Section Ring.
Context {A : Type} (zero : A).

(** queuex.go:9-14 type Ring.  [data] is never re-sliced, so it is its array. *)
Record ring := Ring { rg_data : list A; rg_cap : Z; rg_head : Z; rg_tail : Z }.

(** data[i] and data[i] = x; queuex.go 41, 47, 66, and 32 *)
Definition at_ (l : list A) (i : Z) : res A :=
  if in_range i 0 (zlen l) then deref (l !! Z.to_nat i) else Panic.
(** queuex.go 32 *)
Definition put_ (l : list A) (i : Z) (x : A) : res (list A) :=
  if in_range i 0 (zlen l) then Ret (<[Z.to_nat i := x]> l) else Panic.

(** queuex.go:16-26 New; [None] is the nil pointer.  make panics for a negative
    length (and for one beyond the address space: not modelled, the capacity is
    any integer here, so cap+1 does not wrap). *)
Definition r_new (cap : Z) : res (option ring) :=
  if (cap =? 0)%Z then Ret None
  else if (cap <? 0)%Z then Panic
  else Ret (Some (Ring (replicate (Z.to_nat cap) zero) (cap + 1) 0 0)).

(** queuex.go:54-56, 58-60 IsEmpty, IsFull ([Z.rem] is Go's %) *)
Definition r_is_empty (r : ring) : bool := (rg_head r =? rg_tail r)%Z.
(** queuex.go 58-60: IsFull *)
Definition r_is_full (r : ring) : bool := (rg_head r =? Z.rem (rg_tail r + 1) (rg_cap r))%Z.

(** queuex.go:28-35 Enqueue *)
Definition r_enqueue (r : ring) (x : A) : res (ring * bool) :=
  if r_is_full r then Ret (r, false)
  else let! d := put_ (rg_data r) (rg_tail r) x in
       Ret (Ring d (rg_cap r) (rg_head r) (Z.rem (rg_tail r + 1) (rg_cap r)), true).

(** queuex.go:37-44 Dequeue *)
Definition r_dequeue (r : ring) : res (ring * answer A) :=
  if r_is_empty r then Ret (r, None)
  else let! x := at_ (rg_data r) (rg_head r) in
       Ret (Ring (rg_data r) (rg_cap r) (Z.rem (rg_head r + 1) (rg_cap r)) (rg_tail r), Some x).

(** queuex.go:46-48 Head, 50-52 Cap, 62-67 Peek *)
Definition r_head (r : ring) : res A := at_ (rg_data r) (rg_head r).
(** queuex.go 50-52: Cap *)
Definition r_capacity (r : ring) : Z := (rg_cap r - 1)%Z.
(** queuex.go 62-67: Peek *)
Definition r_peek (r : ring) : res (answer A) :=
  if r_is_empty r then Ret None
  else let! x := at_ (rg_data r) (rg_head r) in Ret (Some x).

(** One method call on a possibly nil *Ring: every method reads a field of the
    receiver first, so a nil receiver panics. queuex.go 28-67 *)
Definition r_step (p : option ring) (o : rop A) : res (option ring * ret A) :=
  let! r := deref p in
  match o with
  | REnqueue x => let! (r', b) := r_enqueue r x in Ret (Some r', RBool b)
  | RDequeue => let! (r', v) := r_dequeue r in Ret (Some r', RVal v)
  | RPeek => let! v := r_peek r in Ret (Some r, RVal v)
  | RIsEmpty => Ret (Some r, RBool (r_is_empty r))
  | RIsFull => Ret (Some r, RBool (r_is_full r))
  | RCap => Ret (Some r, RInt (r_capacity r))
  end.

(** New followed by the calls of a history; queuex.go 16-67 *)
Definition r_history (cap : Z) (os : list (rop A)) : list (ret A) * res (option ring) :=
  match r_new cap with
  | Ret p => run r_step p os
  | Panic => ([], Panic)
  | Spin => ([], Spin)
  end.
End Ring.
Arguments ring A : clear implicits.
