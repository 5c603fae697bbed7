(** Model of dsx/setx/bitsetx/bitsetx.go.  [w] is the width of the unsigned type
    T; a value of T is an integer in [0, 2^w). *)
From Verif Require Import Base SeqSpec BitSetSpec.

Section Model.
Variable w : Z.
(** T-typed arithmetic; bitsetx.go 7-9 *)
Definition word (z : Z) : Z := (z mod 2^w)%Z.
(** bitsetx.go 19, 42, 50, 54: the operator ^ *)
Definition wnot (x : Z) : Z := (2^w - 1 - x)%Z.             (* ^x *)
(** 1 << i in type T: panics for negative i, drops the bits beyond the width;
    bitsetx.go 13, 19, 25, 32 *)
Definition shl1 (i : Z) : res Z := if (i <? 0)%Z then Panic else Ret (word (Z.shiftl 1 i)).

(** bitsetx.go 11-15: Set *)
Fixpoint b_set (data : Z) (is : list Z) : res Z :=
  match is with
  | [] => Ret data
  | i :: is' => let! k := shl1 i in b_set (Z.lor data k) is'
  end.
(** bitsetx.go 17-21: Clear *)
Fixpoint b_clear (data : Z) (is : list Z) : res Z :=
  match is with
  | [] => Ret data
  | i :: is' => let! k := shl1 i in b_clear (Z.land data (wnot k)) is'
  end.
(** bitsetx.go 23-27: Toggle *)
Fixpoint b_toggle (data : Z) (is : list Z) : res Z :=
  match is with
  | [] => Ret data
  | i :: is' => let! k := shl1 i in b_toggle (Z.lxor data k) is'
  end.
(** bitsetx.go 29-35: Test.  t = t || data&(1<<i) != 0 *)
Fixpoint b_test_loop (data : Z) (t : bool) (is : list Z) : res bool :=
  match is with
  | [] => Ret t
  | i :: is' =>
      let! t' := (if t then Ret true else let! k := shl1 i in Ret (negb (Z.land data k =? 0)%Z)) in
      b_test_loop data t' is'
  end.
(** bitsetx.go 29-35: Test *)
Definition b_test (data : Z) (is : list Z) : res bool := b_test_loop data false is.
(** bitsetx.go 37-39: IsEmpty *)
Definition b_is_empty (data : Z) : bool := (data =? 0)%Z.
(** bitsetx.go 41-43: IsFull *)
Definition b_is_full (data : Z) : bool := (data =? wnot 0)%Z.
(** bitsetx.go 45-47: ClearAll *)
Definition b_clear_all : Z := 0%Z.
(** bitsetx.go 49-51: ToggleAll *)
Definition b_toggle_all (data : Z) : Z := wnot data.
(** bitsetx.go 53-55: SetAll *)
Definition b_set_all : Z := wnot 0.

(** the methods, bitsetx.go 11-55, as one step function *)
Definition b_step (data : Z) (o : bop) : res (Z * ret unit) :=
  match o with
  | BSet is => let! d := b_set data is in Ret (d, RUnit)
  | BClear is => let! d := b_clear data is in Ret (d, RUnit)
  | BToggle is => let! d := b_toggle data is in Ret (d, RUnit)
  | BTest is => let! b := b_test data is in Ret (data, RBool b)
  | BIsEmpty => Ret (data, RBool (b_is_empty data))
  | BIsFull => Ret (data, RBool (b_is_full data))
  | BClearAll => Ret (b_clear_all, RUnit)
  | BToggleAll => Ret (b_toggle_all data, RUnit)
  | BSetAll => Ret (b_set_all, RUnit)
  end.
End Model.
