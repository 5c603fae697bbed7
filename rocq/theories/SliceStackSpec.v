(** Ideal objects for dsx/slicex/stackx and dsx/slicex/listx. *)
From Verif Require Import Base SeqSpec.

(** calls of a slicex stack: those of every Stack, and IsEmpty *)
Inductive kop (A : Type) := KOp (o : sop A) | KIsEmpty.
Arguments KOp {A} o.
Arguments KIsEmpty {A}.

(** ideal stack with IsEmpty *)
Definition kstack_step {A} (l : list A) (o : kop A) : list A * ret A :=
  match o with
  | KOp o => lifo_step l o
  | KIsEmpty => (l, RBool (match l with [] => true | _ => false end))
  end.
(** ideal sequence whose Insert panics outside [0, length] *)
Definition vlist_step {A} (l : list A) (o : lop A) : res (list A * ret A) :=
  match o with
  | Insert i _ => if in_range i 0 (zlen l + 1) then Ret (seq_step l o) else Panic
  | _ => Ret (seq_step l o)
  end.

(** arguments are Go ints *)
Definition lop_ints {A} (o : lop A) : Prop :=
  match o with Insert i _ | Remove i | At i => is_i64 i | _ => True end.
