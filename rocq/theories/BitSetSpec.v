(** What dsx/setx/bitsetx should be: the set of the members of {0,...,w-1}, as
    the list of the [w] membership bits.  Indices >= w are ignored (updating a
    list out of its range does nothing); a negative index panics. *)
From Verif Require Import Base SeqSpec.

Inductive bop := BSet (is : list Z) | BClear (is : list Z) | BToggle (is : list Z) | BTest (is : list Z)
               | BIsEmpty | BIsFull | BClearAll | BToggleAll | BSetAll.

Definition upd (f : bool -> bool) (l : list bool) (i : Z) : list bool := alter f (Z.to_nat i) l.
Definition member (l : list bool) (i : Z) : bool := default false (l !! Z.to_nat i).
(** is one of them a member?  A negative index after a member is not looked at. *)
Fixpoint test_spec (l : list bool) (is : list Z) : res bool :=
  match is with
  | [] => Ret false
  | i :: is' => if (i <? 0)%Z then Panic else if member l i then Ret true else test_spec l is'
  end.
Definition bitset_spec (l : list bool) (o : bop) : res (list bool * ret unit) :=
  match o with
  | BSet is => if existsb (fun i => i <? 0)%Z is then Panic else Ret (fold_left (upd (fun _ => true)) is l, RUnit)
  | BClear is => if existsb (fun i => i <? 0)%Z is then Panic else Ret (fold_left (upd (fun _ => false)) is l, RUnit)
  | BToggle is => if existsb (fun i => i <? 0)%Z is then Panic else Ret (fold_left (upd negb) is l, RUnit)
  | BTest is => let! b := test_spec l is in Ret (l, RBool b)
  | BIsEmpty => Ret (l, RBool (forallb negb l))
  | BIsFull => Ret (l, RBool (forallb id l))
  | BClearAll => Ret (map (fun _ => false) l, RUnit)
  | BToggleAll => Ret (map negb l, RUnit)
  | BSetAll => Ret (map (fun _ => true) l, RUnit)
  end.
