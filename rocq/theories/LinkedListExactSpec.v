(** What dsx/linkedx/listx really does, on every history.  The state is the sequence of
    elements that At and Iterate see, the counter that Len returns, and where the node
    is that the list takes for its last one. *)
From Verif Require Import Base SeqSpec.

Inductive tailpos :=
| TNil            (* there is none yet *)
| TAt (k : nat)   (* it holds element number k *)
| TPool           (* it has been removed, and waits to be used again *)
| TGone.          (* it is not part of the list any more, and cannot come back *)
Record lstate (A : Type) := LState { e_seq : list A; e_tail : tailpos; e_len : Z }.
Arguments LState {A} _ _ _.
Arguments e_seq {A} _.
Arguments e_tail {A} _.
Arguments e_len {A} _.

Section spec.
Context {A : Type}.
Implicit Types (xs : list A) (tl : tailpos).
Definition exact_init : lstate A := LState [] TNil 0.
(** a new last element: everything behind the supposed last one is lost; if that one is
    not in the list, the new one is lost *)
Definition hang xs tl (x : A) : list A * tailpos :=
  match tl with
  | TNil => ([x], TAt 0)
  | TAt k => (take (S k) xs ++ [x], TAt (S k))
  | TPool | TGone => (xs, TGone)
  end.
(** a new element number i; [r]: its node is the removed last node, used again *)
Definition shift_in (i : nat) (r : bool) tl : tailpos :=
  match tl with
  | TAt k => TAt (if i <=? k then S k else k)
  | TPool => if r then TAt i else TPool
  | _ => tl
  end.
Definition shift_out (i : nat) tl : tailpos :=
  match tl with TAt k => if k =? i then TPool else TAt (if i <? k then k - 1 else k) | _ => tl end.
(** a node that is taken and not used *)
Definition waste (r : bool) tl : tailpos := match tl with TPool => if r then TGone else TPool | _ => tl end.

Definition exact_step (s : lstate A) (o : bool * lop A) : res (lstate A * ret A) :=
  let xs := e_seq s in let tl := e_tail s in let n := e_len s in
  match o.2 with
  | Append x => let '(xs', tl') := hang xs tl x in Ret (LState xs' tl' (n + 1), RUnit)
  | Insert i x =>
      if (i =? 0)%Z then Ret (LState (x :: xs) (shift_in 0 o.1 tl) (n + 1), RUnit)
      else if (i =? n + 1)%Z then
        match tl with TNil => Panic | _ => let '(xs', tl') := hang xs tl x in Ret (LState xs' tl' (n + 1), RUnit) end
      else if in_range i 1 (zlen xs + 1) then
        Ret (LState (take (Z.to_nat i) xs ++ x :: drop (Z.to_nat i) xs) (shift_in (Z.to_nat i) o.1 tl) (n + 1), RUnit)
      else Ret (LState xs (waste o.1 tl) (n + 1), RUnit)
  | Remove i =>
      if in_range i 0 (zlen xs) then
        Ret (LState (take (Z.to_nat i) xs ++ drop (S (Z.to_nat i)) xs) (shift_out (Z.to_nat i) tl) (n - 1), RVal (xs !! Z.to_nat i))
      else Ret (LState xs tl (n - 1), RVal None)
  | At i => Ret (s, RVal (if in_range i 0 (zlen xs) then xs !! Z.to_nat i else None))
  | Iterate f => Ret (s, RSeen (seen_until_false f xs))
  | LLen => Ret (s, RInt n)
  end.
End spec.
