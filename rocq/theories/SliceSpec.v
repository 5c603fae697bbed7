(** What the methods of slicex.Slice are meant to do to the list of elements
    (dsx/slicex/slicex.go).  Everything here is about plain lists. *)
From Verif Require Import Base SeqSpec.

(** an int clamped into [0, len] *)
Definition clampn {A} (l : list A) (i : Z) : nat := Z.to_nat (Z.max 0 (Z.min i (zlen l))).
(** an int clamped to a valid position of a non-empty list *)
Definition clamppos {A} (l : list A) (i : Z) : nat := Z.to_nat (Z.max 0 (Z.min i (zlen l - 1))).

(** replace the range between two clamped positions, in either order, by [v] *)
Definition splice {A} (l : list A) (i j : Z) (v : list A) : list A :=
  let a := clampn l i in let b := clampn l j in
  take (Nat.min a b) l ++ v ++ drop (Nat.max a b) l.

(** remove the element at position i, if there is one *)
Definition delete_at {A} (l : list A) (i : Z) : list A :=
  if in_range i 0 (zlen l) then take (Z.to_nat i) l ++ drop (S (Z.to_nat i)) l else l.

(** keep the positions between two clamped ends; a negative [j] counts from the end *)
Definition subrange {A} (l : list A) (i j : Z) : list A :=
  let a := clampn l i in
  let b := clampn l (if (j <? 0)%Z then zlen l + j else j)%Z in
  take (Nat.max a b - Nat.min a b) (drop (Nat.min a b) l).

(** rotation: the element at p goes to (p - n) mod len *)
Definition rotated {A} (n : Z) (l l' : list A) : Prop :=
  length l' = length l /\
  forall p, p < length l -> l' !! Z.to_nat ((Z.of_nat p - n) mod zlen l) = l !! p.

(** the elements kept by a callback with its own state, which is called on the
    elements in order *)
Fixpoint keep {A B} (f : B -> A -> B * bool) (b : B) (l : list A) : B * list A :=
  match l with
  | [] => (b, [])
  | x :: l' => let '(b1, k) := f b x in
               let '(b2, r) := keep f b1 l' in (b2, if k then x :: r else r)
  end.

(** a callback that records on what it was called *)
Definition logged {A} (p : A -> bool) : list A -> A -> list A * bool := fun log x => (log ++ [x], p x).

(** rendering with separators *)
Definition joined {C} (sep : list C) (parts : list (list C)) : list C :=
  match parts with
  | [] => []
  | x :: r => x ++ concat (map (fun y => sep ++ y) r)
  end.

(** swapping two positions *)
Definition lswap {A} (l : list A) (i j : nat) : list A :=
  match l !! i, l !! j with
  | Some a, Some b => <[j := a]> (<[i := b]> l)
  | _, _ => l
  end.
(** the Fisher-Yates shuffle with choices [js] *)
Fixpoint fisher_yates {A} (js : nat -> nat) (i : nat) (l : list A) : list A :=
  match i with
  | O => l
  | S i' => fisher_yates js i' (lswap l i (js i mod S i))
  end.

(** cutting a list into pieces of given sizes, and what is left *)
Fixpoint split_list {A} (l : list A) (sizes : list nat) : list (list A) :=
  match sizes with
  | [] => match l with [] => [] | _ => [l] end
  | n :: r => take n l :: split_list (drop n l) r
  end.

(** *** Histories of method calls *)
Inductive xop (A : Type) :=
| XExtend (n : Z) | XClear | XSet (i : Z) (x : A) | XGet (i : Z) | XSlice (i j : Z)
| XSplice (i j : Z) (vs : list A) | XExpand (i : Z) (vs : list A) | XInsert (i : Z) (x : A) | XCut (i j : Z)
| XDelete (i : Z) | XPush (x : A) | XPop | XUnShift (x : A) | XShift | XDeleteReplace (i : Z)
| XReverse | XRotate (n : Z) | XShuffle (js : nat -> nat) | XFilter (p : A -> bool) | XRepeat (n : Z) | XLen.
Arguments XExtend {A} n.
Arguments XClear {A}.
Arguments XSet {A} i x.
Arguments XGet {A} i.
Arguments XSlice {A} i j.
Arguments XSplice {A} i j vs.
Arguments XExpand {A} i vs.
Arguments XInsert {A} i x.
Arguments XCut {A} i j.
Arguments XDelete {A} i.
Arguments XPush {A} x.
Arguments XPop {A}.
Arguments XUnShift {A} x.
Arguments XShift {A}.
Arguments XDeleteReplace {A} i.
Arguments XReverse {A}.
Arguments XRotate {A} n.
Arguments XShuffle {A} js.
Arguments XFilter {A} p.
Arguments XRepeat {A} n.
Arguments XLen {A}.

(** rotation as a function *)
Definition rotate_list {A} (n : Z) (l : list A) : list A :=
  let k := Z.to_nat (n mod zlen l) in drop k l ++ take k l.

(** What each call does to the list of elements, panics included.  [maxlen] is
    the longest slice [make] can allocate.  Three corner cases are those of the
    code, not of the ideal method: Delete(MaxInt64) empties the slice,
    Rotate(MinInt64) panics unless Len divides 2^63, and Repeat computes its
    capacity Len*n with wrap-around. *)
Definition slice_spec {A} (zero : A) (maxlen : Z) (l : list A) (o : xop A) : res (list A * ret A) :=
  match o with
  | XExtend n => if (maxlen <? n)%Z then Panic else Ret (l ++ replicate (Z.to_nat n) zero, RUnit)
  | XClear => Ret ([], RUnit)
  | XSet i x => Ret (<[clamppos l i := x]> l, RUnit)
  | XGet i => Ret (l, RVal (Some (default zero (l !! clamppos l i))))
  | XSlice i j => Ret (subrange l i j, RUnit)
  | XSplice i j vs => Ret (splice l i j vs, RUnit)
  | XExpand i vs => Ret (splice l i i vs, RUnit)
  | XInsert i x => Ret (splice l i i [x], RUnit)
  | XCut i j => Ret (splice l i j [], RUnit)
  | XDelete i => Ret (if (i =? max_i64)%Z then [] else delete_at l i, RUnit)
  | XPush x => Ret (l ++ [x], RUnit)
  | XPop => Ret (take (length l - 1) l, RVal (Some (default zero (last l))))
  | XUnShift x => Ret (x :: l, RUnit)
  | XShift => Ret (tail l, RVal (Some (default zero (head l))))
  | XDeleteReplace i =>
      if (i <? zlen l)%Z && (0 <? zlen l)%Z
      then Ret (take (length l - 1) (<[Z.to_nat i := default zero (last l)]> l), RUnit) else Panic
  | XReverse => Ret (reverse l, RUnit)
  | XRotate n =>
      if (n =? min_i64)%Z && negb (zlen l =? 0)%Z
      then if (2^63 mod zlen l =? 0)%Z then Ret (l, RUnit) else Panic
      else Ret (rotate_list n l, RUnit)
  | XShuffle js => Ret (fisher_yates js (length l - 1) l, RUnit)
  | XFilter p => Ret (filter (fun x => p x = true) l, RUnit)
  | XRepeat n =>
      if ((i64 (zlen l * n) <? 0) || (maxlen <? i64 (zlen l * n)))%Z then Panic
      else Ret (concat (replicate (Z.to_nat n) l), RUnit)
  | XLen => Ret (l, RInt (zlen l))
  end.

(** the int arguments of a call are Go ints *)
Definition xop_ints {A} (o : xop A) : Prop :=
  match o with
  | XExtend i | XGet i | XSet i _ | XExpand i _ | XInsert i _ | XDelete i | XDeleteReplace i | XRotate i | XRepeat i => is_i64 i
  | XSlice i j | XSplice i j _ | XCut i j => is_i64 i /\ is_i64 j
  | _ => True
  end.

(** two independent lists, each call addressed to one of them *)
Definition two_spec {A} (zero : A) (maxlen : Z) (p : list A * list A) (o : bool * xop A)
  : res ((list A * list A) * ret A) :=
  if o.1 then let! (l, r) := slice_spec zero maxlen p.1 o.2 in Ret ((l, p.2), r)
  else let! (l, r) := slice_spec zero maxlen p.2 o.2 in Ret ((p.1, l), r).
