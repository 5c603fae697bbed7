(** Models of algox/searchx/searchx.go and algox/sortx/sortx.go, with the parts of
    golang.org/x/exp/slices they are made of.  An ordered type is a type with its
    operator [<]; for floats that is not a total order, because of NaN. *)
From Verif Require Import Base.
From Coq Require Import Sorting.Sorted.
Local Open Scope Z.

Section model.
Context {A : Type} (lt : A -> A -> bool).

(** *** searchx *)
(** slices.search: [for i < j { h := int(uint(i+j) >> 1); ... }]; searchx.go 9, 21 *)
Fixpoint search_loop (fuel : nat) (f : Z -> res bool) (i j : Z) : res Z :=
  match fuel with
  | O => Spin
  | S fuel =>
      if i <? j then
        let h := i64 (u64 (i64 (i + j)) / 2) in
        let! b := f h in
        if b then search_loop fuel f i h else search_loop fuel f (i64 (h + 1)) j
      else Ret i
  end.
(** an index expression; out of range panics; searchx.go 9, 21, sortx.go 53 *)
Definition idx (s : list A) (i : Z) : res A :=
  if 0 <=? i then match s !! Z.to_nat i with Some a => Ret a | None => Panic end else Panic.
(** slices.BinarySearchFunc, called at searchx.go:20-22 *)
Definition search_custom (fuel : nat) (s : list A) (x : A) (cmp : A -> A -> Z) : res (Z * bool) :=
  let n := Z.of_nat (length s) in
  let! pos := search_loop fuel (fun i => let! a := idx s i in Ret (0 <=? cmp a x)) 0 n in
  if n <=? pos then Ret (pos, false) else
  let! a := idx s pos in
  Ret (pos, cmp a x =? 0).
(** searchx.go:9-17 *)
Definition search_cmp (i j : A) : Z := if lt i j then -1 else if lt j i then 1 else 0.
(** searchx.go 8-18: Search *)
Definition search (fuel : nat) (s : list A) (x : A) : res (Z * bool) := search_custom fuel s x search_cmp.

(** *** sortx *)
(** slices.IsSortedFunc, called at sortx.go:52-54: from the end *)
Fixpoint is_sorted_loop (less : A -> A -> bool) (s : list A) (n : nat) : res bool :=
  match n with
  | O => Ret true
  | S n' => (* i = S n' *)
      let! a := idx s (Z.of_nat n) in
      let! b := idx s (Z.of_nat n') in
      if less a b then Ret false else is_sorted_loop less s n'
  end.
(** sortx.go 52-54: IsSortedCustom *)
Definition is_sorted_custom (s : list A) (less : A -> A -> bool) : res bool := is_sorted_loop less s (length s - 1).
(** sortx.go:32-42 *)
Definition is_sorted (s : list A) : res bool := is_sorted_custom s (fun i j => lt i j).
(** sortx.go 38-42: IsSortedReverse *)
Definition is_sorted_reverse (s : list A) : res bool := is_sorted_custom s (fun i j => lt j i).

(** what slices.SortFunc and slices.SortStableFunc promise, if [less] is a strict weak
    order: the contract of the library, taken as given.  Nothing is promised otherwise,
    but that the elements are permuted. sortx.go 44-50 *)
Record strict_weak (less : A -> A -> bool) : Prop := {
  sw_irrefl : forall a, less a a = false;
  sw_trans : forall a b c, less a b = true -> less b c = true -> less a c = true;
  sw_incomp : forall a b c, less a b = false -> less b c = false -> less a c = false }.
(** not code: neither is less, for sortx.go 48-50 *)
Definition equivalent (less : A -> A -> bool) (a b : A) : bool := negb (less a b) && negb (less b a).
(** sortx.go 44-46: SortCustom *)
Definition sort_custom (s : list A) (less : A -> A -> bool) (s' : list A) : Prop :=
  s' ≡ₚ s /\ (strict_weak less -> StronglySorted (fun a b => less b a = false) s').
(** sortx.go 48-50: SortStableCustom *)
Definition sort_stable_custom (s : list A) (less : A -> A -> bool) (s' : list A) : Prop :=
  sort_custom s less s' /\ (strict_weak less -> forall a, List.filter (equivalent less a) s' = List.filter (equivalent less a) s).
(** sortx.go:8-12: [reverse] is not used *)
Definition sort (s : list A) (reverse : bool) (s' : list A) : Prop := sort_custom s (fun i j => lt i j) s'.
(** 14-30 *)
Definition sort_reverse (s s' : list A) : Prop := sort_custom s (fun i j => lt j i) s'.
(** sortx.go 20-24: SortStable *)
Definition sort_stable (s s' : list A) : Prop := sort_stable_custom s (fun i j => lt i j) s'.
(** sortx.go 26-30: SortStableReverse *)
Definition sort_stable_reverse (s s' : list A) : Prop := sort_stable_custom s (fun i j => lt j i) s'.
End model.

(** *** a sorting procedure that keeps the contract: insertion sort *)
Section insertion.
Context {A : Type} (less : A -> A -> bool).
(** not code: a sort to show that sortx.go 44-50 can be met *)
Fixpoint insert1 (a : A) (l : list A) : list A :=
  match l with [] => [a] | b :: l' => if less b a then b :: insert1 a l' else a :: l end.
(** not code: a sort to show that sortx.go 44-50 can be met *)
Definition isort (l : list A) : list A := foldr insert1 [] l.
End insertion.
