(** Model of timex/intersectionx/intersectionx.go. *)
From Coq Require Import Sorting.Sorted.
From Verif Require Import Base InterSpec.
Local Open Scope Z.

(** iTuple: (Offset, Type), intersectionx.go 8-11 *)
Definition tuple : Type := Z * Z.
(** the order of iSlice.Less, 19-21 *)
Definition tle (a b : tuple) : Prop := a.1 <= b.1.
(** sort.Sort (not stable): any permutation that is in order; intersectionx.go 101 *)
Definition sorts (l l' : list tuple) : Prop := l' ≡ₚ l /\ StronglySorted tle l'.

(** 40-50: the first inner loop, and 54-64 the second one, over the reversed slice;
    a loop that is not left by its break leaves lower (upper) as it was *)
Fixpoint scan_lower (k : Z) (s : list tuple) (en mid lower : Z) : Z * Z :=
  match s with
  | [] => (lower, mid)
  | (o, ty) :: s =>
      let en := en - ty in
      if k <=? en then (o, mid) else scan_lower k s en (if ty =? 0 then mid + 1 else mid) lower
  end.
(** intersectionx.go 54-64: the second loop *)
Fixpoint scan_upper (k : Z) (s : list tuple) (en mid upper : Z) : Z * Z :=
  match s with
  | [] => (upper, mid)
  | (o, ty) :: s =>
      let en := en + ty in
      if k <=? en then (o, mid) else scan_upper k s en (if ty =? 0 then mid + 1 else mid) upper
  end.
(** 37-74: the outer loop; [fuel] is M/2 - F *)
Fixpoint inter_loop (fuel : nat) (s : list tuple) (m f lower upper : Z) : Z * Z * bool :=
  match fuel with
  | O => (lower, upper, false)
  | S fuel =>
      let '(lower, mid) := scan_lower (m - f) s 0 0 lower in
      let '(upper, mid) := scan_upper (m - f) (reverse s) 0 mid upper in
      if (lower <=? upper) && (mid <=? f) then (lower, upper, true)
      else inter_loop fuel s m (f + 1) lower upper
  end.
(** 33-78: intersection *)
Definition intersection (s : list tuple) : Z * Z * bool :=
  let m := Z.of_nat (length s) / 3 in
  inter_loop (Z.to_nat (m / 2)) s m 0 0 0.
(** 94-99: the three tuples of an interval *)
Definition tuples (i : interval) : list tuple :=
  [(i64 (iv_off i - iv_band i), -1); (iv_off i, 0); (i64 (iv_off i + iv_band i), 1)].
(** 85-103: Intersection, for a result [s] of the sort; the first two results are
    named (upper, lower) in its signature but are (lower, upper) *)
Inductive inter (l : list interval) : Z * Z * bool -> Prop :=
| inter_one i : l = [i] -> inter l (i64 (iv_off i - iv_band i), i64 (iv_off i + iv_band i), true)
| inter_many s : length l <> 1%nat -> sorts (concat (map tuples l)) s -> inter l (intersection s).

(** the insertion sort that sort.Sort uses for at most 12 elements: it is stable *)
Fixpoint insert_tuple (x : tuple) (l : list tuple) : list tuple :=
  match l with
  | [] => [x]
  | y :: l' => if x.1 <? y.1 then x :: y :: l' else y :: insert_tuple x l'
  end.
(** intersectionx.go 101: what sort.Sort does to slices of at most 12 elements *)
Definition insertion_sort (l : list tuple) : list tuple := foldl (fun acc x => insert_tuple x acc) [] l.
