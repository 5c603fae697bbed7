(** golang.org/x/exp/slices.SortFunc and SortStableFunc (algox/sortx/sortx.go:44-50) with a
    comparison that is any function of the program: it may answer as it likes from call to
    call, panic, or not return.  The slice is changed in place, so that it is there when the
    comparison panics; the calls are counted.  The programs are those of PdqModel.v, line by
    line; C165 proves that with a comparison that only compares they do the same. *)
From Verif Require Import Base PdqModel.

(** what became of a call, how many comparisons were made so far, and the slice;
    how a piece of the code under sortx.go 45, 49 ends *)
Inductive eout (A X : Type) := EVal (x : X) (c : nat) (s : list A) | EPanic (c : nat) (s : list A) | ESpin (c : nat) (s : list A).
Arguments EVal {A X}. Arguments EPanic {A X}. Arguments ESpin {A X}.
(** a piece of the code under sortx.go 45, 49: from the calls so far and the slice to how it ends *)
Definition M (A X : Type) : Type := nat -> list A -> eout A X.
(** no code: ends with a value (sortx.go 45, 49) *)
Definition mret {A X} (x : X) : M A X := fun c s => EVal x c s.
(** one piece after the other (sortx.go 45, 49) *)
Definition mbind {A X Y} (m : M A X) (k : X -> M A Y) : M A Y := fun c s =>
  match m c s with EVal x c s => k x c s | EPanic c s => EPanic c s | ESpin c s => ESpin c s end.
Notation "'let%' x ':=' r 'in' k" := (mbind r (fun x => k)) (at level 200, x pattern, right associativity).

Section Eff.
Context {A : Type}.
(** call number c of the comparison *)
Context (less : nat -> A -> A -> res bool).
Implicit Types (a b i j : nat).

(** a loop that does not end (sortx.go 45, 49) *)
Definition spin {X} : M A X := fun c s => ESpin c s.
(** len(data) sortx.go 45, 49: zsortanyfunc.go: len(data) *)
Definition slen : M A nat := fun c s => EVal (length s) c s.
(** sortx.go 45, 49: zsortanyfunc.go *)
Definition sget i : M A A := fun c s => match s !! i with Some x => EVal x c s | None => EPanic c s end.
(** sortx.go 45, 49: zsortanyfunc.go: data[i] = x *)
Definition sset i (x : A) : M A unit := fun c s => EVal () c (<[i := x]> s).
(** sortx.go 45, 49: zsortanyfunc.go: the exchange *)
Definition sswap i j : M A unit := let% x := sget i in let% y := sget j in let% _ := sset i y in sset j x.
(** sortx.go 45, 49: zsortanyfunc.go *)
Definition sless i j : M A bool :=
  let% x := sget i in let% y := sget j in
  fun c s => match less c x y with Ret v => EVal v (S c) s | Panic => EPanic (S c) s | Spin => ESpin (S c) s end.

(** insertionSortLessFunc; sortx.go 45, 49: insertionSortLessFunc *)
Fixpoint ins_inner a j : M A unit :=
  match j with
  | O => mret ()
  | S j' =>
      if a <? j then
        let% c := sless j j' in
        if c : bool then let% _ := sswap j j' in ins_inner a j' else mret ()
      else mret ()
  end.
(** sortx.go 45, 49: insertionSortLessFunc *)
Fixpoint ins_outer n a i : M A unit :=
  match n with
  | O => mret ()
  | S n => let% _ := ins_inner a i in ins_outer n a (S i)
  end.
(** sortx.go 45, 49: insertionSortLessFunc *)
Definition insertion a b : M A unit := ins_outer (b - S a) a (S a).

(** siftDownLessFunc, heapSortLessFunc; sortx.go 45: siftDownLessFunc *)
Fixpoint sift (fuel : nat) (root hi first : nat) : M A unit :=
  match fuel with
  | O => spin
  | S fuel =>
      let child := 2 * root + 1 in
      if hi <=? child then mret () else
      let% child := (if child + 1 <? hi then
                       let% c := sless (first + child) (first + child + 1) in
                       mret (if c : bool then child + 1 else child)
                     else mret child) in
      let% c := sless (first + root) (first + child) in
      if negb c then mret () else
      let% _ := sswap (first + root) (first + child) in
      sift fuel child hi first
  end.
(** sortx.go 45: siftDownLessFunc *)
Definition sift_down lo hi first : M A unit := sift (S hi) lo hi first.
(** sortx.go 45: heapSortLessFunc *)
Fixpoint heap_build n hi first : M A unit :=
  match n with
  | O => mret ()
  | S i => let% _ := sift_down i hi first in heap_build i hi first
  end.
(** sortx.go 45: heapSortLessFunc *)
Fixpoint heap_pop n first : M A unit :=
  match n with
  | O => mret ()
  | S i => let% _ := sswap first (first + i) in
           let% _ := sift_down 0 i first in heap_pop i first
  end.
(** sortx.go 45: heapSortLessFunc *)
Definition heap_sort a b : M A unit :=
  let hi := b - a in
  let% _ := heap_build (S ((hi - 1) / 2)) hi a in
  heap_pop hi a.

(** partitionLessFunc, partitionEqualLessFunc;
    sortx.go 45: partitionLessFunc, partitionEqualLessFunc *)
Fixpoint up_while (fuel : nat) (neg flip : bool) a i j : M A nat :=
  match fuel with
  | O => spin
  | S fuel =>
      if i <=? j then
        let% c := if flip then sless a i else sless i a in
        if xorb neg c then up_while fuel neg flip a (S i) j else mret i
      else mret i
  end.
(** sortx.go 45: partitionLessFunc, partitionEqualLessFunc *)
Fixpoint down_while (fuel : nat) (neg flip : bool) a i j : M A nat :=
  match fuel with
  | O => spin
  | S fuel =>
      if i <=? j then
        let% c := if flip then sless a j else sless j a in
        if xorb neg c then down_while fuel neg flip a i (j - 1) else mret j
      else mret j
  end.
(** sortx.go 45: partitionLessFunc *)
Fixpoint part_loop (fuel : nat) a i j : M A nat :=
  match fuel with
  | O => spin
  | S fuel =>
      let% n := slen in
      let% i := up_while (S (S n)) false false a i j in
      let% j := down_while (S (S n)) true false a i j in
      if j <? i then mret j else
      let% _ := sswap i j in
      part_loop fuel a (S i) (j - 1)
  end.
(** sortx.go 45: partitionLessFunc *)
Definition partition a b pivot : M A (nat * bool) :=
  let% n := slen in
  let% _ := sswap a pivot in
  let% i := up_while (S (S n)) false false a (S a) (b - 1) in
  let% j := down_while (S (S n)) true false a i (b - 1) in
  if j <? i then let% _ := sswap j a in mret (j, true) else
  let% _ := sswap i j in
  let% j := part_loop (S n) a (S i) (j - 1) in
  let% _ := sswap j a in
  mret (j, false).
(** sortx.go 45: partitionEqualLessFunc *)
Fixpoint part_eq_loop (fuel : nat) a i j : M A nat :=
  match fuel with
  | O => spin
  | S fuel =>
      let% n := slen in
      let% i := up_while (S (S n)) true true a i j in
      let% j := down_while (S (S n)) false true a i j in
      if j <? i then mret i else
      let% _ := sswap i j in
      part_eq_loop fuel a (S i) (j - 1)
  end.
(** sortx.go 45: partitionEqualLessFunc *)
Definition partition_equal a b pivot : M A nat :=
  let% n := slen in
  let% _ := sswap a pivot in
  part_eq_loop (S n) a (S a) (b - 1).

(** partialInsertionSortLessFunc; sortx.go 45: partialInsertionSortLessFunc *)
Fixpoint skip_sorted (fuel : nat) i b : M A nat :=
  match fuel with
  | O => spin
  | S fuel =>
      if i <? b then
        let% c := sless i (i - 1) in
        if c : bool then mret i else skip_sorted fuel (S i) b
      else mret i
  end.
(** sortx.go 45: partialInsertionSortLessFunc *)
Fixpoint shift_left j : M A unit :=
  match j with
  | O => mret ()
  | S j' =>
      let% c := sless j j' in
      if negb c then mret () else
      let% _ := sswap j j' in shift_left j'
  end.
(** sortx.go 45: partialInsertionSortLessFunc *)
Fixpoint shift_right n j : M A unit :=
  match n with
  | O => mret ()
  | S n =>
      let% c := sless j (j - 1) in
      if negb c then mret () else
      let% _ := sswap j (j - 1) in shift_right n (S j)
  end.
(** sortx.go 45: partialInsertionSortLessFunc *)
Fixpoint partial_loop (steps : nat) a i b : M A bool :=
  match steps with
  | O => mret false
  | S steps =>
      let% n := slen in
      let% i := skip_sorted (S (S n)) i b in
      if i =? b then mret true else
      if b - a <? 50 then mret false else
      let% _ := sswap i (i - 1) in
      let% _ := if 2 <=? i - a then shift_left (i - 1) else mret () in
      let% _ := if 2 <=? b - i then shift_right (b - S i) (S i) else mret () in
      partial_loop steps a i b
  end.
(** sortx.go 45: partialInsertionSortLessFunc *)
Definition partial_insertion a b : M A bool := partial_loop 5 a (S a) b.

(** breakPatternsLessFunc *)
Context (next : Z -> Z).
(** sortx.go 45: breakPatternsLessFunc *)
Fixpoint break_loop (n : nat) (random : Z) a (len idx : nat) : M A unit :=
  match n with
  | O => mret ()
  | S n =>
      let random := u64 (next random) in
      let other := Z.to_nat (Z.land random (next_power_of_two len - 1)) in
      let other := if len <=? other then other - len else other in
      let% _ := sswap idx (a + other) in
      break_loop n random a len (S idx)
  end.
(** sortx.go 45: breakPatternsLessFunc *)
Definition break_patterns a b : M A unit :=
  let len := b - a in
  if 8 <=? len then break_loop 3 (Z.of_nat len) a len (a + len / 4 * 2 - 1 - 1) else mret ().

(** order2LessFunc, medianLessFunc, medianAdjacentLessFunc, choosePivotLessFunc;
    sortx.go 45: order2LessFunc *)
Definition order2 a b (swaps : nat) : M A (nat * nat * nat) :=
  let% c := sless b a in mret (if c : bool then (b, a, S swaps) else (a, b, swaps)).
(** sortx.go 45: medianLessFunc *)
Definition median a b c (swaps : nat) : M A (nat * nat) :=
  let% (a, b, swaps) := order2 a b swaps in
  let% (b, c, swaps) := order2 b c swaps in
  let% (a, b, swaps) := order2 a b swaps in
  mret (b, swaps).
(** sortx.go 45: medianAdjacentLessFunc *)
Definition median_adjacent a (swaps : nat) : M A (nat * nat) := median (a - 1) a (a + 1) swaps.
(** sortx.go 45: choosePivotLessFunc *)
Definition choose_pivot a b : M A (nat * hint) :=
  let l := b - a in
  let i := a + l / 4 * 1 in
  let j := a + l / 4 * 2 in
  let k := a + l / 4 * 3 in
  let% (j, swaps) :=
    (if 8 <=? l then
       let% (i, j, k, swaps) :=
         (if 50 <=? l then
            let% (i, swaps) := median_adjacent i 0 in
            let% (j, swaps) := median_adjacent j swaps in
            let% (k, swaps) := median_adjacent k swaps in
            mret (i, j, k, swaps)
          else mret (i, j, k, 0)) in
       median i j k swaps
     else mret (j, 0)) in
  mret (j, match swaps with 0 => Increasing | 12 => Decreasing | _ => Unknown end).
(** reverseRangeLessFunc; sortx.go 45: reverseRangeLessFunc *)
Fixpoint reverse_range (fuel : nat) i j : M A unit :=
  match fuel with
  | O => spin
  | S fuel => if i <? j then let% _ := sswap i j in reverse_range fuel (S i) (j - 1) else mret ()
  end.

(** pdqsortLessFunc, SortFunc; sortx.go 45: pdqsortLessFunc *)
Fixpoint pdq_loop (fuel : nat) a b (limit : nat) (balanced partitioned : bool) : M A unit :=
  match fuel with
  | O => spin
  | S fuel =>
      let len := b - a in
      if len <=? 12 then insertion a b else
      if limit =? 0 then heap_sort a b else
      let% _ := if negb balanced then break_patterns a b else mret () in
      let limit := if negb balanced then limit - 1 else limit in
      let% (pivot, h) := choose_pivot a b in
      let% (pivot, h) :=
        (match h with
         | Decreasing => let% n := slen in let% _ := reverse_range (S n) a (b - 1) in
                         mret ((b - 1) - (pivot - a), Increasing)
         | _ => mret (pivot, h)
         end) in
      let% done :=
        (if balanced && partitioned && match h with Increasing => true | _ => false end
         then partial_insertion a b else mret false) in
      if done : bool then mret () else
      let% dup := if 0 <? a then let% c := sless (a - 1) pivot in mret (negb c) else mret false in
      if dup : bool then
        let% mid := partition_equal a b pivot in
        pdq_loop fuel mid b limit balanced partitioned
      else
      let% (mid, already) := partition a b pivot in
      let left := mid - a in
      let right := b - mid in
      if left <? right then
        let% _ := pdq_loop fuel a mid limit true true in
        pdq_loop fuel (S mid) b limit (len / 8 <=? left) already
      else
        let% _ := pdq_loop fuel (S mid) b limit true true in
        pdq_loop fuel a mid limit (len / 8 <=? right) already
  end.
(** sortx.go 45: SortFunc *)
Definition sort_func : M A unit := let% n := slen in pdq_loop (S n) 0 n (bits_len n) true true.

(** swapRangeLessFunc, rotateLessFunc; sortx.go 49: swapRangeLessFunc *)
Fixpoint swap_range n a b : M A unit :=
  match n with
  | O => mret ()
  | S n => let% _ := sswap a b in swap_range n (S a) (S b)
  end.
(** sortx.go 49: rotateLessFunc *)
Fixpoint rotate_loop (fuel : nat) m i j : M A unit :=
  match fuel with
  | O => spin
  | S fuel =>
      if i =? j then swap_range i (m - i) m else
      if j <? i then let% _ := swap_range j (m - i) m in rotate_loop fuel m (i - j) j
      else let% _ := swap_range i (m - i) (m + j - i) in rotate_loop fuel m i (j - i)
  end.
(** sortx.go 49: rotateLessFunc *)
Definition rotate a m b : M A unit := rotate_loop (S (b - a)) m (m - a) (b - m).
(** symMergeLessFunc; sortx.go 49: symMergeLessFunc *)
Fixpoint bsearch (fuel : nat) (f : nat -> M A bool) i j : M A nat :=
  match fuel with
  | O => spin
  | S fuel =>
      if i <? j then
        let h := (i + j) / 2 in
        let% c := f h in
        if c : bool then bsearch fuel f (S h) j else bsearch fuel f i h
      else mret i
  end.
(** sortx.go 49: symMergeLessFunc *)
Fixpoint carry_up n k : M A unit :=
  match n with
  | O => mret ()
  | S n => let% _ := sswap k (S k) in carry_up n (S k)
  end.
(** sortx.go 49: symMergeLessFunc *)
Fixpoint carry_down n k : M A unit :=
  match n with
  | O => mret ()
  | S n => let% _ := sswap k (k - 1) in carry_down n (k - 1)
  end.
(** sortx.go 49: symMergeLessFunc *)
Fixpoint sym_merge (fuel : nat) a m b : M A unit :=
  match fuel with
  | O => spin
  | S fuel =>
      let% l := slen in
      if m - a =? 1 then
        let% i := bsearch (S l) (fun h => sless h a) m b in
        carry_up (i - 1 - a) a
      else if b - m =? 1 then
        let% i := bsearch (S l) (fun h => let% c := sless m h in mret (negb c)) a m in
        carry_down (m - i) m
      else
      let mid := (a + b) / 2 in
      let n := mid + m in
      let '(start, r) := if mid <? m then (n - b, mid) else (a, m) in
      let p := n - 1 in
      let% start := bsearch (S l) (fun c => let% x := sless (p - c) c in mret (negb x)) start r in
      let en := n - start in
      let% _ := if (start <? m) && (m <? en) then rotate start m en else mret () in
      let% _ := if (a <? start) && (start <? mid) then sym_merge fuel a start mid else mret () in
      if (mid <? en) && (en <? b) then sym_merge fuel mid en b else mret ()
  end.
(** stableLessFunc, SortStableFunc; sortx.go 49: stableLessFunc *)
Fixpoint stable_blocks (fuel : nat) a n : M A unit :=
  match fuel with
  | O => spin
  | S fuel =>
      if a + 20 <=? n then let% _ := insertion a (a + 20) in stable_blocks fuel (a + 20) n
      else insertion a n
  end.
(** sortx.go 49: stableLessFunc *)
Fixpoint merge_round (fuel : nat) a (size n : nat) : M A unit :=
  match fuel with
  | O => spin
  | S fuel =>
      let% l := slen in
      if a + 2 * size <=? n then
        let% _ := sym_merge (S l) a (a + size) (a + 2 * size) in
        merge_round fuel (a + 2 * size) size n
      else if a + size <? n then sym_merge (S l) a (a + size) n else mret ()
  end.
(** sortx.go 49: stableLessFunc *)
Fixpoint merge_rounds (fuel : nat) (size n : nat) : M A unit :=
  match fuel with
  | O => spin
  | S fuel =>
      if size <? n then let% _ := merge_round (S n) 0 size n in merge_rounds fuel (2 * size) n
      else mret ()
  end.
(** sortx.go 49: SortStableFunc *)
Definition sort_stable_func : M A unit :=
  let% n := slen in
  let% _ := stable_blocks (S n) 0 n in
  merge_rounds (S n) 20 n.
End Eff.
