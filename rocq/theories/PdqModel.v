(** golang.org/x/exp/slices.SortFunc and SortStableFunc (called at
    algox/sortx/sortx.go:44-50), and sort.Sort (called at
    timex/intersectionx/intersectionx.go:28 and 101), which is the same program with
    Less(i, j) and Swap(i, j) for less(data[i], data[j]) and the exchange: the
    pattern-defeating quicksort of Go 1.19, function by function.  Indices are
    natural numbers: every one is between 0 and the length, so that no int wraps.
    A data[i] that is out of range panics. *)
From Verif Require Import Base.

Section Pdq.
Context {A : Type} (less : A -> A -> bool).
Implicit Types (s : list A) (a b i j : nat).

(** data[i], and data[i], data[j] = data[j], data[i]; sortx.go 45, 49: zsortanyfunc.go *)
Definition sget s i : res A := deref (s !! i).
(** sortx.go 45, 49: zsortanyfunc.go: the exchange *)
Definition sswap s i j : res (list A) :=
  let! x := sget s i in let! y := sget s j in Ret (<[j := x]> (<[i := y]> s)).
(** less(data[i], data[j]) sortx.go 45, 49: zsortanyfunc.go *)
Definition sless s i j : res bool := let! x := sget s i in let! y := sget s j in Ret (less x y).

(** insertionSortLessFunc: for j := i; j > a && less(data[j], data[j-1]); j--;
    sortx.go 45, 49: insertionSortLessFunc *)
Fixpoint ins_inner s a j : res (list A) :=
  match j with
  | O => Ret s
  | S j' =>
      if a <? j then
        let! c := sless s j j' in
        if c : bool then let! s := sswap s j j' in ins_inner s a j' else Ret s
      else Ret s
  end.
(** for i := a + 1; i < b; i++; [n] is b - i; sortx.go 45, 49: insertionSortLessFunc *)
Fixpoint ins_outer n s a i : res (list A) :=
  match n with
  | O => Ret s
  | S n => let! s := ins_inner s a i in ins_outer n s a (S i)
  end.
(** sortx.go 45, 49: insertionSortLessFunc *)
Definition insertion s a b : res (list A) := ins_outer (b - S a) s a (S a).

(** siftDownLessFunc; sortx.go 45: siftDownLessFunc *)
Fixpoint sift (fuel : nat) s (root hi first : nat) : res (list A) :=
  match fuel with
  | O => Spin
  | S fuel =>
      let child := 2 * root + 1 in
      if hi <=? child then Ret s else
      let! child := (if child + 1 <? hi then
                       let! c := sless s (first + child) (first + child + 1) in
                       Ret (if c : bool then child + 1 else child)
                     else Ret child) in
      let! c := sless s (first + root) (first + child) in
      if negb c then Ret s else
      let! s := sswap s (first + root) (first + child) in
      sift fuel s child hi first
  end.
(** sortx.go 45: siftDownLessFunc *)
Definition sift_down s lo hi first : res (list A) := sift (S hi) s lo hi first.
(** heapSortLessFunc: for i := (hi - 1) / 2; i >= 0; i--; [n] is i + 1;
    sortx.go 45: heapSortLessFunc *)
Fixpoint heap_build n s hi first : res (list A) :=
  match n with
  | O => Ret s
  | S i => let! s := sift_down s i hi first in heap_build i s hi first
  end.
(** for i := hi - 1; i >= 0; i--; [n] is i + 1; sortx.go 45: heapSortLessFunc *)
Fixpoint heap_pop n s first : res (list A) :=
  match n with
  | O => Ret s
  | S i => let! s := sswap s first (first + i) in
           let! s := sift_down s 0 i first in heap_pop i s first
  end.
(** sortx.go 45: heapSortLessFunc *)
Definition heap_sort s a b : res (list A) :=
  let hi := b - a in
  let! s := heap_build (S ((hi - 1) / 2)) s hi a in
  heap_pop hi s a.

(** for i <= j && less(data[i], data[a]) { i++ }, and its negation;
    sortx.go 45: partitionLessFunc, partitionEqualLessFunc *)
Fixpoint up_while (fuel : nat) (neg flip : bool) s a i j : res nat :=
  match fuel with
  | O => Spin
  | S fuel =>
      if i <=? j then
        let! c := if flip then sless s a i else sless s i a in
        if xorb neg c then up_while fuel neg flip s a (S i) j else Ret i
      else Ret i
  end.
(** for i <= j && !less(data[j], data[a]) { j-- };
    sortx.go 45: partitionLessFunc, partitionEqualLessFunc *)
Fixpoint down_while (fuel : nat) (neg flip : bool) s a i j : res nat :=
  match fuel with
  | O => Spin
  | S fuel =>
      if i <=? j then
        let! c := if flip then sless s a j else sless s j a in
        if xorb neg c then down_while fuel neg flip s a i (j - 1) else Ret j
      else Ret j
  end.
(** the loop of partitionLessFunc: elements smaller than data[a] to the left;
    sortx.go 45: partitionLessFunc *)
Fixpoint part_loop (fuel : nat) s a i j : res (list A * nat) :=
  match fuel with
  | O => Spin
  | S fuel =>
      let! i := up_while (S (S (length s))) false false s a i j in
      let! j := down_while (S (S (length s))) true false s a i j in
      if j <? i then Ret (s, j) else
      let! s := sswap s i j in
      part_loop fuel s a (S i) (j - 1)
  end.
(** partitionLessFunc; sortx.go 45: partitionLessFunc *)
Definition partition s a b pivot : res (list A * (nat * bool)) :=
  let! s := sswap s a pivot in
  let! i := up_while (S (S (length s))) false false s a (S a) (b - 1) in
  let! j := down_while (S (S (length s))) true false s a i (b - 1) in
  if j <? i then let! s := sswap s j a in Ret (s, (j, true)) else
  let! s := sswap s i j in
  let! (s, j) := part_loop (S (length s)) s a (S i) (j - 1) in
  let! s := sswap s j a in
  Ret (s, (j, false)).
(** the loop of partitionEqualLessFunc: elements not greater than data[a] to the left;
    sortx.go 45: partitionEqualLessFunc *)
Fixpoint part_eq_loop (fuel : nat) s a i j : res (list A * nat) :=
  match fuel with
  | O => Spin
  | S fuel =>
      let! i := up_while (S (S (length s))) true true s a i j in
      let! j := down_while (S (S (length s))) false true s a i j in
      if j <? i then Ret (s, i) else
      let! s := sswap s i j in
      part_eq_loop fuel s a (S i) (j - 1)
  end.
(** partitionEqualLessFunc; sortx.go 45: partitionEqualLessFunc *)
Definition partition_equal s a b pivot : res (list A * nat) :=
  let! s := sswap s a pivot in
  part_eq_loop (S (length s)) s a (S a) (b - 1).

(** partialInsertionSortLessFunc: for i < b && !less(data[i], data[i-1]) { i++ };
    sortx.go 45: partialInsertionSortLessFunc *)
Fixpoint skip_sorted (fuel : nat) s i b : res nat :=
  match fuel with
  | O => Spin
  | S fuel =>
      if i <? b then
        let! c := sless s i (i - 1) in
        if c : bool then Ret i else skip_sorted fuel s (S i) b
      else Ret i
  end.
(** for j := i - 1; j >= 1; j--; sortx.go 45: partialInsertionSortLessFunc *)
Fixpoint shift_left s j : res (list A) :=
  match j with
  | O => Ret s
  | S j' =>
      let! c := sless s j j' in
      if negb c then Ret s else
      let! s := sswap s j j' in shift_left s j'
  end.
(** for j := i + 1; j < b; j++; [n] is b - j; sortx.go 45: partialInsertionSortLessFunc *)
Fixpoint shift_right n s j : res (list A) :=
  match n with
  | O => Ret s
  | S n =>
      let! c := sless s j (j - 1) in
      if negb c then Ret s else
      let! s := sswap s j (j - 1) in shift_right n s (S j)
  end.
(** for j := 0; j < maxSteps; j++; sortx.go 45: partialInsertionSortLessFunc *)
Fixpoint partial_loop (steps : nat) s a i b : res (list A * bool) :=
  match steps with
  | O => Ret (s, false)
  | S steps =>
      let! i := skip_sorted (S (S (length s))) s i b in
      if i =? b then Ret (s, true) else
      if b - a <? 50 then Ret (s, false) else
      let! s := sswap s i (i - 1) in
      let! s := if 2 <=? i - a then shift_left s (i - 1) else Ret s in
      let! s := if 2 <=? b - i then shift_right (b - S i) s (S i) else Ret s in
      partial_loop steps s a i b
  end.
(** sortx.go 45: partialInsertionSortLessFunc *)
Definition partial_insertion s a b : res (list A * bool) := partial_loop 5 s a (S a) b.

(** breakPatternsLessFunc; the state of the random source goes through [next] (the
    method xorshift.Next), whatever it computes; nextPowerOfTwo is 1 << bits.Len *)
Context (next : Z -> Z).
(** sortx.go 45: nextPowerOfTwo *)
Definition next_power_of_two (length : nat) : Z := (2 ^ (Z.log2 (Z.of_nat length) + 1))%Z.
(** sortx.go 45: breakPatternsLessFunc *)
Fixpoint break_loop (n : nat) s (random : Z) a (len idx : nat) : res (list A) :=
  match n with
  | O => Ret s
  | S n =>
      let random := u64 (next random) in
      let other := Z.to_nat (Z.land random (next_power_of_two len - 1)) in
      let other := if len <=? other then other - len else other in
      let! s := sswap s idx (a + other) in
      break_loop n s random a len (S idx)
  end.
(** sortx.go 45: breakPatternsLessFunc *)
Definition break_patterns s a b : res (list A) :=
  let len := b - a in
  if 8 <=? len then break_loop 3 s (Z.of_nat len) a len (a + len / 4 * 2 - 1 - 1) else Ret s.

(** order2LessFunc, medianLessFunc, medianAdjacentLessFunc; the counter of swaps is
    passed along; sortx.go 45: order2LessFunc *)
Definition order2 s a b (swaps : nat) : res (nat * nat * nat) :=
  let! c := sless s b a in Ret (if c : bool then (b, a, S swaps) else (a, b, swaps)).
(** sortx.go 45: medianLessFunc *)
Definition median s a b c (swaps : nat) : res (nat * nat) :=
  let! (a, b, swaps) := order2 s a b swaps in
  let! (b, c, swaps) := order2 s b c swaps in
  let! (a, b, swaps) := order2 s a b swaps in
  Ret (b, swaps).
(** sortx.go 45: medianAdjacentLessFunc *)
Definition median_adjacent s a (swaps : nat) : res (nat * nat) := median s (a - 1) a (a + 1) swaps.
(** sortedHint; sortx.go 45: sortedHint *)
Inductive hint := Unknown | Increasing | Decreasing.
(** choosePivotLessFunc; sortx.go 45: choosePivotLessFunc *)
Definition choose_pivot s a b : res (nat * hint) :=
  let l := b - a in
  let i := a + l / 4 * 1 in
  let j := a + l / 4 * 2 in
  let k := a + l / 4 * 3 in
  let! (j, swaps) :=
    (if 8 <=? l then
       let! (i, j, k, swaps) :=
         (if 50 <=? l then
            let! (i, swaps) := median_adjacent s i 0 in
            let! (j, swaps) := median_adjacent s j swaps in
            let! (k, swaps) := median_adjacent s k swaps in
            Ret (i, j, k, swaps)
          else Ret (i, j, k, 0)) in
       median s i j k swaps
     else Ret (j, 0)) in
  Ret (j, match swaps with 0 => Increasing | 12 => Decreasing | _ => Unknown end).
(** reverseRangeLessFunc; sortx.go 45: reverseRangeLessFunc *)
Fixpoint reverse_range (fuel : nat) s i j : res (list A) :=
  match fuel with
  | O => Spin
  | S fuel => if i <? j then let! s := sswap s i j in reverse_range fuel s (S i) (j - 1) else Ret s
  end.

(** pdqsortLessFunc: the loop, with wasBalanced and wasPartitioned; sortx.go 45: pdqsortLessFunc *)
Fixpoint pdq_loop (fuel : nat) s a b (limit : nat) (balanced partitioned : bool) : res (list A) :=
  match fuel with
  | O => Spin
  | S fuel =>
      let len := b - a in
      if len <=? 12 then insertion s a b else
      if limit =? 0 then heap_sort s a b else
      let! s := if negb balanced then break_patterns s a b else Ret s in
      let limit := if negb balanced then limit - 1 else limit in
      let! (pivot, h) := choose_pivot s a b in
      let! (s, pivot, h) :=
        (match h with
         | Decreasing => let! s := reverse_range (S (length s)) s a (b - 1) in
                         Ret (s, (b - 1) - (pivot - a), Increasing)
         | _ => Ret (s, pivot, h)
         end) in
      let! (s, done) :=
        (if balanced && partitioned && match h with Increasing => true | _ => false end
         then partial_insertion s a b else Ret (s, false)) in
      if done : bool then Ret s else
      let! dup := if 0 <? a then let! c := sless s (a - 1) pivot in Ret (negb c) else Ret false in
      if dup : bool then
        let! (s, mid) := partition_equal s a b pivot in
        pdq_loop fuel s mid b limit balanced partitioned
      else
      let! (s, (mid, already)) := partition s a b pivot in
      let left := mid - a in
      let right := b - mid in
      if left <? right then
        let! s := pdq_loop fuel s a mid limit true true in
        pdq_loop fuel s (S mid) b limit (len / 8 <=? left) already
      else
        let! s := pdq_loop fuel s (S mid) b limit true true in
        pdq_loop fuel s a mid limit (len / 8 <=? right) already
  end.
(** SortFunc: pdqsortLessFunc(x, 0, n, bits.Len(uint(n)), less) sortx.go 45: bits.Len *)
Definition bits_len (n : nat) : nat := match n with O => 0 | _ => S (Z.to_nat (Z.log2 (Z.of_nat n))) end.
(** sortx.go 45: SortFunc *)
Definition sort_func s : res (list A) :=
  let n := length s in pdq_loop (S n) s 0 n (bits_len n) true true.

(** swapRangeLessFunc: for i := 0; i < n; i++; [a] and [b] are a+i and b+i;
    sortx.go 49: swapRangeLessFunc *)
Fixpoint swap_range n s a b : res (list A) :=
  match n with
  | O => Ret s
  | S n => let! s := sswap s a b in swap_range n s (S a) (S b)
  end.
(** rotateLessFunc; sortx.go 49: rotateLessFunc *)
Fixpoint rotate_loop (fuel : nat) s m i j : res (list A) :=
  match fuel with
  | O => Spin
  | S fuel =>
      if i =? j then swap_range i s (m - i) m else
      if j <? i then let! s := swap_range j s (m - i) m in rotate_loop fuel s m (i - j) j
      else let! s := swap_range i s (m - i) (m + j - i) in rotate_loop fuel s m i (j - i)
  end.
(** sortx.go 49: rotateLessFunc *)
Definition rotate s a m b : res (list A) := rotate_loop (S (b - a)) s m (m - a) (b - m).
(** the binary searches of symMergeLessFunc: for i < j { h := (i+j)/2; if f h then i = h+1 else j = h };
    sortx.go 49: symMergeLessFunc *)
Fixpoint bsearch (fuel : nat) (f : nat -> res bool) i j : res nat :=
  match fuel with
  | O => Spin
  | S fuel =>
      if i <? j then
        let h := (i + j) / 2 in
        let! c := f h in
        if c : bool then bsearch fuel f (S h) j else bsearch fuel f i h
      else Ret i
  end.
(** for k := a; k < i-1; k++, [n] steps; sortx.go 49: symMergeLessFunc *)
Fixpoint carry_up n s k : res (list A) :=
  match n with
  | O => Ret s
  | S n => let! s := sswap s k (S k) in carry_up n s (S k)
  end.
(** for k := m; k > i; k--, [n] steps; sortx.go 49: symMergeLessFunc *)
Fixpoint carry_down n s k : res (list A) :=
  match n with
  | O => Ret s
  | S n => let! s := sswap s k (k - 1) in carry_down n s (k - 1)
  end.
(** symMergeLessFunc; sortx.go 49: symMergeLessFunc *)
Fixpoint sym_merge (fuel : nat) s a m b : res (list A) :=
  match fuel with
  | O => Spin
  | S fuel =>
      if m - a =? 1 then
        let! i := bsearch (S (length s)) (fun h => sless s h a) m b in
        carry_up (i - 1 - a) s a
      else if b - m =? 1 then
        let! i := bsearch (S (length s)) (fun h => let! c := sless s m h in Ret (negb c)) a m in
        carry_down (m - i) s m
      else
      let mid := (a + b) / 2 in
      let n := mid + m in
      let '(start, r) := if mid <? m then (n - b, mid) else (a, m) in
      let p := n - 1 in
      let! start := bsearch (S (length s)) (fun c => let! x := sless s (p - c) c in Ret (negb x)) start r in
      let en := n - start in
      let! s := if (start <? m) && (m <? en) then rotate s start m en else Ret s in
      let! s := if (a <? start) && (start <? mid) then sym_merge fuel s a start mid else Ret s in
      if (mid <? en) && (en <? b) then sym_merge fuel s mid en b else Ret s
  end.
(** stableLessFunc: the blocks of 20 *)
Fixpoint stable_blocks (fuel : nat) s a n : res (list A) :=
  match fuel with
  | O => Spin
  | S fuel =>
      if a + 20 <=? n then let! s := insertion s a (a + 20) in stable_blocks fuel s (a + 20) n
      else insertion s a n
  end.
(** one round of merges of neighbouring blocks; sortx.go 49: stableLessFunc *)
Fixpoint merge_round (fuel : nat) s a (size n : nat) : res (list A) :=
  match fuel with
  | O => Spin
  | S fuel =>
      if a + 2 * size <=? n then
        let! s := sym_merge (S (length s)) s a (a + size) (a + 2 * size) in
        merge_round fuel s (a + 2 * size) size n
      else if a + size <? n then sym_merge (S (length s)) s a (a + size) n else Ret s
  end.
(** for blockSize < n; sortx.go 49: stableLessFunc *)
Fixpoint merge_rounds (fuel : nat) s (size n : nat) : res (list A) :=
  match fuel with
  | O => Spin
  | S fuel =>
      if size <? n then let! s := merge_round (S n) s 0 size n in merge_rounds fuel s (2 * size) n
      else Ret s
  end.
(** SortStableFunc; sortx.go 49: SortStableFunc *)
Definition sort_stable_func s : res (list A) :=
  let n := length s in
  let! s := stable_blocks (S n) s 0 n in
  merge_rounds (S n) s 20 n.
End Pdq.
