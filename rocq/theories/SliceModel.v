(** Model of dsx/slicex/slicex.go over the slice memory of GoSlice.v.
    A method takes the memory and the receiver's slice header [s] (for pointer
    receivers: the value of *s) and returns the new memory and header.
    [g] is the growth chosen by the runtime for each append of the call. *)
From Verif Require Import Base SeqSpec GoSlice SliceSpec.

Section Slice.
Context {A : Type} (zero : A).
(** the largest length [make([]T, n)] accepts *)
Context (maxlen : Z).
Notation mem := (list (list A)).

(** slicex.go 237-239: Len *)
Definition len (s : slice) : Z := Z.of_nat (sl_len s).

(** slicex.go:246-264 preprocIndexException, without and with the second index *)
Definition preproc1 (i n : Z) : Z := if (i <? 0)%Z then 0%Z else if (n <? i)%Z then n else i.
(** slicex.go 246-264 *)
Definition preproc2 (i j n : Z) : Z * Z :=
  let i := preproc1 i n in
  let j := if (n <? j)%Z then n else j in
  let j := if (j <? 0)%Z then 0%Z else j in
  if (j <? i)%Z then (j, i) else (i, j).

(** slicex.go:10-13 New(v...): the slice is the argument slice itself *)
Definition x_new (v : slice) : slice := v.

(** slicex.go:15-19 Extend.  The temporary array made by [make] is unreachable
    afterwards and not represented. *)
Definition x_extend (g : nat) (m : mem) (s : slice) (size : Z) : res (mem * slice) :=
  let size := preproc1 size size in
  if (maxlen <? size)%Z then Panic
  else Ret (append zero g m s (replicate (Z.to_nat size) zero)).

(** slicex.go:21-24 Copy: append(s[:0:0], *s...) *)
Definition x_copy (g : nat) (m : mem) (s : slice) : mem * slice :=
  append zero g m (Sl (sl_arr s) (sl_off s) 0 0) (contents m s).

(** slicex.go:26-29 Clear *)
Definition x_clear (s : slice) : res slice := sl_sub s 0 0.

(** slicex.go:32-38 Set, 40-48 Get *)
Definition x_set (m : mem) (s : slice) (i : Z) (x : A) : res mem :=
  if (len s =? 0)%Z then Ret m else sl_set m s (preproc1 i (len s - 1)) x.
(** slicex.go 40-48: Get *)
Definition x_get (m : mem) (s : slice) (i : Z) : res A :=
  if (len s =? 0)%Z then Ret zero else sl_get m s (preproc1 i (len s - 1)).

(** slicex.go:50-57 Slice *)
Definition x_slice (s : slice) (i j : Z) : res slice :=
  let j := if (j <? 0)%Z then (len s + j)%Z else j in
  let '(i, j) := preproc2 i j (len s) in
  sl_sub s i j.

(** slicex.go:59-63 Splice(i, j, v...) with the argument slice [v]:
    append(s[:i], append(v, s[j:]...)...) *)
Definition x_splice (g : nat * nat) (m : mem) (s : slice) (i j : Z) (v : slice) : res (mem * slice) :=
  let '(i, j) := preproc2 i j (len s) in
  let! front := sl_sub s 0 i in
  let! back := sl_sub s j (len s) in
  let '(m1, w) := append zero g.1 m v (contents m back) in
  Ret (append zero g.2 m1 front (contents m1 w)).

(** the same called with explicit arguments: Go builds a fresh argument slice
    (nil, here an empty array of capacity 0, when there are none) slicex.go 59-79 *)
Definition x_splice_args g (m : mem) s i j (vs : list A) : res (mem * slice) :=
  let '(m1, v) := alloc m vs in x_splice g m1 s i j v.

(** slicex.go:65-67 Expand, 69-71 Insert, 73-75 Cut, 77-79 Delete, 81-83 Push, 95-97 UnShift *)
Definition x_expand g m s i (vs : list A) := x_splice_args g m s i i vs.
(** slicex.go 69-71: Insert *)
Definition x_insert g m s i (x : A) := x_expand g m s i [x].
(** slicex.go 73-75: Cut *)
Definition x_cut g (m : mem) s i j := x_splice_args g m s i j [].
(** slicex.go 77-79: Delete *)
Definition x_delete g m s i := x_cut g m s i (i64 (i + 1)).
(** slicex.go 81-83: Push *)
Definition x_push g m s (x : A) := x_insert g m s (len s) x.
(** slicex.go 95-97: UnShift *)
Definition x_unshift g m s (x : A) := x_insert g m s 0 x.

(** slicex.go:85-93 Pop, 99-107 Shift *)
Definition x_pop g m s : res (mem * slice * A) :=
  if (len s =? 0)%Z then Ret (m, s, zero)
  else let! r := sl_get m s (len s - 1) in
       let! (m, s) := x_delete g m s (len s - 1) in Ret (m, s, r).
(** slicex.go 99-107: Shift *)
Definition x_shift g m s : res (mem * slice * A) :=
  if (len s =? 0)%Z then Ret (m, s, zero)
  else let! r := sl_get m s 0 in
       let! (m, s) := x_delete g m s 0 in Ret (m, s, r).

(** slicex.go:109-114 DeleteReplace *)
Definition x_delete_replace (m : mem) s (i : Z) : res (mem * slice) :=
  let i := preproc1 i (len s) in
  let! x := sl_get m s (len s - 1) in
  let! m := sl_set m s i x in
  let! s := sl_sub s 0 (len s - 1) in
  Ret (m, s).

(** s[i], s[j] = s[j], s[i]; slicex.go 118, 140 *)
Definition x_swap (m : mem) s (i j : Z) : res mem :=
  let! a := sl_get m s j in
  let! b := sl_get m s i in
  let! m := sl_set m s i a in
  sl_set m s j b.

(** slicex.go:116-121 Reverse *)
Fixpoint rev_loop (fuel : nat) (m : mem) s (i j : Z) : res mem :=
  if (i <? j)%Z then
    match fuel with
    | O => Spin
    | S f => let! m := x_swap m s i j in rev_loop f m s (i + 1) (j - 1)
    end
  else Ret m.
(** slicex.go 116-121: Reverse *)
Definition x_reverse (m : mem) s : res mem := rev_loop (sl_len s) m s 0 (len s - 1).

(** slicex.go:123-136 Rotate ([Z.rem] is Go's %, [i64 (- n)] its unary minus) *)
Definition x_rotate (g : nat) (m : mem) s (n : Z) : res (mem * slice) :=
  if (len s =? 0)%Z then Ret (m, s)
  else if (0 <? n)%Z then
    let index := Z.rem n (len s) in
    let! a := sl_sub s index (len s) in
    let! b := sl_sub s 0 index in
    Ret (append zero g m a (contents m b))
  else if (n <? 0)%Z then
    let index := Z.rem (i64 (- n)) (len s) in
    let! a := sl_sub s (len s - index) (len s) in
    let! b := sl_sub s 0 (len s - index) in
    Ret (append zero g m a (contents m b))
  else Ret (m, s).

(** slicex.go:138-143 Shuffle; math/rand.Shuffle (Go 1.19 rand.go:247-265) is,
    for i = n-1 down to 1, swap(i, j) for a random j in [0, i].  [js i] decides j. *)
Fixpoint shuffle_loop (js : nat -> nat) (i : nat) (m : mem) s : res mem :=
  match i with
  | O => Ret m
  | S i' => let! m := x_swap m s (Z.of_nat i) (Z.of_nat (js i mod S i)) in shuffle_loop js i' m s
  end.
(** slicex.go 138-143: Shuffle *)
Definition x_shuffle (js : nat -> nat) (m : mem) s : res mem := shuffle_loop js (sl_len s - 1) m s.

(** slicex.go:145-155 Filter.  The callback has a state [B] of its own (it may
    log, count, ...); it does not touch the slice. *)
Fixpoint filter_loop {B} (f : B -> A -> B * bool) (k : nat) (m : mem) s (idx n : Z) (b : B)
  : res (mem * Z * B) :=
  match k with
  | O => Ret (m, n, b)
  | S k' =>
      let! v := sl_get m s idx in
      let '(b, keep) := f b v in
      if keep then let! m := sl_set m s n v in filter_loop f k' m s (idx + 1) (n + 1) b
      else filter_loop f k' m s (idx + 1) n b
  end.
(** slicex.go 145-155: Filter *)
Definition x_filter {B} (f : B -> A -> B * bool) (m : mem) s (b : B) : res (mem * slice * B) :=
  let! (m, n, b) := filter_loop f (sl_len s) m s 0 0 b in
  let! s := sl_sub s 0 n in
  Ret (m, s, b).

(** slicex.go:157-164 Repeat *)
Fixpoint repeat_loop (g : nat -> nat) (k : nat) (m : mem) s (r : slice) : mem * slice :=
  match k with
  | O => (m, r)
  | S k' => let '(m, r) := append zero (g k') m r (contents m s) in repeat_loop g k' m s r
  end.
(** slicex.go 157-164: Repeat *)
Definition x_repeat (g : nat -> nat) (m : mem) s (cnt : Z) : res (mem * slice) :=
  let c := i64 (len s * cnt) in
  if ((c <? 0) || (maxlen <? c))%Z then Panic
  else let m' := m ++ [replicate (Z.to_nat c) zero] in
       Ret (repeat_loop g (Z.to_nat cnt) m' s (Sl (length m) 0 0 (Z.to_nat c))).

(** slicex.go:166-183 Split; the result slice of pieces is a list *)
Fixpoint split_loop (s : slice) (splits : list Z) (end_ : Z) : res (list slice * Z) :=
  match splits with
  | [] => Ret ([], end_)
  | d :: r =>
      let endNext := preproc1 (i64 (end_ + d)) (len s) in
      let! piece := if (endNext <? end_)%Z then sl_sub s endNext end_ else sl_sub s end_ endNext in
      let! (ps, e) := split_loop s r endNext in
      Ret (piece :: ps, e)
  end.
(** slicex.go 166-183: Split *)
Definition x_split (s : slice) (splits : list Z) : res (list slice) :=
  let! (ps, e) := split_loop s splits 0 in
  if (e <? len s)%Z then let! p := sl_sub s e (len s) in Ret (ps ++ [p]) else Ret ps.

(** slicex.go:185-194 Batch *)
Definition x_batch (s : slice) (size : Z) : res (list slice) :=
  let size := if (size <=? 0)%Z then 1%Z else size in
  x_split s (replicate (Z.to_nat (Z.quot (len s) size)) size).

(** slicex.go:196-205 Join; [show] is fmt.Sprintf("%v", v) *)
Fixpoint join_loop {C} (show : A -> list C) (sep : list C) (k : nat) (m : mem) s (i : Z) (r : list C)
  : res (list C) :=
  match k with
  | O => Ret r
  | S k' =>
      let! v := sl_get m s i in
      let r := if (i =? 0)%Z then r else r ++ sep in
      join_loop show sep k' m s (i + 1) (r ++ show v)
  end.
(** slicex.go 196-205: Join *)
Definition x_join {C} (show : A -> list C) (sep : list C) (m : mem) s : res (list C) :=
  join_loop show sep (sl_len s) m s 0 [].

(** slicex.go:207-214 IndexOf, 216-223 Contains *)
Fixpoint index_loop {B} (f : B -> A -> B * bool) (k : nat) (m : mem) s (i : Z) (b : B) : res (Z * B) :=
  match k with
  | O => Ret ((-1)%Z, b)
  | S k' =>
      let! v := sl_get m s i in
      let '(b, y) := f b v in
      if y then Ret (i, b) else index_loop f k' m s (i + 1) b
  end.
(** slicex.go 207-214: IndexOf *)
Definition x_index_of {B} (f : B -> A -> B * bool) (m : mem) s (b : B) : res (Z * B) :=
  index_loop f (sl_len s) m s 0 b.
(** slicex.go 217-221: the loop of Contains *)
Fixpoint contains_loop {B} (f : B -> A -> B * bool) (k : nat) (m : mem) s (i : Z) (b : B) : res (bool * B) :=
  match k with
  | O => Ret (false, b)
  | S k' =>
      let! v := sl_get m s i in
      let '(b, y) := f b v in
      if y then Ret (true, b) else contains_loop f k' m s (i + 1) b
  end.
(** slicex.go 216-223: Contains *)
Definition x_contains {B} (f : B -> A -> B * bool) (m : mem) s (b : B) : res (bool * B) :=
  contains_loop f (sl_len s) m s 0 b.

(** slicex.go:225-229 Each, 231-235 ForEach *)
Fixpoint each_loop {B} (f : B -> Z -> A -> B) (k : nat) (m : mem) s (i : Z) (b : B) : res B :=
  match k with
  | O => Ret b
  | S k' => let! v := sl_get m s i in each_loop f k' m s (i + 1) (f b i v)
  end.
(** slicex.go 231-235: ForEach *)
Definition x_for_each {B} (f : B -> Z -> A -> B) (m : mem) s (b : B) : res B := each_loop f (sl_len s) m s 0 b.
(** slicex.go 225-229: Each *)
Definition x_each {B} (f : B -> A -> B) (m : mem) s (b : B) : res B := each_loop (fun b _ v => f b v) (sl_len s) m s 0 b.

(** slicex.go:237-239 Len, 241-243 Finalize *)
Definition x_len (s : slice) : Z := len s.
(** slicex.go 241-243: Finalize *)
Definition x_finalize (s : slice) : slice := s.

(** One method call; [c] is the growth chosen by the runtime at each append of
    the call.  Filter's callback is a predicate here. slicex.go 10-243 *)
Definition x_step (ms : mem * slice) (o : (nat -> nat) * xop A) : res ((mem * slice) * ret A) :=
  let '(m, s) := ms in
  let c := o.1 in
  let g := (c 0, c 1) in
  let done (r : res (mem * slice)) := let! ms := r in Ret (ms, RUnit) in
  match o.2 with
  | XExtend n => done (x_extend (c 0) m s n)
  | XClear => let! s := x_clear s in Ret ((m, s), RUnit)
  | XSet i x => let! m := x_set m s i x in Ret ((m, s), RUnit)
  | XGet i => let! v := x_get m s i in Ret ((m, s), RVal (Some v))
  | XSlice i j => let! s := x_slice s i j in Ret ((m, s), RUnit)
  | XSplice i j vs => done (x_splice_args g m s i j vs)
  | XExpand i vs => done (x_expand g m s i vs)
  | XInsert i x => done (x_insert g m s i x)
  | XCut i j => done (x_cut g m s i j)
  | XDelete i => done (x_delete g m s i)
  | XPush x => done (x_push g m s x)
  | XPop => let! (m, s, v) := x_pop g m s in Ret ((m, s), RVal (Some v))
  | XUnShift x => done (x_unshift g m s x)
  | XShift => let! (m, s, v) := x_shift g m s in Ret ((m, s), RVal (Some v))
  | XDeleteReplace i => done (x_delete_replace m s i)
  | XReverse => let! m := x_reverse m s in Ret ((m, s), RUnit)
  | XRotate n => done (x_rotate (c 0) m s n)
  | XShuffle js => let! m := x_shuffle js m s in Ret ((m, s), RUnit)
  | XFilter p => let! (m, s, _) := x_filter (fun b x => (b, p x)) m s tt in Ret ((m, s), RUnit)
  | XRepeat n => done (x_repeat c m s n)
  | XLen => Ret ((m, s), RInt (x_len s))
  end.

(** two slice variables over the same memory; slicex.go 10-243 *)
Definition x_step2 (st : mem * slice * slice) (o : (nat -> nat) * (bool * xop A))
  : res ((mem * slice * slice) * ret A) :=
  let '(m, s, t) := st in
  if o.2.1 then let! (ms, r) := x_step (m, s) (o.1, o.2.2) in Ret ((ms.1, ms.2, t), r)
  else let! (mt, r) := x_step (m, t) (o.1, o.2.2) in Ret ((mt.1, s, mt.2), r).
End Slice.
