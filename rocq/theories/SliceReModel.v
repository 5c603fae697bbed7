(** dsx/slicex/slicex.go with callbacks that use the slice they are called from: the
    callback is a program that calls methods of the slice.  Memory, headers and
    methods as in SliceModel. *)
From Verif Require Import Base SeqSpec GoSlice SliceSpec SliceModel.

(** a callback: return r, or call a method (c: the growth the runtime chooses) and
    look at its result; slicex.go 145, 207-231 *)
Inductive sprog (A R : Type) :=
| SRet (r : R)
| SCall (c : nat -> nat) (o : xop A) (k : ret A -> sprog A R).
Arguments SRet {A R} r.
Arguments SCall {A R} c o k.

Section M.
Context {A : Type} (zero : A) (maxlen : Z).
Notation mem := (list (list A)).

(** slicex.go 145-235: a callback running *)
Fixpoint run_prog {R} (p : sprog A R) (m : mem) (s : slice) : res (mem * slice * R) :=
  match p with
  | SRet r => Ret (m, s, r)
  | SCall c o k => let! (ms, r) := x_step zero maxlen (m, s) (c, o) in run_prog (k r) ms.1 ms.2
  end.

(** 225-229 Each, 231-235 ForEach: the receiver h is a copy of the header s *)
Fixpoint each_prog {B} (f : B -> Z -> A -> sprog A B) (k : nat) (m : mem) (s h : slice) (i : Z) (b : B) : res (mem * slice * B) :=
  match k with
  | O => Ret (m, s, b)
  | S k => let! v := sl_get m h i in let! (m, s, b) := run_prog (f b i v) m s in each_prog f k m s h (i + 1) b
  end.
(** slicex.go 231-235: ForEach *)
Definition x_for_each_prog {B} (f : B -> Z -> A -> sprog A B) m s b := each_prog f (sl_len s) m s s 0 b.
(** 207-214 IndexOf, 216-223 Contains *)
Fixpoint index_prog {B} (f : B -> A -> sprog A (B * bool)) (k : nat) (m : mem) (s h : slice) (i : Z) (b : B) : res (mem * slice * B * Z) :=
  match k with
  | O => Ret (m, s, b, (-1)%Z)
  | S k => let! v := sl_get m h i in let! (m, s, (b, y)) := run_prog (f b v) m s in
           if y : bool then Ret (m, s, b, i) else index_prog f k m s h (i + 1) b
  end.
(** slicex.go 207-214: IndexOf *)
Definition x_index_of_prog {B} (f : B -> A -> sprog A (B * bool)) m s b := index_prog f (sl_len s) m s s 0 b.
(** slicex.go 216-223: Contains *)
Definition x_contains_prog {B} (f : B -> A -> sprog A (B * bool)) m s b : res (mem * slice * B * bool) :=
  let! (m, s, b, i) := x_index_of_prog f m s b in Ret (m, s, b, (0 <=? i)%Z).
(** 145-155 Filter: range copies the header s (as h); s[n] = v and s[:n] use the header as it is then *)
Fixpoint filter_prog {B} (f : B -> A -> sprog A (B * bool)) (k : nat) (m : mem) (s h : slice) (i n : Z) (b : B) : res (mem * slice * B * Z) :=
  match k with
  | O => Ret (m, s, b, n)
  | S k => let! v := sl_get m h i in let! (m, s, (b, y)) := run_prog (f b v) m s in
           if y : bool then let! m := sl_set m s n v in filter_prog f k m s h (i + 1) (n + 1) b
           else filter_prog f k m s h (i + 1) n b
  end.
(** slicex.go 145-155: Filter *)
Definition x_filter_prog {B} (f : B -> A -> sprog A (B * bool)) m s b : res (mem * slice * B) :=
  let! (m, s, b, n) := filter_prog f (sl_len s) m s s 0 0 b in
  let! s := sl_sub s 0 n in Ret (m, s, b).

(** *** On lists; a callback of slicex.go 145-235 *)
Fixpoint run_spec {R} (p : sprog A R) (l : list A) : res (list A * R) :=
  match p with
  | SRet r => Ret (l, r)
  | SCall _ o k => let! (l, r) := slice_spec zero maxlen l o in run_spec (k r) l
  end.
(** the callback is called on the elements xs, and calls the methods on l;
    what slicex.go 231-235 should do *)
Fixpoint each_spec {B} (f : B -> Z -> A -> sprog A B) (xs : list A) (l : list A) (i : Z) (b : B) : res (list A * B) :=
  match xs with
  | [] => Ret (l, b)
  | x :: xs => let! (l, b) := run_spec (f b i x) l in each_spec f xs l (i + 1) b
  end.
(** what slicex.go 207-214 should do *)
Fixpoint index_spec {B} (f : B -> A -> sprog A (B * bool)) (xs : list A) (l : list A) (i : Z) (b : B) : res (list A * B * Z) :=
  match xs with
  | [] => Ret (l, b, (-1)%Z)
  | x :: xs => let! (l, (b, y)) := run_spec (f b x) l in if y : bool then Ret (l, b, i) else index_spec f xs l (i + 1) b
  end.
(** Filter puts the elements it keeps at the front as it goes; slicex.go 145-155 *)
Fixpoint filter_spec {B} (f : B -> A -> sprog A (B * bool)) (xs : list A) (l : list A) (kept : list A) (b : B) : res (list A * B) :=
  match xs with
  | [] => Ret (kept, b)
  | x :: xs => let! (l, (b, y)) := run_spec (f b x) l in
               if y : bool then filter_spec f xs (<[length kept := x]> l) (kept ++ [x]) b else filter_spec f xs l kept b
  end.
(** the callback is shown position i as it is when its turn comes, for k positions;
    slicex.go 231-235 *)
Fixpoint each_live {B} (f : B -> Z -> A -> sprog A B) (k i : nat) (l : list A) (b : B) : res (list A * B) :=
  match k with
  | O => Ret (l, b)
  | S k => let! v := deref (l !! i) in let! (l, b) := run_spec (f b (Z.of_nat i) v) l in each_live f k (S i) l b
  end.

(** calls that look or add at the end; calls that look or change elements in place;
    slicex.go 10-243 *)
Definition grow_op (o : xop A) : Prop := match o with XPush _ | XExtend _ | XGet _ | XLen => True | _ => False end.
(** the methods of slicex.go 10-243 that look or change elements in place *)
Definition inplace_op (o : xop A) : Prop := match o with XSet _ _ | XGet _ | XLen | XReverse | XShuffle _ => True | _ => False end.
(** not code: which methods of slicex.go 10-243 a callback calls *)
Fixpoint calls_only {R} (P : xop A -> Prop) (p : sprog A R) : Prop :=
  match p with SRet _ => True | SCall _ o k => P o /\ forall r, calls_only P (k r) end.
End M.
