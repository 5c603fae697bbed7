(** Methods of slicex.Slice whose panics are recovered (dsx/slicex/slicex.go): callbacks
    that panic, and the panics of the methods themselves.  A callback has a state [B] of its
    own; it gives the state it leaves and its answer, or [None] when it panics.  A nil
    function is one that always panics.  A callback does not touch the slice. *)
From Verif Require Import Base SeqSpec GoSlice SliceSpec SliceModel RecModel.

(** a call: one of the methods of SliceModel.v, or a method with a callback
    (slicex.go 145-155, 207-235) *)
Inductive pcall (A B : Type) :=
| POp (o : xop A)
| PFilter (f : B -> A -> B * option bool)
| PIndexOf (f : B -> A -> B * option bool)
| PContains (f : B -> A -> B * option bool)
| PEach (f : B -> A -> B * option unit)
| PForEach (f : B -> Z -> A -> B * option unit).
Arguments POp {A B} o.
Arguments PFilter {A B} f.
Arguments PIndexOf {A B} f.
Arguments PContains {A B} f.
Arguments PEach {A B} f.
Arguments PForEach {A B} f.

Section Panic.
Context {A B : Type} (zero : A) (maxlen : Z).
Notation mem := (list (list A)).

(** slicex.go 147-152: the loop of Filter.  What was written stays written. *)
Fixpoint pfilter_loop (f : B -> A -> B * option bool) (k : nat) (m : mem) s (idx n : Z) (b : B) : mem * B * res Z :=
  match k with
  | O => (m, b, Ret n)
  | S k' =>
      match sl_get m s idx with
      | Ret v =>
          let '(b, a) := f b v in
          match a with
          | Some true =>
              match sl_set m s n v with
              | Ret m => pfilter_loop f k' m s (idx + 1) (n + 1) b
              | Panic => (m, b, Panic)
              | Spin => (m, b, Spin)
              end
          | Some false => pfilter_loop f k' m s (idx + 1) n b
          | None => (m, b, Panic)
          end
      | Panic => (m, b, Panic)
      | Spin => (m, b, Spin)
      end
  end.
(** slicex.go 145-155: Filter; *s is assigned after the loop *)
Definition px_filter (f : B -> A -> B * option bool) (m : mem) s (b : B) : mem * slice * B * res (ret A) :=
  let '(m, b, r) := pfilter_loop f (sl_len s) m s 0 0 b in
  match (let! n := r in sl_sub s 0 n) with
  | Ret t => (m, t, b, Ret RUnit)
  | Panic => (m, s, b, Panic)
  | Spin => (m, s, b, Spin)
  end.

(** slicex.go 208-213 and 217-222: the loops of IndexOf and Contains, to the first true *)
Fixpoint pindex_loop (f : B -> A -> B * option bool) (k : nat) (m : mem) s (i : Z) (b : B) : B * res (option Z) :=
  match k with
  | O => (b, Ret None)
  | S k' =>
      match sl_get m s i with
      | Ret v =>
          let '(b, a) := f b v in
          match a with
          | Some true => (b, Ret (Some i))
          | Some false => pindex_loop f k' m s (i + 1) b
          | None => (b, Panic)
          end
      | Panic => (b, Panic)
      | Spin => (b, Spin)
      end
  end.
(** slicex.go 226-228 and 232-234: the loops of Each and ForEach *)
Fixpoint peach_loop (f : B -> Z -> A -> B * option unit) (k : nat) (m : mem) s (i : Z) (b : B) : B * res unit :=
  match k with
  | O => (b, Ret tt)
  | S k' =>
      match sl_get m s i with
      | Ret v =>
          let '(b, a) := f b i v in
          match a with
          | Some _ => peach_loop f k' m s (i + 1) b
          | None => (b, Panic)
          end
      | Panic => (b, Panic)
      | Spin => (b, Spin)
      end
  end.

(** one call and what it leaves.  The methods of SliceModel.v that panic do so before they
    write: make in 17 and 159, the index expression in 111, and in 133 the slice
    expressions (evaluated before append). *)
Definition px_step (st : mem * slice * B) (co : (nat -> nat) * pcall A B) : (mem * slice * B) * res (ret A) :=
  let '(m, s, b) := st in
  match co.2 with
  | POp o => let '(ms, r) := recovered (m, s) (x_step zero maxlen (m, s) (co.1, o)) in ((ms, b), r)
  | PFilter f => px_filter f m s b
  | PIndexOf f =>                                                     (* 207-214 *)
      let '(b, r) := pindex_loop f (sl_len s) m s 0 b in
      ((m, s, b), let! i := r in Ret (RInt match i with Some i => i | None => (-1)%Z end))
  | PContains f =>                                                    (* 216-223 *)
      let '(b, r) := pindex_loop f (sl_len s) m s 0 b in
      ((m, s, b), let! i := r in Ret (RBool match i with Some _ => true | None => false end))
  | PEach f =>                                                        (* 225-229 *)
      let '(b, r) := peach_loop (fun b _ x => f b x) (sl_len s) m s 0 b in ((m, s, b), let! _ := r in Ret RUnit)
  | PForEach f =>                                                     (* 231-235 *)
      let '(b, r) := peach_loop f (sl_len s) m s 0 b in ((m, s, b), let! _ := r in Ret RUnit)
  end.
End Panic.
