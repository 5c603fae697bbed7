(** Model of dsx/slicex/stackx/stackx.go and dsx/slicex/listx/listx.go over the
    slice memory of GoSlice.v.  Each call carries [g], the spare capacity the
    runtime would give to a slice that append has to move. *)
From Verif Require Import Base SeqSpec SliceStackSpec GoSlice.

Section Model.
Context {A : Type} (zero : A).
Notation mem := (list (list A)).
Implicit Types (m : mem) (s : slice).

(** stackx.go 11-13: New.  make([]T, 0) *)
Definition k_new m : mem * slice := alloc m [].
(** stackx.go 15-18: Push *)
Definition k_push g m s (v : A) : mem * slice := append zero g m s [v].
(** stackx.go 20-27: Pop *)
Definition k_pop m s : res (slice * option A) :=
  if (Z.of_nat (sl_len s) =? 0)%Z then Ret (s, None) else
  let! rs := sl_get m s (Z.of_nat (sl_len s) - 1) in
  let! s' := sl_sub s 0 (Z.of_nat (sl_len s) - 1) in
  Ret (s', Some rs).
(** stackx.go 29-35: Peek *)
Definition k_peek m s : res (option A) :=
  if (Z.of_nat (sl_len s) =? 0)%Z then Ret None else
  let! rs := sl_get m s (Z.of_nat (sl_len s) - 1) in Ret (Some rs).
(** stackx.go 37-39: IsEmpty *)
Definition k_is_empty s : bool := (Z.of_nat (sl_len s) =? 0)%Z.
(** stackx.go 41-43: Len *)
Definition k_len s : Z := Z.of_nat (sl_len s).

(** one method call; stackx.go 11-43 *)
Definition k_step (st : mem * slice) (co : nat * kop A) : res ((mem * slice) * ret A) :=
  let '(m, s) := st in
  match co with
  | (g, KOp (Push x)) => Ret (k_push g m s x, RBool true)
  | (_, KOp Pop) => let! (s', r) := k_pop m s in Ret ((m, s'), RVal r)
  | (_, KOp STop) => let! r := k_peek m s in Ret ((m, s), RVal r)
  | (_, KOp SLen) => Ret ((m, s), RInt (k_len s))
  | (_, KIsEmpty) => Ret ((m, s), RBool (k_is_empty s))
  end.

(** listx.go 9-11: Append *)
Definition v_append g m s (x : A) : mem * slice := append zero g m s [x].
(** listx.go 13-17: Insert.  append; copy(l[index+1:], l[index:]); l[index] = data *)
Definition v_insert g m s (index : Z) (x : A) : res (mem * slice) :=
  let '(m1, s1) := append zero g m s [x] in
  let! dst := sl_sub s1 (i64 (index + 1)) (Z.of_nat (sl_len s1)) in
  let! src := sl_sub s1 index (Z.of_nat (sl_len s1)) in
  let! m3 := sl_set (sl_copy m1 dst src) s1 index x in
  Ret (m3, s1).
(** listx.go 19-27: Remove.  append(l[:index], l[index+1:]...) *)
Definition v_remove g m s (index : Z) : res (mem * slice * option A) :=
  if ((index <? 0) || (Z.of_nat (sl_len s) <=? index))%Z then Ret (m, s, None) else
  let! rs := sl_get m s index in
  let! pre := sl_sub s 0 index in
  let! post := sl_sub s (i64 (index + 1)) (Z.of_nat (sl_len s)) in
  Ret (append zero g m pre (contents m post), Some rs).
(** listx.go 29-36: At *)
Definition v_at m s (index : Z) : res (option A) :=
  if ((index <? 0) || (Z.of_nat (sl_len s) <=? index))%Z then Ret None else
  let! rs := sl_get m s index in Ret (Some rs).
(** listx.go 38-44: Iterate.  The slice header is evaluated once; [fuel] is its length *)
Fixpoint v_iterate_loop (f : A -> bool) m s (i : Z) (fuel : nat) : res (list A) :=
  match fuel with
  | 0 => Ret []
  | S k => let! v := sl_get m s i in
           if f v then let! l := v_iterate_loop f m s (i + 1) k in Ret (v :: l) else Ret [v]
  end.
(** listx.go 38-44: Iterate *)
Definition v_iterate (f : A -> bool) m s : res (list A) := v_iterate_loop f m s 0 (sl_len s).
(** listx.go 46-48: Len *)
Definition v_len s : Z := Z.of_nat (sl_len s).
(** listx.go 50-52: Cap *)
Definition v_cap s : Z := Z.of_nat (sl_cap s).

(** listx.go 9-52: one call *)
Definition v_step (st : mem * slice) (co : nat * lop A) : res ((mem * slice) * ret A) :=
  let '(m, s) := st in
  match co with
  | (g, Append x) => Ret (v_append g m s x, RUnit)
  | (g, Insert i x) => let! st' := v_insert g m s i x in Ret (st', RUnit)
  | (g, Remove i) => let! (st', r) := v_remove g m s i in Ret (st', RVal r)
  | (_, At i) => let! r := v_at m s i in Ret ((m, s), RVal r)
  | (_, Iterate f) => let! l := v_iterate f m s in Ret ((m, s), RSeen l)
  | (_, LLen) => Ret ((m, s), RInt (v_len s))
  end.
End Model.
