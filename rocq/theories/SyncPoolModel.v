(** Model of syncx/syncpoolx/syncpoolx.go over sync.Pool as documented: Get may
    take any object that is in the pool, or ignore the pool and call New; objects
    may be removed from the pool at any time without notice.  Objects are
    pointers, numbered.  Calls are atomic (sync.Pool is safe for concurrent use). *)
From Verif Require Import Base.

(** the methods of syncpoolx.go 16-36 *)
Inductive pop := PInit | PGet | PPut (x : nat).
(** what the runtime does at a call: which objects it first drops, and which
    position of the pool Get takes from, if any; syncpoolx.go 26, 35 *)
Record penv := Env { e_keep : nat -> bool; e_pick : option nat }.

Section Model.
(** the pointer returned by the k-th call of the caller's New *)
Variable news : nat -> nat.

(** syncpoolx.go 8-10 *)
Record pstate := PS { p_init : bool; p_pool : list nat; p_made : nat }.
(** the zero Pool; syncpoolx.go 8-10 *)
Definition p_zero : pstate := PS false [] 0.

(** sync.Pool.Get; [None] is the nil interface, returned when New is nil; syncpoolx.go 26 *)
Definition pool_get (s : pstate) (pick : option nat) : pstate * option nat :=
  match (i ← pick; x ← p_pool s !! i; Some (i, x)) with
  | Some (i, x) => (PS (p_init s) (take i (p_pool s) ++ drop (S i) (p_pool s)) (p_made s), Some x)
  | None => if p_init s then (PS true (p_pool s) (S (p_made s)), Some (news (p_made s))) else (s, None)
  end.

(** one call; the result of Get is the pointer; syncpoolx.go 16-36 *)
Definition p_step (s : pstate) (eo : penv * pop) : res (pstate * option nat) :=
  let '(e, o) := eo in
  let s := PS (p_init s) (filter (fun x => e_keep e x = true) (p_pool s)) (p_made s) in
  match o with
  | PInit => Ret (PS true (p_pool s) (p_made s), None)              (* syncpoolx.go 16-20 *)
  | PGet => let '(s', r) := pool_get s (e_pick e) in                (* syncpoolx.go 25-27: the type assertion on nil panics *)
            match r with Some x => Ret (s', Some x) | None => Panic end
  | PPut x => Ret (PS (p_init s) (x :: p_pool s) (p_made s), None)  (* syncpoolx.go 34-36 *)
  end.
End Model.
