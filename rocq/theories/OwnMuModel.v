(** A program whose mutex has an owner or none, with the code of sync/mutex.go (MutexModel.v) in place of that:
    functionalx/lazyx/lazy.go 17-23 (sync.Once takes one), iox/managerx/closex/manager.go 19-40,
    poolx/gopoolx/timedpool.go 32-220.

    The state is that of the program and that of the mutex.  Lock is any number of steps of the mutex; the last one, after
    which the goroutine has it, is that step of the program with which it becomes the owner.  Unlock is the AddInt32 of
    Mutex.Unlock, that step of the program after which there is no owner, and the steps of unlockSlow.  The program does not
    look at the owner: it is cleared before the step that needs it to be none.  Simplification: a goroutine may be in
    unlockSlow, or in a Lock that has not returned, whatever else it does, so that there are more executions than in Go. *)
From Verif Require Import Base Conc MutexModel.

Section compose.
(** the program, the owner of its mutex, and the state without it *)
Context {S L : Type} (step : S -> L -> S -> Prop) (own : S -> option nat) (forget : S -> S).
Context (N : nat).
(** a step of the program, or of the mutex alone *)
Inductive ow_step : S * mxstate -> L + nat -> S * mxstate -> Prop :=
(* neither Lock nor Unlock *)
| om_other s m l s' : step s l s' -> own s' = own s -> ow_step (s, m) (inl l) (s', m)
(* sync/mutex.go: Lock before it returns, unlockSlow *)
| om_inside s m t m' : mx_step N m t m' -> x_pc m t <> XHold -> x_pc m' t <> XHold -> ow_step (s, m) (inr t) (s, m')
(* Lock returns *)
| om_take s m t m' l s' : mx_step N m t m' -> x_pc m t <> XHold -> x_pc m' t = XHold -> step (forget s) l s' -> own s' = Some t -> ow_step (s, m) (inl l) (s', m')
(* the AddInt32 of Unlock *)
| om_give s m t m' l s' : own s = Some t -> x_pc m t = XHold -> mx_step N m t m' -> step s l s' -> own s' = None -> ow_step (s, m) (inl l) (s', m').
(** the steps of the program *)
Definition o_proj (ls : list (L + nat)) : list L := omap (fun l => match l with inl l => Some l | inr _ => None end) ls.
End compose.
