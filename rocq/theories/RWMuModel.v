(** A program that uses a sync.RWMutex (RWModel.v) whose field w is a sync.Mutex with the code of sync/mutex.go
    (MutexModel.v) in place of an owner: syncmapx/syncmapx.go 6-9 and convx/convx.go take such a lock.

      func (rw *RWMutex) Lock() { rw.w.Lock(); ... }
      func (rw *RWMutex) Unlock() { ...; rw.w.Unlock() }

    The state is that of the program and that of the mutex.  rw.w.Lock() is any number of steps of the mutex; with the
    last one, after which the goroutine has it, Lock goes on.  rw.w.Unlock() is the AddInt32 of Mutex.Unlock, after which
    the goroutine does not have it, and the steps of unlockSlow; until they are done the goroutine does nothing else.
    No step looks at the owner [rw_w] of RWModel.v: it is cleared before the step that needs it to be none. *)
From Verif Require Import Base Conc RWModel MutexModel.

Section compose.
(** the program: its steps, the RWMutex in its state, the goroutine of a step, and the state without the owner of w *)
Context {S L : Type} (step : S -> L -> S -> Prop) (rwof : S -> rwstate) (forget : S -> S) (tid : L -> nat).
Context (N : nat).
(** sync/rwmutex.go: rw.w.Lock() returns *)
Definition takes (s : S) (t : nat) (s' : S) : Prop := rw_pc (rwof s) t = PWWant /\ rw_pc (rwof s') t = PWAnn.
(** sync/rwmutex.go: rw.w.Unlock() is called *)
Definition gives (s : S) (t : nat) (s' : S) : Prop := exists r i, rw_pc (rwof s) t = PWPost r i /\ rw_pc (rwof s') t = PIdle.
(** sync/mutex.go: in unlockSlow *)
Definition in_unlock (p : xpc) : Prop := match p with XFree _ | XRel => True | _ => False end.

(** a step of the program, or of the mutex alone *)
Inductive c_step : S * mxstate -> L + nat -> S * mxstate -> Prop :=
(* what has nothing to do with w; a goroutine in rw.w.Unlock() does nothing of this *)
| cs_other s m l s' : step s l s' -> ~ takes s (tid l) s' -> ~ gives s (tid l) s' -> (rw_pc (rwof s) (tid l) = PIdle -> x_pc m (tid l) = XIdle) ->
    c_step (s, m) (inl l) (s', m)
(* rw.w.Lock(), before it returns *)
| cs_locking s m t m' : rw_pc (rwof s) t = PWWant -> mx_step N m t m' -> x_pc m' t <> XHold -> c_step (s, m) (inr t) (s, m')
(* it returns *)
| cs_take s m l s' m' : mx_step N m (tid l) m' -> x_pc m' (tid l) = XHold -> step (forget s) l s' -> takes s (tid l) s' -> c_step (s, m) (inl l) (s', m')
(* rw.w.Unlock(): the AddInt32 *)
| cs_give s m l s' m' : step s l s' -> gives s (tid l) s' -> x_pc m (tid l) = XHold -> mx_step N m (tid l) m' -> c_step (s, m) (inl l) (s', m')
(* rw.w.Unlock(): unlockSlow *)
| cs_unlocking s m t m' : in_unlock (x_pc m t) -> mx_step N m t m' -> c_step (s, m) (inr t) (s, m').
(** the steps of the program *)
Definition c_proj (ls : list (L + nat)) : list L := omap (fun l => match l with inl l => Some l | inr _ => None end) ls.
End compose.
(** the RWMutex alone *)
Definition rw_forget (r : rwstate) : rwstate := RW (rw_count r) (rw_wait r) None (rw_rsem r) (rw_wsem r) (rw_pc r).
Definition rwmu_step (N : nat) := c_step (rw_step N) (fun r => r) rw_forget (fun t => t) N.
