(** typex/convx/convx.go 8-59 with the code of sync.RWMutex (RWModel.v) as its lock.

    convertersLock is used by goroutines, and by a goroutine again while a converter that it called has called convx.  Each
    use is a user of RWModel.v: goroutine t, inside of d converters, is user [uid t d], any two of which are different.  The
    users inside of which it is have the lock for reading; the one it is in now is somewhere in RLock, RUnlock, Lock or
    Unlock, and the goroutine goes on when that call returns.  What happens between two calls is ConvConcModel.v's; the map,
    the goroutines and the converters are those of that file, and [PWait] is not used: where a goroutine waits is in the
    RWMutex.  Simplification: as in RWModel.v (fewer than rwmutexMaxReaders users, atomics are sequentially consistent). *)
From Verif Require Import Base Conc ConvModel ConvConcModel RWModel.

Section Model.
Context {V : Type} (conv : nat -> V -> code V) (uid : nat -> nat -> nat) (N : nat).

(** convx.go 8-9: the map and its RWMutex, and the goroutines *)
Record zstate := ZS { z_reg : registry_of nat; z_torn : bool; z_crash : bool; z_rw : rwstate; z_th : nat -> thr V }.
(** convx.go 8-9 *)
Definition z_init (main : nat -> code V) : zstate := ZS no_converters false false rw_new (fun t => Thr (PRun (main t)) []).
(** sync/rwmutex.go: in RLock, before it returns *)
Definition in_rlock (p : rwpc) : bool := match p with PRWant | PRSem => true | _ => false end.
(** sync/rwmutex.go: in Lock, before it returns *)
Definition in_lock (p : rwpc) : bool := match p with PWWant | PWAnn | PWWait _ | PWSem => true | _ => false end.
(** a step of convx.go 11-59: the user of the lock, and what happens *)
Inductive z_step : zstate -> nat * option (kev V) -> zstate -> Prop :=
(** 12, 21, 31, 42: RLock and Lock before they return; 13, 22, 32, 43: RUnlock and Unlock after their first AddInt32 *)
| zs_inside m tn cr rw th t c fr rw' : th t = Thr (PRun c) fr -> let u := uid t (length fr) in rw_step N rw u rw' ->
    (in_rlock (rw_pc rw' u) = true -> is_read c = true) -> (in_lock (rw_pc rw' u) = true -> is_write c = true) ->
    rw_pc rw' u <> PRHold -> rw_pc rw' u <> PWHold ->
    z_step (ZS m tn cr rw th) (u, None) (ZS m tn cr rw' th)
(** 31, 42: RLock returns *)
| zs_rlock m tn cr rw th t c fr rw' : th t = Thr (PRun c) fr -> let u := uid t (length fr) in rw_step N rw u rw' -> rw_pc rw' u = PRHold ->
    z_step (ZS m tn cr rw th) (u, None) (ZS m tn cr rw' (tset th t (Thr (PRead c) fr)))
(** 12, 21: Lock returns *)
| zs_lock m tn cr rw th t c fr rw' : th t = Thr (PRun c) fr -> let u := uid t (length fr) in rw_step N rw u rw' -> rw_pc rw' u = PWHold ->
    z_step (ZS m tn cr rw th) (u, None) (ZS m tn cr rw' (tset th t (Thr (PWrite c) fr)))
(** 32, 43: the AddInt32 of RUnlock *)
| zs_runlock m tn cr rw th t c fr rw' : th t = Thr (PRel c) fr -> let u := uid t (length fr) in rw_step N rw u rw' ->
    z_step (ZS m tn cr rw th) (u, None) (ZS m tn cr rw' (tset th t (Thr (PRun c) fr)))
(** 13, 22: the AddInt32 of Unlock *)
| zs_unlock m tn cr rw th t c fr rw' : th t = Thr (PUnlock c) fr -> let u := uid t (length fr) in rw_step N rw u rw' ->
    z_step (ZS m tn cr rw th) (u, None) (ZS m tn cr rw' (tset th t (Thr (PRun c) fr)))
(** 33-38 *)
| zs_exists m cr rw th t T R k fr : th t = Thr (PRead (KExists T R k)) fr ->
    z_step (ZS m false cr rw th) (uid t (length fr), Some (EvExists t T R (exists_conv m T R))) (ZS m false cr rw (tset th t (Thr (PRel (k (exists_conv m T R))) fr)))
(** 44-55: nothing found *)
| zs_miss m cr rw th t T R d v k fr : th t = Thr (PRead (KInto T R d v k)) fr -> find_conv m T R d = None ->
    z_step (ZS m false cr rw th) (uid t (length fr), Some (EvFind t T R d None)) (ZS m false cr rw (tset th t (Thr (PRel (k None)) fr)))
(** 56: the converter is called *)
| zs_hit m cr rw th t T R d v k fr f : th t = Thr (PRead (KInto T R d v k)) fr -> find_conv m T R d = Some f ->
    z_step (ZS m false cr rw th) (uid t (length fr), Some (EvFind t T R d (Some f))) (ZS m false cr rw (tset th t (Thr (PRun (conv f v)) (Fr T R d v f k :: fr))))
(** 56-58: the converter returns, or panics; what it did with the lock has returned before *)
| zs_ret m tn cr rw th t T R d v f k r fr : th t = Thr (PRun (KRet r)) (Fr T R d v f k :: fr) -> rw_pc rw (uid t (S (length fr))) = PIdle ->
    z_step (ZS m tn cr rw th) (uid t (S (length fr)), Some (EvInto t T R d v f r)) (ZS m tn cr rw (tset th t (Thr (PRel (k (Some r))) fr)))
| zs_panic m tn cr rw th t k fr : th t = Thr (PRun KPanic) (k :: fr) -> rw_pc rw (uid t (S (length fr))) = PIdle ->
    z_step (ZS m tn cr rw th) (uid t (S (length fr)), None) (ZS m tn cr rw (tset th t (Thr (PRel KPanic) fr)))
(** 14-17, 23-27 *)
| zs_write m cr rw th t c fr : th t = Thr (PWrite c) fr ->
    z_step (ZS m false cr rw th) (uid t (length fr), None) (ZS m true cr rw (tset th t (Thr (PTorn c) fr)))
| zs_register m tn cr rw th t T R f k fr : th t = Thr (PTorn (KRegister T R f k)) fr ->
    z_step (ZS m tn cr rw th) (uid t (length fr), Some (EvRegister t T R f)) (ZS (register m T R f) false cr rw (tset th t (Thr (PUnlock k) fr)))
| zs_unregister m tn cr rw th t T R k fr : th t = Thr (PTorn (KUnregister T R k)) fr ->
    z_step (ZS m tn cr rw th) (uid t (length fr), Some (EvUnregister t T R)) (ZS (unregister m T R) false cr rw (tset th t (Thr (PUnlock k) fr)))
(** the runtime's check *)
| zs_race m cr rw th t c fr : th t = Thr (PRead c) fr \/ th t = Thr (PWrite c) fr ->
    z_step (ZS m true cr rw th) (uid t (length fr), None) (ZS m true true rw th).
(** what happened *)
Definition z_events (ls : list (nat * option (kev V))) : list (kev V) := omap snd ls.
End Model.
Arguments zstate : clear implicits.
Arguments z_init {V} main.
Arguments z_step {V} conv uid N _ _ _.
