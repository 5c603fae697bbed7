(** Model of dsx/mapx/syncmapx/syncmapx.go on top of the sync.RWMutex of RWModel: the
    calls of RLock, RUnlock, Lock and Unlock are made of the steps of that code, in which
    other goroutines may come between.  The Go map is as in SyncMapModel: a write is two
    steps, and the runtime aborts the program when another goroutine touches a map in the
    middle of one; an iteration that goes on in a changed map yields anything. *)
From stdpp Require Import gmap.
From Verif Require Import Base Conc Lin SyncMapModel RWModel.

Section Model.
Context {K V : Type} `{Countable K} (zero : V).
(** [N] goroutines *)
Context (N : nat).
Notation gomap := (gmap K V).

(** 6-9.  [x_th] is where a goroutine is: [MWant]: in RLock or Lock; [MHold], [MIter],
    [MWriting]: between that and RUnlock or Unlock; [MRel]: before RUnlock or Unlock;
    [MRet]: in it, or after it *)
Record xstate := XS { x_map : gomap; x_torn : bool; x_crash : bool; x_rw : rwstate; x_th : nat -> mpc K V }.
(** 11-15 *)
Definition x_new : xstate := XS ∅ false false rw_new (fun _ => MIdle).

(** syncmapx.go 18-20, 58-60: past RLock or Lock *)
Definition has_lock (p : rwpc) : bool := match p with PRHold | PWHold => true | _ => false end.
(** a step of goroutine t, and what it tells *)
Notation lab := (nat * option (lev (mop K V) (mret K V)))%type.
(** the steps of syncmapx.go 17-74 and of sync.RWMutex *)
Inductive x_step : xstate -> lab -> xstate -> Prop :=
| xs_call m tn c rw th t o : t < N -> th t = MIdle ->
    x_step (XS m tn c rw th) (t, Some (Inv t o)) (XS m tn c rw (tset th t (MWant o)))
(** 18, 25, 32, 39, 49: RLock is called; 59, 65, 71: Lock is called *)
| xs_lock m tn c rw th t o rw' : th t = MWant o -> rw_pc rw t = PIdle -> rw_step N rw t rw' -> rw_pc rw' t = (if is_write o then PWWant else PRWant) ->
    x_step (XS m tn c rw th) (t, None) (XS m tn c rw' th)
(** the steps of RLock and Lock; with the last one the goroutine has the lock *)
| xs_locking m tn c rw th t o rw' : th t = MWant o -> rw_pc rw t <> PIdle -> rw_step N rw t rw' ->
    x_step (XS m tn c rw th) (t, None) (XS m tn c rw' (if has_lock (rw_pc rw' t) then tset th t (MHold o) else th))
(** 19, 26, 33 *)
| xs_read m c rw th t o r : th t = MHold o -> read_result zero o m = Some r ->
    x_step (XS m false c rw th) (t, Some (Lin t o r)) (XS m false c rw (tset th t (MRel o r)))
(** 41-43, 51-53 *)
| xs_range m c rw th t o l : th t = MHold o -> iter_result o [] <> None -> l ≡ₚ map_to_list m ->
    x_step (XS m false c rw th) (t, None) (XS m false c rw (tset th t (MIter o m l [])))
| xs_next m c rw th t o p rest dn : th t = MIter o m (p :: rest) dn ->
    x_step (XS m false c rw th) (t, None) (XS m false c rw (tset th t (MIter o m rest (dn ++ [p]))))
| xs_next_stale m m0 c rw th t o rest rest' dn p : m <> m0 -> th t = MIter o m0 rest dn ->
    x_step (XS m false c rw th) (t, None) (XS m false c rw (tset th t (MIter o m0 rest' (dn ++ [p]))))
| xs_range_end m tn c rw th t o m0 dn r : th t = MIter o m0 [] dn -> iter_result o dn = Some r ->
    x_step (XS m tn c rw th) (t, Some (Lin t o r)) (XS m tn c rw (tset th t (MRel o r)))
(** 60, 66, 72 *)
| xs_write_begin m c rw th t o : th t = MHold o -> is_write o = true ->
    x_step (XS m false c rw th) (t, None) (XS m true c rw (tset th t (MWriting o)))
| xs_write_end m tn c rw th t o m' : th t = MWriting o -> write_result o m = Some m' ->
    x_step (XS m tn c rw th) (t, Some (Lin t o RetU)) (XS m' false c rw (tset th t (MRel o RetU)))
(** the runtime's check *)
| xs_race m c rw th t o : (th t = MHold o \/ exists m0 p rest dn, th t = MIter o m0 (p :: rest) dn) ->
    x_step (XS m true c rw th) (t, None) (XS m true true rw th)
(** 20, 27, 34, 44, 54: RUnlock; 61, 67, 73: Unlock: their first step, and the others *)
| xs_unlock m tn c rw th t o r rw' : th t = MRel o r -> rw_pc rw t <> PIdle -> rw_step N rw t rw' ->
    x_step (XS m tn c rw th) (t, None) (XS m tn c rw' (tset th t (MRet o r)))
| xs_unlocking m tn c rw th t o r rw' : th t = MRet o r -> rw_pc rw t <> PIdle -> rw_step N rw t rw' ->
    x_step (XS m tn c rw th) (t, None) (XS m tn c rw' th)
(** 21, 28, 35, 45, 55, 62, 68, 74 *)
| xs_return m tn c rw th t o r : th t = MRet o r -> rw_pc rw t = PIdle ->
    x_step (XS m tn c rw th) (t, Some (Rsp t o r)) (XS m tn c rw (tset th t MIdle)).
(** what a sequence of steps tells; the calls and returns of syncmapx.go 17-74 *)
Definition x_events (ls : list lab) : list (lev (mop K V) (mret K V)) := omap snd ls.
End Model.
Arguments xstate K V {_ _}.
