(** Model of functionalx/lazyx/lazy.go when the constructor itself calls Get, with
    sync.Once as in LazyModel.v: the constructor runs while the goroutine holds the
    mutex of the Once, and [done] is stored after it has returned. *)
From Verif Require Import Base Conc.

Section Model.
Context {A : Type} (zero : A).
(** what the constructor does: return, panic, or call Get of this Lazy and go on;
    lazy.go 14, 19: ctor *)
Inductive lcode := LCRet (v : A) | LCPanic | LCGet (k : A -> lcode).
(** the n-th call of the constructor *)
Context (ctor : nat -> lcode).

(** where a goroutine is in lazy.go 17-23 *)
Inductive rpc :=
| RIdle
| RLoad                 (* once.go: about to load done *)
| RWait                 (* once.go: m.Lock() *)
| RCheck                (* once.go: holds m, re-reads done *)
| RRun (c : lcode)      (* lazy.go 19: inside l.ctor() *)
| RAssign (v : A)       (* lazy.go 19: l.value = v *)
| RSetDone (ok : bool)  (* deferred StoreUint32(&o.done, 1); ok=false: unwinding a panic *)
| RUnlock (ok : bool)   (* deferred m.Unlock() *)
| RRead                 (* lazy.go 22: return l.value *)
| RRet (v : A)          (* Get has returned v to code outside of the constructor *)
| RPanicked.
(** a goroutine, and the calls of Get it is inside of whose constructor has called Get,
    innermost first; lazy.go 19 *)
Record rthr := RThr { r_pc : rpc; r_in : list (A -> lcode) }.
(** lazy.go 11-15, and the goroutines *)
Record rstate := RS { r_done : bool; r_mutex : option nat; r_value : A; r_calls : nat; r_th : nat -> rthr }.
(** lazy.go 5-9: New *)
Definition r_new : rstate := RS false None zero 0 (fun _ => RThr RIdle []).

(** the steps of lazy.go 17-23 (Get) *)
Inductive r_step : rstate -> nat -> rstate -> Prop :=
| rs_call d m v c th t : (th t = RThr RIdle [] \/ (exists x, th t = RThr (RRet x) []) \/ th t = RThr RPanicked []) ->
    r_step (RS d m v c th) t (RS d m v c (tset th t (RThr RLoad [])))
| rs_load d m v c th t st : th t = RThr RLoad st ->
    r_step (RS d m v c th) t (RS d m v c (tset th t (RThr (if d then RRead else RWait) st)))
| rs_lock d v c th t st : th t = RThr RWait st ->
    r_step (RS d None v c th) t (RS d (Some t) v c (tset th t (RThr RCheck st)))
| rs_check_done m v c th t st : th t = RThr RCheck st ->
    r_step (RS true m v c th) t (RS true m v c (tset th t (RThr (RUnlock true) st)))
| rs_check_run m v c th t st : th t = RThr RCheck st ->
    r_step (RS false m v c th) t (RS false m v (S c) (tset th t (RThr (RRun (ctor c)) st)))
| rs_ctor_ret d m v c th t st x : th t = RThr (RRun (LCRet x)) st ->
    r_step (RS d m v c th) t (RS d m v c (tset th t (RThr (RAssign x) st)))
| rs_ctor_panic d m v c th t st : th t = RThr (RRun LCPanic) st ->
    r_step (RS d m v c th) t (RS d m v c (tset th t (RThr (RSetDone false) st)))
| rs_ctor_get d m v c th t st k : th t = RThr (RRun (LCGet k)) st ->
    r_step (RS d m v c th) t (RS d m v c (tset th t (RThr RLoad (k :: st))))
| rs_assign d m v c th t st x : th t = RThr (RAssign x) st ->
    r_step (RS d m v c th) t (RS d m x c (tset th t (RThr (RSetDone true) st)))
| rs_set_done d m v c th t st ok : th t = RThr (RSetDone ok) st ->
    r_step (RS d m v c th) t (RS true m v c (tset th t (RThr (RUnlock ok) st)))
| rs_unlock d m v c th t st ok : th t = RThr (RUnlock ok) st ->
    r_step (RS d m v c th) t (RS d None v c (tset th t (RThr (if ok then RRead else RPanicked) st)))
| rs_read d m v c th t : th t = RThr RRead [] ->
    r_step (RS d m v c th) t (RS d m v c (tset th t (RThr (RRet v) [])))
(** the inner Get returns to the constructor, or panics there *)
| rs_read_in d m v c th t k st : th t = RThr RRead (k :: st) ->
    r_step (RS d m v c th) t (RS d m v c (tset th t (RThr (RRun (k v)) st)))
| rs_panicked_in d m v c th t k st : th t = RThr RPanicked (k :: st) ->
    r_step (RS d m v c th) t (RS d m v c (tset th t (RThr (RRun LCPanic) st))).
End Model.
Arguments lcode : clear implicits.
Arguments rpc : clear implicits.
Arguments rthr : clear implicits.
Arguments rstate : clear implicits.
