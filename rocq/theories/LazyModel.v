(** Model of functionalx/lazyx/lazy.go, with sync.Once as in Go's sync/once.go:

      func (o *Once) Do(f func()) { if atomic.LoadUint32(&o.done) == 0 { o.doSlow(f) } }
      func (o *Once) doSlow(f func()) {
          o.m.Lock(); defer o.m.Unlock()
          if o.done == 0 { defer atomic.StoreUint32(&o.done, 1); f() }
      }

    Any number of goroutines (thread numbers) call Get any number of times; each
    atomic access is one step.  [ctor n] is the outcome of the n-th call of the
    caller's constructor: it may differ from call to call, panic, or never return
    ([Spin]).  A constructor that itself calls Get is in LazyReModel.v. *)
From Verif Require Import Base Conc.

Section Model.
Context {A : Type} (zero : A) (ctor : nat -> res A).

(** where a goroutine is in lazy.go 17-23 *)
Inductive lpc :=
| LIdle                 (* not in a call *)
| LLoad                 (* once.go: about to load done *)
| LWait                 (* once.go: m.Lock() *)
| LCheck                (* once.go: holds m, re-reads done *)
| LRun (n : nat)        (* lazy.go 19: the n-th call of l.ctor() is running *)
| LAssign (v : A)       (* lazy.go 19: l.value = v *)
| LSetDone (ok : bool)  (* deferred StoreUint32(&o.done, 1); ok=false: unwinding a panic *)
| LUnlock (ok : bool)   (* deferred m.Unlock() *)
| LRead                 (* lazy.go 22: return l.value *)
| LRet (v : A)          (* Get has returned v *)
| LPanicked.            (* Get has panicked *)

(** lazy.go 11-15, and where the goroutines are *)
Record lstate := LS { l_done : bool; l_mutex : option nat; l_value : A; l_calls : nat; l_th : nat -> lpc }.
(** lazy.go 5-9: New *)
Definition l_new : lstate := LS false None zero 0 (fun _ => LIdle).

(** the steps of lazy.go 17-23 (Get) *)
Inductive l_step : lstate -> nat -> lstate -> Prop :=
| ls_call d m v c th t : (th t = LIdle \/ (exists x, th t = LRet x) \/ th t = LPanicked) ->
    l_step (LS d m v c th) t (LS d m v c (tset th t LLoad))
| ls_load d m v c th t : th t = LLoad ->
    l_step (LS d m v c th) t (LS d m v c (tset th t (if d then LRead else LWait)))
| ls_lock d v c th t : th t = LWait ->
    l_step (LS d None v c th) t (LS d (Some t) v c (tset th t LCheck))
| ls_check_done m v c th t : th t = LCheck ->
    l_step (LS true m v c th) t (LS true m v c (tset th t (LUnlock true)))
| ls_check_run m v c th t : th t = LCheck ->
    l_step (LS false m v c th) t (LS false m v (S c) (tset th t (LRun c)))
| ls_ctor_ret d m v c th t n x : th t = LRun n -> ctor n = Ret x ->
    l_step (LS d m v c th) t (LS d m v c (tset th t (LAssign x)))
| ls_ctor_panic d m v c th t n : th t = LRun n -> ctor n = Panic ->
    l_step (LS d m v c th) t (LS d m v c (tset th t (LSetDone false)))
| ls_assign d m v c th t x : th t = LAssign x ->
    l_step (LS d m v c th) t (LS d m x c (tset th t (LSetDone true)))
| ls_set_done d m v c th t ok : th t = LSetDone ok ->
    l_step (LS d m v c th) t (LS true m v c (tset th t (LUnlock ok)))
| ls_unlock d m v c th t ok : th t = LUnlock ok ->
    l_step (LS d m v c th) t (LS d None v c (tset th t (if ok then LRead else LPanicked)))
| ls_read d m v c th t : th t = LRead ->
    l_step (LS d m v c th) t (LS d m v c (tset th t (LRet v))).
End Model.
Arguments lpc : clear implicits.
Arguments lstate : clear implicits.
