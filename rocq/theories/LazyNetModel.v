(** functionalx/lazyx/lazy.go: several Lazies whose constructors call Get of each other. The
    steps are those of LazyReModel, for any number of Lazies. Simplified: the mutex of a Once
    has an owner or none (its code: C190, C194); a constructor is called once (proved), so
    that it does not depend on the number of the call. *)
From Verif Require Import Base Conc.

Section Model.
Context {A : Type} (zero : A).
(** what a goroutine or a constructor does: return, panic, or call Get of Lazy j and go on;
    lazy.go 14, 19: ctor *)
Inductive gcode := GRet (v : A) | GPanic | GGet (j : nat) (k : A -> gcode).
(** lazy.go 5-9: the constructor of each Lazy *)
Context (ctor : nat -> gcode).
(** where a goroutine is in lazy.go 17-23, for the Lazy of its innermost call of Get; VRun:
    in the constructor of that Lazy, or in its own code if it is in no call *)
Inductive vpc :=
| VRun (c : gcode)
| VLoad                 (* once.go: about to load done *)
| VWait                 (* once.go: m.Lock() *)
| VCheck                (* once.go: holds m, re-reads done *)
| VAssign (v : A)       (* lazy.go 19: l.value = v *)
| VSetDone (ok : bool)  (* deferred StoreUint32(&o.done, 1); ok=false: unwinding a panic *)
| VUnlock (ok : bool)   (* deferred m.Unlock() *)
| VRead                 (* lazy.go 22: return l.value *)
| VPanicked.            (* Get panics *)
(** a goroutine and its calls of Get, innermost first: the Lazy, and what the caller does
    with the value; lazy.go 17 *)
Record vthr := VT { v_pc : vpc; v_in : list (nat * (A -> gcode)) }.
(** lazy.go 11-15 for each Lazy, how often its constructor was called, and the goroutines *)
Record vstate := VS { g_done : nat -> bool; g_mu : nat -> option nat; g_val : nat -> A; g_calls : nat -> nat; g_th : nat -> vthr }.
(** lazy.go 5-9; goroutine t is about to execute main t *)
Definition v_init (main : nat -> gcode) : vstate := VS (fun _ => false) (fun _ => None) (fun _ => zero) (fun _ => 0) (fun t => VT (VRun (main t)) []).
(** the steps of lazy.go 17-23 (Get) *)
Inductive v_step : vstate -> nat -> vstate -> Prop :=
| vs_call d m v c th t j k st : th t = VT (VRun (GGet j k)) st -> v_step (VS d m v c th) t (VS d m v c (tset th t (VT VLoad ((j, k) :: st))))
| vs_load d m v c th t j k st : th t = VT VLoad ((j, k) :: st) -> v_step (VS d m v c th) t (VS d m v c (tset th t (VT (if d j then VRead else VWait) ((j, k) :: st))))
| vs_lock d m v c th t j k st : th t = VT VWait ((j, k) :: st) -> m j = None -> v_step (VS d m v c th) t (VS d (tset m j (Some t)) v c (tset th t (VT VCheck ((j, k) :: st))))
| vs_check_done d m v c th t j k st : th t = VT VCheck ((j, k) :: st) -> d j = true -> v_step (VS d m v c th) t (VS d m v c (tset th t (VT (VUnlock true) ((j, k) :: st))))
| vs_check_run d m v c th t j k st : th t = VT VCheck ((j, k) :: st) -> d j = false -> v_step (VS d m v c th) t (VS d m v (tset c j (S (c j))) (tset th t (VT (VRun (ctor j)) ((j, k) :: st))))
| vs_ret d m v c th t j k st x : th t = VT (VRun (GRet x)) ((j, k) :: st) -> v_step (VS d m v c th) t (VS d m v c (tset th t (VT (VAssign x) ((j, k) :: st))))
| vs_panic d m v c th t j k st : th t = VT (VRun GPanic) ((j, k) :: st) -> v_step (VS d m v c th) t (VS d m v c (tset th t (VT (VSetDone false) ((j, k) :: st))))
| vs_assign d m v c th t j k st x : th t = VT (VAssign x) ((j, k) :: st) -> v_step (VS d m v c th) t (VS d m (tset v j x) c (tset th t (VT (VSetDone true) ((j, k) :: st))))
| vs_set_done d m v c th t j k st ok : th t = VT (VSetDone ok) ((j, k) :: st) -> v_step (VS d m v c th) t (VS (tset d j true) m v c (tset th t (VT (VUnlock ok) ((j, k) :: st))))
| vs_unlock d m v c th t j k st ok : th t = VT (VUnlock ok) ((j, k) :: st) -> v_step (VS d m v c th) t (VS d (tset m j None) v c (tset th t (VT (if ok then VRead else VPanicked) ((j, k) :: st))))
(** Get returns to its caller, or panics there *)
| vs_read d m v c th t j k st : th t = VT VRead ((j, k) :: st) -> v_step (VS d m v c th) t (VS d m v c (tset th t (VT (VRun (k (v j))) st)))
| vs_panicked d m v c th t j k st : th t = VT VPanicked ((j, k) :: st) -> v_step (VS d m v c th) t (VS d m v c (tset th t (VT (VRun GPanic) st))).
End Model.
Arguments gcode : clear implicits.
Arguments vpc : clear implicits.
Arguments vthr : clear implicits.
Arguments vstate : clear implicits.
