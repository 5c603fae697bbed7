(** syncx/lockx/lockx.go: Lock on several objects, by callbacks that call Lock themselves.
    Each object is one whose first word is its own address, and callbacks leave that word
    alone; for other objects see LockModel. Simplified: CompareAndSwapPointer is one step,
    Gosched is none. *)
From Verif Require Import Base Conc.

(** what a goroutine, or a callback, does with lockx.go 9: return, panic, or call
    Lock(o, f) and go on with k *)
Inductive ncode := NEnd | NPanic | NLock (o : nat) (f k : ncode).
(** where a goroutine is in lockx.go 9-19 *)
Inductive npc :=
| NRun (c : ncode)              (* its own code, or that of the innermost callback, 15 *)
| NTry (o : nat) (f k : ncode)  (* 11: the loop that takes the object *)
| NRel                          (* 16: the loop that gives the object of the innermost call back *)
| NDead.                        (* a callback has panicked: nothing is deferred *)
(** the calls of Lock whose callback is running, innermost first: the object, and what
    comes after the call; lockx.go 15 *)
Record nthr := NT { n_pc : npc; n_in : list (nat * ncode) }.
(** lockx.go 11, 16: which objects have nil as their first word, and the goroutines *)
Record nstate := NS { n_nil : nat -> bool; n_th : nat -> nthr }.
(** no object is taken; goroutine t is about to execute main t (lockx.go 9) *)
Definition n_init (main : nat -> ncode) : nstate := NS (fun _ => false) (fun t => NT (NRun (main t)) []).
(** what a step is: lockx.go 9, 15, 15 (the callback returns), 17-18, 12 and 17, a panic *)
Inductive nev := NvCall | NvEnter (o : nat) | NvReturn | NvRelease (o : nat) | NvSpin | NvPanic.
(** the steps of lockx.go 9-19 *)
Inductive n_step : nstate -> nat * nev -> nstate -> Prop :=
(* 9-10 *)
| ns_call w th t o f k fr : th t = NT (NRun (NLock o f k)) fr -> n_step (NS w th) (t, NvCall) (NS w (tset th t (NT (NTry o f k) fr)))
(* 11, 15 *)
| ns_enter w th t o f k fr : th t = NT (NTry o f k) fr -> w o = false ->
    n_step (NS w th) (t, NvEnter o) (NS (tset w o true) (tset th t (NT (NRun f) ((o, k) :: fr))))
(* 11-13 *)
| ns_fail w th t o f k fr : th t = NT (NTry o f k) fr -> w o = true -> n_step (NS w th) (t, NvSpin) (NS w th)
(* 15: f returns *)
| ns_return w th t o k fr : th t = NT (NRun NEnd) ((o, k) :: fr) -> n_step (NS w th) (t, NvReturn) (NS w (tset th t (NT NRel ((o, k) :: fr))))
(* 16, 19 *)
| ns_release w th t o k fr : th t = NT NRel ((o, k) :: fr) -> w o = true ->
    n_step (NS w th) (t, NvRelease o) (NS (tset w o false) (tset th t (NT (NRun k) fr)))
(* 16-18 *)
| ns_stuck w th t o k fr : th t = NT NRel ((o, k) :: fr) -> w o = false -> n_step (NS w th) (t, NvSpin) (NS w th)
(* 15: f panics; neither 16 nor what follows is executed *)
| ns_panic w th t fr : th t = NT (NRun NPanic) fr -> n_step (NS w th) (t, NvPanic) (NS w (tset th t (NT NDead fr))).
