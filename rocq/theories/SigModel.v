(** osx/closex/closex.go: HandleKillSig called any number of times in one process.  Written
    out: the signals that the runtime keeps (one of each kind), the goroutine of os/signal that
    hands a kept signal to the channels registered with Notify, in the order of a map, without
    waiting; and the goroutines of closex.go 21-27.  The logger may be nil, and handlers
    may return, panic or leave by runtime.Goexit.  Signals other than the three, signal.Stop,
    and code that closes or receives from C are not modelled. *)
From Verif Require Import Base Conc.

(** closex.go 20 *)
Inductive sg := SigInt | SigQuit | SigTerm.
Global Instance sg_eq_dec : EqDecision sg.
Proof. solve_decision. Defined.
(** how a run of the handler ends, closex.go 24 *)
Inductive hres := HRet | HPanic | HExit.
(** where the goroutine of closex.go 21-27 is: 22, 23, 24 before the call, 24 in the call, 25; ended *)
Inductive gpc := GWait | GLog | GCall | GIn | GShut | GGone.
(** closex.go 15-18, 21-27 for one call of HandleKillSig: the buffer of sigChannel, the goroutine,
    whether C is closed, and (not code) how often the handler has been begun *)
Record gor := G { g_buf : bool; g_pc : gpc; g_closed : bool; g_ran : nat }.
(** closex.go 14-29: how many calls there have been, their goroutines, the signals the runtime
    keeps, the channels that the goroutine of os/signal has still to serve (None: it is waiting),
    whether the process has ended; and (not code) how many signals have been sent *)
Record sst := SS { s_n : nat; s_gor : nat -> gor; s_pend : sg -> bool; s_todo : option (list nat); s_dead : bool; s_sigs : nat }.
(** before the first call of HandleKillSig, closex.go 14 *)
Definition s_init : sst := SS 0 (fun _ => G false GWait false 0) (fun _ => false) None false 0.
(** closex.go 20, 24: what is seen of a step *)
Inductive slab := LReg (i : nat) | LSig (x : sg) | LBegin (i : nat) | LEnd (i : nat) | LSTau.

Section step.
(** closex.go 14: for each call of HandleKillSig, whether the logger is nil, and what each run of its handler does *)
Context (lognil : nat -> bool) (hout : nat -> nat -> hres).
(** closex.go 14-29 *)
Inductive s_step : sst -> slab -> sst -> Prop :=
(* 15-21; Notify waits for the lock that the goroutine of os/signal holds while it hands out a signal *)
| ss_reg n gr p k : s_step (SS n gr p None false k) (LReg n) (SS (S n) gr p None false k)
(* a signal arrives: without Notify it ends the process *)
| ss_kill gr p td k x : s_step (SS 0 gr p td false k) (LSig x) (SS 0 gr p td true (S k))
| ss_sig n gr p td k x : n <> 0 -> s_step (SS n gr p td false k) (LSig x) (SS n gr (fun y => if decide (y = x) then true else p y) td false (S k))
(* os/signal: loop and process *)
| ss_take n gr p k x : p x = true -> s_step (SS n gr p None false k) LSTau (SS n gr (fun y => if decide (y = x) then false else p y) (Some (seq 0 n)) false k)
| ss_deliver n gr p k l1 i l2 b c pc r : gr i = G b pc c r ->
    s_step (SS n gr p (Some (l1 ++ i :: l2)) false k) LSTau (SS n (tset gr i (G true pc c r)) p (Some (l1 ++ l2)) false k)
| ss_delivered n gr p k : s_step (SS n gr p (Some []) false k) LSTau (SS n gr p None false k)
(* 22 *)
| ss_recv n gr p td k i c r : gr i = G true GWait c r -> s_step (SS n gr p td false k) LSTau (SS n (tset gr i (G false GLog c r)) p td false k)
(* 23 *)
| ss_log n gr p td k i b c r : gr i = G b GLog c r -> lognil i = false -> s_step (SS n gr p td false k) LSTau (SS n (tset gr i (G b GCall c r)) p td false k)
| ss_lognil n gr p td k i b c r : gr i = G b GLog c r -> lognil i = true -> s_step (SS n gr p td false k) LSTau (SS n gr p td true k)
(* 24 *)
| ss_begin n gr p td k i b c r : gr i = G b GCall c r -> s_step (SS n gr p td false k) (LBegin i) (SS n (tset gr i (G b GIn c (S r))) p td false k)
| ss_end n gr p td k i b c r : gr i = G b GIn c (S r) -> hout i r = HRet -> s_step (SS n gr p td false k) (LEnd i) (SS n (tset gr i (G b GShut c (S r))) p td false k)
| ss_panic n gr p td k i b c r : gr i = G b GIn c (S r) -> hout i r = HPanic -> s_step (SS n gr p td false k) LSTau (SS n gr p td true k)
| ss_exit n gr p td k i b c r : gr i = G b GIn c (S r) -> hout i r = HExit -> s_step (SS n gr p td false k) LSTau (SS n (tset gr i (G b GGone c (S r))) p td false k)
(* 25: close of a closed channel panics, which ends the process *)
| ss_close n gr p td k i b r : gr i = G b GShut false r -> s_step (SS n gr p td false k) LSTau (SS n (tset gr i (G b GWait true r)) p td false k)
| ss_crash n gr p td k i b r : gr i = G b GShut true r -> s_step (SS n gr p td false k) LSTau (SS n gr p td true k).
End step.
