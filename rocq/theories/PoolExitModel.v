(** poolx/gopoolx/timedpool.go with handlers that may end their goroutine
    (runtime.Goexit, as testing.T.FailNow does): line 34 does not return, and neither
    free (35) nor the end of tworker (40-42) is reached, since nothing there is deferred.
    The pool itself is PoolModel; a goroutine that is gone stays where it was, in its
    handler, and makes no step.  (A handler that panics ends the whole program.) *)
From Verif Require Import Base Conc PoolModel.
Local Open Scope Z.

Section M.
Context (idle : Z).
(** the pool, and which goroutines are gone; timedpool.go 13-30, 32 *)
Definition xstate : Type := pstate * (nat -> bool).
(** the steps of timedpool.go 32-220, and runtime.Goexit at 34 *)
Inductive exit_step : xstate -> plab -> xstate -> Prop :=
| xe_pool s d l s' : p_step idle s l s' -> (forall g, d g = true -> p_gor s' g = p_gor s g) -> exit_step (s, d) l (s', d)
(* 34: pool.handler(v) calls runtime.Goexit *)
| xe_exit s d g w c t : p_gor s g = GHandle w c t -> d g = false -> exit_step (s, d) LPTau (s, tset d g true).
End M.
(** timedpool.go 45-129: start *)
Definition exit_init (maxw : Z) (n : nat) (tts : nat -> Z) (clock : Z) : xstate := (p_init maxw n tts clock, fun _ => false).
