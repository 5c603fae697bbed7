(** A TimedPool declared with var: maxWorkers 0, stop nil, no handler, no collector. *)
From Verif Require Import Base Conc PoolModel.
Local Open Scope Z.

(** timedpool.go 18-30 *)
Definition p_zero (clock : Z) : pstate :=
  PS 0 false 0 [] [] (fun _ => None) (fun _ => 0) 0 0 0 (fun _ => None) (fun _ => false) (fun _ => GNone) (fun _ => JIdle)
     (fun _ => SIdle) CDead clock (fun _ => O) (fun _ => OFree).
