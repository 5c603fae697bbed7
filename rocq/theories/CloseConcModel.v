(** Model of iox/managerx/closex/manager.go under concurrency: any number of goroutines,
    the mutex, and closers that themselves call the manager (Close runs the closers while
    it holds the mutex).  sync.Mutex: Lock waits until the mutex is free, also when the
    caller is the one that holds it. *)
From Verif Require Import Base Conc.

Section Model.
(** errors *)
Context {E : Type}.
(** what a goroutine, or the Close of a closer, does; [QClose] goes on with the list of
    errors that Close returned; the calls are those of manager.go 19-40 *)
Inductive qcode :=
| QRet (e : option E)                          (* returns e (None: nil) *)
| QPanic
| QAppend (c : nat) (k : qcode)
| QClose (k : list E -> qcode).
(** the closers of the program *)
Context (closer : nat -> qcode).

(** where a goroutine is in manager.go 19-40 *)
Inductive qpc :=
| QRun (c : qcode)                                          (* its own code *)
| QPut (c : nat) (k : qcode)                                (* 22: holds the mutex, before the append *)
| QLoop (rest : list nat) (errs : list E) (k : list E -> qcode)  (* 31: the loop *)
| QRel (c : qcode).                                         (* 21, 27: deferred Unlock *)
(** the calls of Close whose closer is running, innermost first; manager.go 32-37, the loop *)
Record qframe := QFr { q_rest : list nat; q_errs : list E; q_k : list E -> qcode }.
(** a goroutine: no code of its own, see manager.go 19-40 for what it runs *)
Record qthr := QThr { q_pc : qpc; q_in : list qframe }.
(** manager.go 14-17: the manager, and the goroutines *)
Record qstate := QS { q_list : list nat; q_mutex : option nat; q_th : nat -> qthr }.
(** manager.go 10-12 *)
Definition q_init (main : nat -> qcode) : qstate := QS [] None (fun t => QThr (QRun (main t)) []).

(** what the steps of manager.go 19-40 show to the outside *)
Inductive qev :=
| QvAppend (t : nat) (c : nat)
| QvBegin (t : nat)                            (* Close has the mutex *)
| QvClosed (t : nat) (c : nat) (e : option E)  (* the closer c has returned e *)
| QvPanic (t : nat)                            (* a closer has panicked: Close panics *)
| QvEnd (t : nat) (errs : list E).             (* Close returns errs *)

(** the steps of manager.go 19-23 (Append) and 25-40 (Close) *)
Inductive q_step : qstate -> option qev -> qstate -> Prop :=
(** 20 *)
| qs_lock_append l th t c k fr : th t = QThr (QRun (QAppend c k)) fr ->
    q_step (QS l None th) None (QS l (Some t) (tset th t (QThr (QPut c k) fr)))
(** 22 *)
| qs_append l m th t c k fr : th t = QThr (QPut c k) fr ->
    q_step (QS l m th) (Some (QvAppend t c)) (QS (l ++ [c]) m (tset th t (QThr (QRel k) fr)))
(** 26-31 *)
| qs_lock_close l th t k fr : th t = QThr (QRun (QClose k)) fr ->
    q_step (QS l None th) (Some (QvBegin t)) (QS l (Some t) (tset th t (QThr (QLoop l [] k) fr)))
(** 32: the next closer is called *)
| qs_next l m th t c rest errs k fr : th t = QThr (QLoop (c :: rest) errs k) fr ->
    q_step (QS l m th) None (QS l m (tset th t (QThr (QRun (closer c)) (QFr (c :: rest) errs k :: fr))))
(** 32-35 *)
| qs_ret l m th t e c rest errs k fr : th t = QThr (QRun (QRet e)) (QFr (c :: rest) errs k :: fr) ->
    q_step (QS l m th) (Some (QvClosed t c e)) (QS l m (tset th t (QThr (QLoop rest (errs ++ option_list e) k) fr)))
| qs_panic l m th t g fr : th t = QThr (QRun QPanic) (g :: fr) ->
    q_step (QS l m th) (Some (QvPanic t)) (QS l m (tset th t (QThr (QRel QPanic) fr)))
(** 39 *)
| qs_end l m th t errs k fr : th t = QThr (QLoop [] errs k) fr ->
    q_step (QS l m th) (Some (QvEnd t errs)) (QS l m (tset th t (QThr (QRel (k errs)) fr)))
| qs_unlock l m th t c fr : th t = QThr (QRel c) fr ->
    q_step (QS l m th) None (QS l None (tset th t (QThr (QRun c) fr))).
End Model.
Arguments qcode : clear implicits.
Arguments qpc : clear implicits.
Arguments qframe : clear implicits.
Arguments qthr : clear implicits.
Arguments qstate : clear implicits.
Arguments qev : clear implicits.
