(** poolx/gopoolx/timedpool.go with handlers that use their own pool: the handler
    of a job is a program that may call Run (and look at its result) and Stop of
    the pool it runs in.  The pool itself is PoolModel. *)
From Verif Require Import Base Conc PoolModel.
Local Open Scope Z.

(** what a handler (timedpool.go 34) does with its pool *)
Inductive hprog := HEnd | HRun (k : bool -> hprog) | HStop (k : hprog).
(** what the handler of a job is doing: nothing (not begun, or over), about to
    execute a program, inside its call number t' of Run, inside its call u of Stop;
    timedpool.go 34 *)
Inductive hstate := HNo | HAt (p : hprog) | HInRun (t' : nat) (k : bool -> hprog) | HInStop (u : nat) (k : hprog).

(** timedpool.go 34: the handler begins, or returns *)
Definition begin_or_end (l : plab) : bool := match l with LBegin _ | LEnd _ => true | _ => false end.

Section M.
Context (idle : Z) (code : nat -> hprog).   (* code t: what pool.handler does with the value of job t *)
(** timedpool.go 13-30, and what the handlers are doing *)
Definition rstate : Type := pstate * (nat -> hstate).
(** the steps of timedpool.go 32-220, the handlers (34) among them *)
Inductive re_step : rstate -> plab -> rstate -> Prop :=
| re_pool s h l s' : begin_or_end l = false -> p_step idle s l s' -> re_step (s, h) l (s', h)
(* 34: pool.handler(v) *)
| re_begin s h t s' : p_step idle s (LBegin t) s' -> re_step (s, h) (LBegin t) (s', tset h t (HAt (code t)))
| re_run s h t t' k s' : h t = HAt (HRun k) -> p_step idle s (LCall t') s' ->
    re_step (s, h) (LCall t') (s', tset h t (HInRun t' k))
| re_ran s h t t' k ok : h t = HInRun t' k -> p_job s t' = JRet ok ->
    re_step (s, h) LPTau (s, tset h t (HAt (k ok)))
| re_stop s h t u k s' : h t = HAt (HStop k) -> p_step idle s (LStop u) s' ->
    re_step (s, h) (LStop u) (s', tset h t (HInStop u k))
| re_stopped s h t u k : h t = HInStop u k -> p_st s u = SDone -> re_step (s, h) LPTau (s, tset h t (HAt k))
| re_end s h t s' : h t = HAt HEnd -> p_step idle s (LEnd t) s' -> re_step (s, h) (LEnd t) (s', tset h t HNo).
End M.
(** timedpool.go 45-129: start *)
Definition re_init (maxw : Z) (n : nat) (tts : nat -> Z) (clock : Z) : rstate := (p_init maxw n tts clock, fun _ => HNo).

(** programs that only call Run; timedpool.go 144 *)
Fixpoint only_run (p : hprog) : Prop :=
  match p with HEnd => True | HRun k => forall b, only_run (k b) | HStop _ => False end.
