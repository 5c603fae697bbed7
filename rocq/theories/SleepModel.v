(** Model of timex/sleepx/sleepx.go:
    one Sleeper used by any number of goroutines.  A context made by
    context.WithCancel is a number; [c_cancelled] says which are cancelled (their
    Done channel is closed).  The plain fields s.ctx and s.cancel are read and
    written in one step each.  [c_now] is the clock, in nanoseconds. *)
From Verif Require Import Base Conc TimeModel TimeProofs.
Local Open Scope Z.

(** which method, and its argument; sleepx.go 29, 45, 61 *)
Inductive skind := KFor (d : Z) | KUntil (t : Z) | KForever.
(** sleepx.go 37: time.After(time.Duration(d) * time.Second); 53: time.After(t.Sub(timex.Now()));
    67-72: no timer *)
Definition delay (k : skind) (now : Z) : option Z :=
  match k with
  | KFor d => Some (i64 (d * second))
  | KUntil t => Some (clamp (t - now))
  | KForever => None
  end.
(** sleepx.go 37, 53: whether the channel of time.After has something *)
Definition timer_fired (k : skind) (t0 now : Z) : Prop :=
  match delay k t0 with Some d => t0 + d <= now | None => False end.

(** where a goroutine is in sleepx.go 29-82 *)
Inductive spc :=
| SIdle
| SCas (k : skind)                        (* 30, 46, 62: slept.CompareAndSwap(false, true) *)
| SDone (k : skind)                       (* 34, 50, 66: done := s.ctx.Done() *)
| SWait (k : skind) (e : nat) (t0 : Z)    (* 36-41, 52-57, 68-71: the select, entered at time t0, on context e *)
| SStore (k : skind) (e : nat) (t0 : Z)   (* 33, 49, 65: the deferred slept.Store(false) *)
| WLoad                                   (* 76: slept.Load() *)
| WRead                                   (* 79: read s.cancel *)
| WCancel (e : nat)                       (* 79: cancel() *)
| WCtx                                    (* 80: make a new context, s.ctx = it *)
| WCan (e : nat).                         (* 80: s.cancel = its cancel function *)
Inductive slab := LSleep (t : nat) (k : skind) | LSlept (t : nat) (b : bool)
                | LWake (t : nat) | LWoke (t : nat) (b : bool) | LTau (t : nat) | LTick.
(** sleepx.go 11-18, the contexts, the clock, and where the goroutines are *)
Record cstate := CS { c_slept : bool; c_ctx : nat; c_cancel : nat; c_next : nat;
                      c_cancelled : nat -> bool; c_now : Z; c_th : nat -> spc }.
(** New, sleepx.go 20-27 *)
Definition c_init (now : Z) : cstate := CS false 0 0 1 (fun _ => false) now (fun _ => SIdle).

(** the steps of sleepx.go 29-82 *)
Inductive c_step : cstate -> slab -> cstate -> Prop :=
| cs_tick sl x c n f now now' th : now <= now' -> c_step (CS sl x c n f now th) LTick (CS sl x c n f now' th)
| cs_sleep sl x c n f now th t k : th t = SIdle ->
    c_step (CS sl x c n f now th) (LSleep t k) (CS sl x c n f now (tset th t (SCas k)))
| cs_cas_fail x c n f now th t k : th t = SCas k ->
    c_step (CS true x c n f now th) (LSlept t false) (CS true x c n f now (tset th t SIdle))
| cs_cas_ok x c n f now th t k : th t = SCas k ->
    c_step (CS false x c n f now th) (LTau t) (CS true x c n f now (tset th t (SDone k)))
| cs_done sl x c n f now th t k : th t = SDone k ->
    c_step (CS sl x c n f now th) (LTau t) (CS sl x c n f now (tset th t (SWait k x now)))
| cs_timer sl x c n f now th t k e t0 : th t = SWait k e t0 -> timer_fired k t0 now ->
    c_step (CS sl x c n f now th) (LTau t) (CS sl x c n f now (tset th t (SStore k e t0)))
| cs_woken sl x c n f now th t k e t0 : th t = SWait k e t0 -> f e = true ->
    c_step (CS sl x c n f now th) (LTau t) (CS sl x c n f now (tset th t (SStore k e t0)))
| cs_store sl x c n f now th t k e t0 : th t = SStore k e t0 ->
    c_step (CS sl x c n f now th) (LSlept t true) (CS false x c n f now (tset th t SIdle))
| cs_wake sl x c n f now th t : th t = SIdle ->
    c_step (CS sl x c n f now th) (LWake t) (CS sl x c n f now (tset th t WLoad))
| cs_load_false x c n f now th t : th t = WLoad ->
    c_step (CS false x c n f now th) (LWoke t false) (CS false x c n f now (tset th t SIdle))
| cs_load_true x c n f now th t : th t = WLoad ->
    c_step (CS true x c n f now th) (LTau t) (CS true x c n f now (tset th t WRead))
| cs_read sl x c n f now th t : th t = WRead ->
    c_step (CS sl x c n f now th) (LTau t) (CS sl x c n f now (tset th t (WCancel c)))
| cs_cancel sl x c n f now th t e : th t = WCancel e ->
    c_step (CS sl x c n f now th) (LTau t) (CS sl x c n (tset f e true) now (tset th t WCtx))
| cs_ctx sl x c n f now th t : th t = WCtx ->
    c_step (CS sl x c n f now th) (LTau t) (CS sl n c (S n) f now (tset th t (WCan n)))
| cs_can sl x c n f now th t e : th t = WCan e ->
    c_step (CS sl x c n f now th) (LWoke t true) (CS sl x e n f now (tset th t SIdle)).
