(** A syncmapx.Map, a TimedPool and a Sleeper declared with var, used by any number of
    goroutines. *)
From stdpp Require Import gmap.
From Verif Require Import Base Conc Lin SyncMapModel.

(** *** syncmapx.go: the map is nil until a Clear has made one (72).  A nil map can be
    read, ranged over and deleted from; a Set panics at 60, with the lock held. *)
Section Map.
Context {K V : Type} `{Countable K} (zero : V).
(** syncmapx.go 6-9 *)
Record zmap := ZM { z_nil : bool; z_dead : option nat; z_s : mstate K V }.
(** syncmapx.go 6-9: the zero Map *)
Definition zm_zero : zmap := ZM true None m_new.
(** syncmapx.go 70-74: everything but Clear leaves the field nil *)
Definition keeps_nil (e : option (lev (mop K V) (mret K V))) : bool :=
  match e with Some (Lin _ MClear _) => false | _ => true end.
(** the steps of syncmapx.go 17-74 *)
Inductive zm_step : zmap -> option (lev (mop K V) (mret K V)) + nat -> zmap -> Prop :=
| zm_run b d s e s' : m_step zero s e s' ->
    (b = true -> forall t k v, m_th s t = MHold (MSet k v) -> m_th s' t = MHold (MSet k v)) ->
    zm_step (ZM b d s) (inl e) (ZM (b && keeps_nil e) d s')
| zm_panic s t k v : m_th s t = MHold (MSet k v) ->
    zm_step (ZM true None s) (inr t) (ZM true (Some t) s).
End Map.
Arguments zmap K V {_ _}.

(** *** sleepx.go: s.ctx is a nil interface (34, 50, 66), s.cancel a nil function (79).
    The deferred Store (33, 49, 65) still happens. *)
Inductive zpc :=
| ZIdle
| ZCas        (* 30, 46, 62: slept.CompareAndSwap(false, true) *)
| ZDone       (* 34, 50, 66: s.ctx.Done() panics *)
| ZStore      (* 33, 49, 65: slept.Store(false), while panicking *)
| ZLoad       (* 76: slept.Load() *)
| ZCancel.    (* 79: s.cancel() panics *)
Inductive zlab := ZLSleep (t : nat) | ZLSlept (t : nat) (r : res bool) | ZLWake (t : nat) | ZLWoke (t : nat) (r : res bool) | ZLTau (t : nat).
(** sleepx.go 11-18, and where the goroutines are *)
Record zsleeper := ZS { z_slept : bool; z_th : nat -> zpc }.
(** sleepx.go 11-18: the zero Sleeper *)
Definition zs_zero : zsleeper := ZS false (fun _ => ZIdle).
(** the steps of sleepx.go 29-82 *)
Inductive zs_step : zsleeper -> zlab -> zsleeper -> Prop :=
| zs_sleep b th t : th t = ZIdle -> zs_step (ZS b th) (ZLSleep t) (ZS b (tset th t ZCas))
| zs_cas_fail th t : th t = ZCas -> zs_step (ZS true th) (ZLSlept t (Ret false)) (ZS true (tset th t ZIdle))
| zs_cas_ok th t : th t = ZCas -> zs_step (ZS false th) (ZLTau t) (ZS true (tset th t ZDone))
| zs_done b th t : th t = ZDone -> zs_step (ZS b th) (ZLTau t) (ZS b (tset th t ZStore))
| zs_store b th t : th t = ZStore -> zs_step (ZS b th) (ZLSlept t Panic) (ZS false (tset th t ZIdle))
| zs_wake b th t : th t = ZIdle -> zs_step (ZS b th) (ZLWake t) (ZS b (tset th t ZLoad))
| zs_load_false th t : th t = ZLoad -> zs_step (ZS false th) (ZLWoke t (Ret false)) (ZS false (tset th t ZIdle))
| zs_load_true th t : th t = ZLoad -> zs_step (ZS true th) (ZLTau t) (ZS true (tset th t ZCancel))
| zs_cancel b th t : th t = ZCancel -> zs_step (ZS b th) (ZLWoke t Panic) (ZS b (tset th t ZIdle)).
