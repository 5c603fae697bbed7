(** Model of iox/usingx/using.go, iox/managerx/closex and osx/closex/closex.go.
    Things to close are numbers; what Close on one does may depend on everything
    that happened before (the log).  Errors form a tree, since errors.As unwraps. *)
From Verif Require Import Base Conc.

(** values of type error; EList is types.go 9, ErrorList *)
Inductive err := EAtom (n : nat) | EList (l : list err) | EWrap (e : err).
(** what happens, in order: the calls at using.go 20 (the body), using.go 12 and manager.go 33
    (Close) *)
Inductive ev := EvBody | EvClose (c : nat).
(** what a call of Close does: return an error (None: nil), or panic; using.go 12, manager.go 33 *)
Inductive cout := CRet (e : option err) | CPan (p : nat).
(** what the body does: return, panic, or runtime.Goexit; using.go 20 *)
Inductive bout := BRet | BPan (p : nat) | BExit.
(** how the call ends; using.go 8-22 *)
Inductive uout := URet (errs : option (list err)) | UPan (p : nat) | UExit.

Section world.
Context (oc : list ev -> nat -> cout).

(** using.go 11-15, and manager.go 31-37: the loop; None: no Close panicked *)
Fixpoint close_loop (log : list ev) (cs : list nat) (errs : list err) : list ev * list err * option nat :=
  match cs with
  | [] => (log, errs, None)
  | c :: cs =>
      match oc log c with
      | CRet None => close_loop (log ++ [EvClose c]) cs errs
      | CRet (Some e) => close_loop (log ++ [EvClose c]) cs (errs ++ [e])
      | CPan p => (log ++ [EvClose c], errs, Some p)
      end
  end.

(** using.go 7-23: the function returned by Close, called with a body *)
Definition using_close (cs : list nat) (body : bout) (log : list ev) : list ev * uout :=
  let '(log', errs, p) := close_loop (log ++ [EvBody]) cs [] in
  (log', match p, body with
         | Some p, _ => UPan p
         | None, BPan q => UPan q
         | None, BExit => UExit
         | None, BRet => URet (if decide (errs = []) then None else Some errs)
         end).

(** manager.go 14-40: the state of a CloseManager is its list.  Close returns errs,
    an ErrorList, as an error: never nil.  Append and Close run under the lock, which
    is released also when a closer panics; a closer that calls the same manager is
    in CloseConcModel.v (it blocks for ever). *)
Definition mgr_append (s : list nat) (c : nat) : list nat := s ++ [c].
(** manager.go 25-40: Close *)
Definition mgr_close (s : list nat) (log : list ev) : list ev * (option err + nat) :=
  let '(log', errs, p) := close_loop log s [] in
  (log', match p with Some p => inr p | None => inl (Some (EList errs)) end).

(** manager.go 19-40: the methods *)
Inductive mop := OpAppend (c : nat) | OpClose.
(** manager.go 19-40: how they end *)
Inductive mret := MUnit | MErr (e : option err) | MPan (p : nat).
(** manager.go 19-40: one call *)
Definition mgr_step (s : list nat * list ev) (o : mop) : (list nat * list ev) * mret :=
  match o with
  | OpAppend c => ((mgr_append s.1 c, s.2), MUnit)
  | OpClose => let '(log', r) := mgr_close s.1 s.2 in
      ((s.1, log'), match r with inl e => MErr e | inr p => MPan p end)
  end.
(** manager.go 10-12 and default.go 5-13: managers are made by New, and the functions of
    the package are methods of Default, which is the first one; Append and Close on a
    manager that was never made (a nil pointer) panic *)
Inductive gop := GNew | GOn (m : nat) (o : mop) | GPkg (o : mop).
(** default.go 5-13, manager.go 10-40: how the calls end *)
Inductive gret := GMade (m : nat) | GRet (r : mret) | GNil.
(** default.go 5: at the start there is the manager Default *)
Definition g_init (log : list ev) : list (list nat) * list ev := ([[]], log).
(** manager.go 19-40 on manager number m; on a nil pointer it panics *)
Definition g_on (s : list (list nat) * list ev) (m : nat) (o : mop) : (list (list nat) * list ev) * gret :=
  match s.1 !! m with
  | Some l => let '((l', log'), r) := mgr_step (l, s.2) o in ((<[m := l']> s.1, log'), GRet r)
  | None => (s, GNil)
  end.
(** default.go 7-13, manager.go 10-40: one call *)
Definition g_step (s : list (list nat) * list ev) (o : gop) : (list (list nat) * list ev) * gret :=
  match o with
  | GNew => ((s.1 ++ [[]], s.2), GMade (length s.1))
  | GOn m o => g_on s m o
  | GPkg o => g_on s 0 o
  end.
End world.

(** types.go 23-30: errors.As with target *ErrorList *)
Fixpoint as_errs (e : err) : option (list err) :=
  match e with EList l => Some l | EWrap e => as_errs e | EAtom _ => None end.
(** types.go 23-30: AsErrs; errors.As on a nil error is false *)
Definition AsErrs (e : option err) : option (list err) := match e with Some e => as_errs e | None => None end.

(** types.go 11-21, with the type name and the message of each error given: strings are lists of code points *)
Fixpoint error_list (typ msg : err -> list Z) (buf : list Z) (l : list err) : list Z :=
  match l with
  | [] => buf
  | e :: l => error_list typ msg (((buf ++ [101; 114; 114; 111; 114; 32; 45; 32] ++ typ e ++ [10]) ++ msg e) ++ [10])%Z l
  end.

(** closex.go 14-29: HandleKillSig.  [k_buf]: the channel of signals, capacity 1, into
    which the runtime sends without blocking; [k_closed]: intr.C is closed *)
Inductive kpc := KRecv | KLog | KRun | KClose | KCrash.
(** closex.go 14-29: the buffer of sigChannel (18), the goroutine (21-27) and intr.C (16) *)
Record kstate := KS { k_buf : bool; k_pc : kpc; k_closed : bool; k_sent : nat; k_ran : nat }.
(** closex.go 14-28, when HandleKillSig has returned *)
Definition k_init : kstate := KS false KRecv false 0 0.
(** a signal arrives; a step of closex.go 21-27; handler returns *)
Inductive klab := KSignal | KTau | KHandlerDone.
(** closex.go 20-27: Notify delivers a signal, and the steps of the goroutine *)
Inductive k_step : kstate -> klab -> kstate -> Prop :=
| ks_signal b p c n r : k_step (KS b p c n r) KSignal (KS true p c (S n) r)
| ks_recv c n r : k_step (KS true KRecv c n r) KTau (KS false KLog c n r)
| ks_log b c n r : k_step (KS b KLog c n r) KTau (KS b KRun c n r)
| ks_run b c n r : k_step (KS b KRun c n r) KHandlerDone (KS b KClose c n (S r))
| ks_close b n r : k_step (KS b KClose false n r) KTau (KS b KRecv true n r)
| ks_crash b n r : k_step (KS b KClose true n r) KTau (KS b KCrash true n r).
