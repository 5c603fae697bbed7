(** Model of poolx/gopoolx/timedpool.go: one TimedPool used by any number of
    goroutines.  Names: a worker object (timedworker) and a channel are numbers;
    [p_obj w] is w.ch; job t is the call number t of Run, and stands for its value;
    goroutine g runs tworker.  Everything between mu.Lock and mu.Unlock is one step
    (all accesses to maxWorkers, workers and dobby are inside).  The handler
    returns; it does not panic. *)
From Verif Require Import Base Conc.
Local Open Scope Z.

(** tworker, 32-43, and free, 131-142 *)
Inductive gpc :=
| GNone
| GStart (w : nat)                (* 33: about to evaluate w.ch *)
| GNil (w : nat)                  (* 33: ranging over a nil channel: blocks for ever *)
| GRecv (w c : nat)               (* 33: receive from channel c *)
| GHandle (w c t : nat)           (* 34: pool.handler(v) on the value of job t *)
| GFree (w c : nat)               (* 132: w.tt = time.Now() *)
| GLock (w c : nat)               (* 133: free's critical section *)
| GExit                           (* 40-42 *)
| GDone.
(** Run, 144-173 *)
Inductive jpc := JIdle | JLock | JSend (w : nat) | JRet (ok : bool) | JPanic.
(** Stop, 207-213 *)
Inductive stpc := SIdle | SAgain | SSend | SStuck | SNil | SDone.
(** the collector goroutine, 63-128 *)
Inductive cpc :=
| CWait                              (* 70: select *)
| CDrain (ws : list nat)             (* 104: for i := range wbuffer; 105: close *)
| CNil (w : nat) (ws : list nat)     (* 106-107 *)
| CPut (w : nat) (ws : list nat)     (* 108 *)
| CStop                              (* 114-124 *)
| CDead | CPanic.
(** who has a worker object: bookkeeping for the proofs, no step depends on it;
    timedpool.go 13-16 *)
Inductive owner := OFree | ODobby | ORun (t : nat) | OQueued | OWork (g : nat) | OCol | OClosing | OGone.

(** timedpool.go 13-30, and where the goroutines are *)
Record pstate := PS {
  p_max : Z;
  p_stop : bool;
  p_workers : Z;
  p_dobby : list nat;
  p_pool : list nat;
  p_obj : nat -> option nat;
  p_tt : nat -> Z;
  p_nobj : nat;
  p_nch : nat;
  p_ng : nat;
  p_buf : nat -> option nat;
  p_closed : nat -> bool;
  p_gor : nat -> gpc;
  p_job : nat -> jpc;
  p_st : nat -> stpc;
  p_col : cpc;
  p_clock : Z;
  p_started : nat -> nat;
  p_own : nat -> owner }.
(** timedpool.go 18-30, 13-16: a new value of maxWorkers *)
Definition set_max (x : Z) (s : pstate) : pstate := PS x (p_stop s) (p_workers s) (p_dobby s) (p_pool s) (p_obj s) (p_tt s) (p_nobj s) (p_nch s) (p_ng s) (p_buf s) (p_closed s) (p_gor s) (p_job s) (p_st s) (p_col s) (p_clock s) (p_started s) (p_own s).
(** timedpool.go 21: whether pool.stop is not nil *)
Definition set_stop (x : bool) (s : pstate) : pstate := PS (p_max s) x (p_workers s) (p_dobby s) (p_pool s) (p_obj s) (p_tt s) (p_nobj s) (p_nch s) (p_ng s) (p_buf s) (p_closed s) (p_gor s) (p_job s) (p_st s) (p_col s) (p_clock s) (p_started s) (p_own s).
(** timedpool.go 18-30, 13-16: a new value of workers *)
Definition set_workers (x : Z) (s : pstate) : pstate := PS (p_max s) (p_stop s) x (p_dobby s) (p_pool s) (p_obj s) (p_tt s) (p_nobj s) (p_nch s) (p_ng s) (p_buf s) (p_closed s) (p_gor s) (p_job s) (p_st s) (p_col s) (p_clock s) (p_started s) (p_own s).
(** timedpool.go 18-30, 13-16: a new value of dobby *)
Definition set_dobby (x : list nat) (s : pstate) : pstate := PS (p_max s) (p_stop s) (p_workers s) x (p_pool s) (p_obj s) (p_tt s) (p_nobj s) (p_nch s) (p_ng s) (p_buf s) (p_closed s) (p_gor s) (p_job s) (p_st s) (p_col s) (p_clock s) (p_started s) (p_own s).
(** timedpool.go 18-30, 13-16: a new value of the contents of the sync.Pool *)
Definition set_pool (x : list nat) (s : pstate) : pstate := PS (p_max s) (p_stop s) (p_workers s) (p_dobby s) x (p_obj s) (p_tt s) (p_nobj s) (p_nch s) (p_ng s) (p_buf s) (p_closed s) (p_gor s) (p_job s) (p_st s) (p_col s) (p_clock s) (p_started s) (p_own s).
(** timedpool.go 18-30, 13-16: a new value of the field ch of the worker objects *)
Definition set_obj (x : nat -> option nat) (s : pstate) : pstate := PS (p_max s) (p_stop s) (p_workers s) (p_dobby s) (p_pool s) x (p_tt s) (p_nobj s) (p_nch s) (p_ng s) (p_buf s) (p_closed s) (p_gor s) (p_job s) (p_st s) (p_col s) (p_clock s) (p_started s) (p_own s).
(** timedpool.go 18-30, 13-16: a new value of the field tt of the worker objects *)
Definition set_tt (x : nat -> Z) (s : pstate) : pstate := PS (p_max s) (p_stop s) (p_workers s) (p_dobby s) (p_pool s) (p_obj s) x (p_nobj s) (p_nch s) (p_ng s) (p_buf s) (p_closed s) (p_gor s) (p_job s) (p_st s) (p_col s) (p_clock s) (p_started s) (p_own s).
(** timedpool.go 18-30, 13-16: a new value of the number of worker objects made so far *)
Definition set_nobj (x : nat) (s : pstate) : pstate := PS (p_max s) (p_stop s) (p_workers s) (p_dobby s) (p_pool s) (p_obj s) (p_tt s) x (p_nch s) (p_ng s) (p_buf s) (p_closed s) (p_gor s) (p_job s) (p_st s) (p_col s) (p_clock s) (p_started s) (p_own s).
(** timedpool.go 18-30, 13-16: a new value of the number of channels made so far *)
Definition set_nch (x : nat) (s : pstate) : pstate := PS (p_max s) (p_stop s) (p_workers s) (p_dobby s) (p_pool s) (p_obj s) (p_tt s) (p_nobj s) x (p_ng s) (p_buf s) (p_closed s) (p_gor s) (p_job s) (p_st s) (p_col s) (p_clock s) (p_started s) (p_own s).
(** timedpool.go 18-30, 13-16: a new value of the number of goroutines started so far *)
Definition set_ng (x : nat) (s : pstate) : pstate := PS (p_max s) (p_stop s) (p_workers s) (p_dobby s) (p_pool s) (p_obj s) (p_tt s) (p_nobj s) (p_nch s) x (p_buf s) (p_closed s) (p_gor s) (p_job s) (p_st s) (p_col s) (p_clock s) (p_started s) (p_own s).
(** timedpool.go 18-30, 13-16: a new value of the buffers of the channels *)
Definition set_buf (x : nat -> option nat) (s : pstate) : pstate := PS (p_max s) (p_stop s) (p_workers s) (p_dobby s) (p_pool s) (p_obj s) (p_tt s) (p_nobj s) (p_nch s) (p_ng s) x (p_closed s) (p_gor s) (p_job s) (p_st s) (p_col s) (p_clock s) (p_started s) (p_own s).
(** timedpool.go 18-30, 13-16: a new value of which channels are closed *)
Definition set_closed (x : nat -> bool) (s : pstate) : pstate := PS (p_max s) (p_stop s) (p_workers s) (p_dobby s) (p_pool s) (p_obj s) (p_tt s) (p_nobj s) (p_nch s) (p_ng s) (p_buf s) x (p_gor s) (p_job s) (p_st s) (p_col s) (p_clock s) (p_started s) (p_own s).
(** timedpool.go 32-43: where the goroutines are *)
Definition set_gor (x : nat -> gpc) (s : pstate) : pstate := PS (p_max s) (p_stop s) (p_workers s) (p_dobby s) (p_pool s) (p_obj s) (p_tt s) (p_nobj s) (p_nch s) (p_ng s) (p_buf s) (p_closed s) x (p_job s) (p_st s) (p_col s) (p_clock s) (p_started s) (p_own s).
(** timedpool.go 144-173: where the calls of Run are *)
Definition set_job (x : nat -> jpc) (s : pstate) : pstate := PS (p_max s) (p_stop s) (p_workers s) (p_dobby s) (p_pool s) (p_obj s) (p_tt s) (p_nobj s) (p_nch s) (p_ng s) (p_buf s) (p_closed s) (p_gor s) x (p_st s) (p_col s) (p_clock s) (p_started s) (p_own s).
(** timedpool.go 207-213: where the calls of Stop are *)
Definition set_st (x : nat -> stpc) (s : pstate) : pstate := PS (p_max s) (p_stop s) (p_workers s) (p_dobby s) (p_pool s) (p_obj s) (p_tt s) (p_nobj s) (p_nch s) (p_ng s) (p_buf s) (p_closed s) (p_gor s) (p_job s) x (p_col s) (p_clock s) (p_started s) (p_own s).
(** timedpool.go 63-128: where the collector is *)
Definition set_col (x : cpc) (s : pstate) : pstate := PS (p_max s) (p_stop s) (p_workers s) (p_dobby s) (p_pool s) (p_obj s) (p_tt s) (p_nobj s) (p_nch s) (p_ng s) (p_buf s) (p_closed s) (p_gor s) (p_job s) (p_st s) x (p_clock s) (p_started s) (p_own s).
(** what time.Now shows, timedpool.go 57, 83, 132 *)
Definition set_clock (x : Z) (s : pstate) : pstate := PS (p_max s) (p_stop s) (p_workers s) (p_dobby s) (p_pool s) (p_obj s) (p_tt s) (p_nobj s) (p_nch s) (p_ng s) (p_buf s) (p_closed s) (p_gor s) (p_job s) (p_st s) (p_col s) x (p_started s) (p_own s).
(** not code: how often the handler (timedpool.go 34) was begun for a job *)
Definition set_started (x : nat -> nat) (s : pstate) : pstate := PS (p_max s) (p_stop s) (p_workers s) (p_dobby s) (p_pool s) (p_obj s) (p_tt s) (p_nobj s) (p_nch s) (p_ng s) (p_buf s) (p_closed s) (p_gor s) (p_job s) (p_st s) (p_col s) (p_clock s) x (p_own s).
(** not code: the bookkeeping of who has a worker object (timedpool.go 13-16) *)
Definition set_own (x : nat -> owner) (s : pstate) : pstate := PS (p_max s) (p_stop s) (p_workers s) (p_dobby s) (p_pool s) (p_obj s) (p_tt s) (p_nobj s) (p_nch s) (p_ng s) (p_buf s) (p_closed s) (p_gor s) (p_job s) (p_st s) (p_col s) (p_clock s) (p_started s) x.

(** 86-95: the binary search; [fuel] bounds the iterations (each halves r - l) *)
Fixpoint bsearch (fuel : nat) (tts : list Z) (now : Z) (l r : nat) : nat :=
  match fuel with
  | O => l
  | S fuel =>
      if decide (l < r)%nat then
        let m := Nat.div (l + r) 2 in
        if nth m tts 0 <? now then bsearch fuel tts now (S m) r else bsearch fuel tts now l m
      else l
  end.
(** timedpool.go 84-96: how many idle workers are collected *)
Definition collect_count (tts : list Z) (now : Z) : nat := bsearch (length tts) tts now 0 (length tts).

(** timedpool.go 75-77, 104-110, 116-123: close of the channels of workers *)
Definition close_all (obj : nat -> option nat) (ws : list nat) (closed : nat -> bool) : nat -> bool :=
  fun c => closed c || existsb (fun w => match obj w with Some c' => c =? c' | None => false end)%nat ws.
(** timedpool.go 76, 105, 117: close of a channel that is nil or closed panics *)
Definition closable (obj : nat -> option nat) (closed : nat -> bool) (ws : list nat) : Prop :=
  NoDup ws /\ forall w, w ∈ ws -> exists c, obj w = Some c /\ closed c = false /\ forall w', w' ∈ ws -> obj w' = Some c -> w' = w.
(** not code: bookkeeping for timedpool.go 97-110 *)
Definition own_all (ws : list nat) (o : owner) (own : nat -> owner) : nat -> owner :=
  fun w => if decide (w ∈ ws) then o else own w.

(** what the steps of timedpool.go 32-220 show to the outside *)
Inductive plab := LCall (t : nat) | LRet (t : nat) (ok : bool) | LBegin (t : nat) | LEnd (t : nat) | LStop (u : nat) | LStopped (u : nat) | LPTau.

Section step.
Context (idle : Z).   (* idleTimeout *)

(** 161-163 of Run: an object w from the sync.Pool gets a new channel and a goroutine *)
Definition new_worker (t w : nat) (s : pstate) : pstate :=
  set_workers (p_workers s + 1) (set_obj (tset (p_obj s) w (Some (p_nch s))) (set_nch (S (p_nch s))
  (set_gor (tset (p_gor s) (p_ng s) (GStart w)) (set_ng (S (p_ng s)) (set_job (tset (p_job s) t (JSend w))
  (set_own (tset (p_own s) w (ORun t)) s)))))).

(** the steps of timedpool.go 32-43 (tworker), 63-128 (the collector), 131-142 (free), 144-173
    (Run), 207-213 (Stop) *)
Inductive p_step : pstate -> plab -> pstate -> Prop :=
| ps_clock s x : p_clock s <= x -> p_step s LPTau (set_clock x s)
(* Run *)
| ps_call s t : p_job s t = JIdle -> p_step s (LCall t) (set_job (tset (p_job s) t JLock) s)
| ps_stopped s t : p_job s t = JLock -> p_max s = -1 -> p_step s (LRet t false) (set_job (tset (p_job s) t (JRet false)) s)
| ps_pop s t d w : p_job s t = JLock -> p_max s <> -1 -> p_dobby s = d ++ [w] ->
    p_step s LPTau (set_dobby d (set_job (tset (p_job s) t (JSend w)) (set_own (tset (p_own s) w (ORun t)) s)))
| ps_new s t : p_job s t = JLock -> p_max s <> -1 -> p_dobby s = [] -> p_workers s < p_max s ->
    p_step s LPTau (set_nobj (S (p_nobj s)) (new_worker t (p_nobj s) s))
| ps_recycled s t p1 w p2 : p_job s t = JLock -> p_max s <> -1 -> p_dobby s = [] -> p_workers s < p_max s ->
    p_pool s = p1 ++ w :: p2 ->
    p_step s LPTau (set_pool (p1 ++ p2) (new_worker t w s))
| ps_full s t : p_job s t = JLock -> p_max s <> -1 -> p_dobby s = [] -> p_max s <= p_workers s ->
    p_step s (LRet t false) (set_job (tset (p_job s) t (JRet false)) s)
| ps_send s t w c : p_job s t = JSend w -> p_obj s w = Some c -> p_closed s c = false -> p_buf s c = None ->
    p_step s (LRet t true) (set_buf (tset (p_buf s) c (Some t)) (set_job (tset (p_job s) t (JRet true)) (set_own (tset (p_own s) w OQueued) s)))
| ps_send_closed s t w c : p_job s t = JSend w -> p_obj s w = Some c -> p_closed s c = true ->
    p_step s LPTau (set_job (tset (p_job s) t JPanic) s)
(* tworker and free *)
| ps_start s g w c : p_gor s g = GStart w -> p_obj s w = Some c -> p_step s LPTau (set_gor (tset (p_gor s) g (GRecv w c)) s)
| ps_start_nil s g w : p_gor s g = GStart w -> p_obj s w = None -> p_step s LPTau (set_gor (tset (p_gor s) g (GNil w)) s)
| ps_recv s g w c t : p_gor s g = GRecv w c -> p_buf s c = Some t ->
    p_step s (LBegin t) (set_buf (tset (p_buf s) c None) (set_gor (tset (p_gor s) g (GHandle w c t))
      (set_started (tset (p_started s) t (S (p_started s t))) (set_own (tset (p_own s) w (OWork g)) s))))
| ps_range_end s g w c : p_gor s g = GRecv w c -> p_buf s c = None -> p_closed s c = true ->
    p_step s LPTau (set_gor (tset (p_gor s) g GExit) s)
| ps_handled s g w c t : p_gor s g = GHandle w c t -> p_step s (LEnd t) (set_gor (tset (p_gor s) g (GFree w c)) s)
| ps_tt s g w c : p_gor s g = GFree w c ->
    p_step s LPTau (set_gor (tset (p_gor s) g (GLock w c)) (set_tt (tset (p_tt s) w (p_clock s)) s))
| ps_free s g w c : p_gor s g = GLock w c -> p_max s <> -1 ->
    p_step s LPTau (set_dobby (p_dobby s ++ [w]) (set_gor (tset (p_gor s) g (GRecv w c)) (set_own (tset (p_own s) w ODobby) s)))
| ps_free_stop s g w c : p_gor s g = GLock w c -> p_max s = -1 ->
    p_step s LPTau (set_workers (p_workers s - 1) (set_gor (tset (p_gor s) g GDone) (set_own (tset (p_own s) w OGone) s)))
| ps_exit s g : p_gor s g = GExit -> p_step s LPTau (set_workers (p_workers s - 1) (set_gor (tset (p_gor s) g GDone) s))
(* the collector: 72-101 *)
| ps_tick s n : p_col s = CWait -> p_max s <> -1 ->
    n = collect_count (map (p_tt s) (p_dobby s)) (p_clock s - idle) ->
    p_step s LPTau (set_dobby (drop n (p_dobby s)) (set_col (CDrain (take n (p_dobby s))) (set_own (own_all (take n (p_dobby s)) OCol (p_own s)) s)))
(* 73-80 *)
| ps_tick_stopped s : p_col s = CWait -> p_max s = -1 -> closable (p_obj s) (p_closed s) (p_dobby s) ->
    p_step s LPTau (set_closed (close_all (p_obj s) (p_dobby s) (p_closed s)) (set_col CDead s))
| ps_tick_stopped_panic s : p_col s = CWait -> p_max s = -1 -> ~ closable (p_obj s) (p_closed s) (p_dobby s) ->
    p_step s LPTau (set_col CPanic s)
(* 104-111 *)
| ps_close s w ws c : p_col s = CDrain (w :: ws) -> p_obj s w = Some c -> p_closed s c = false ->
    p_step s LPTau (set_closed (tset (p_closed s) c true) (set_col (CNil w ws) (set_own (tset (p_own s) w OClosing) s)))
| ps_close_panic s w ws : p_col s = CDrain (w :: ws) -> (forall c, p_obj s w = Some c -> p_closed s c = true) ->
    p_step s LPTau (set_col CPanic s)
| ps_nil s w ws : p_col s = CNil w ws ->
    p_step s LPTau (set_tt (tset (p_tt s) w 0) (set_obj (tset (p_obj s) w None) (set_col (CPut w ws) s)))
| ps_put s w ws : p_col s = CPut w ws ->
    p_step s LPTau (set_pool (w :: p_pool s) (set_col (CDrain ws) (set_own (tset (p_own s) w OFree) s)))
| ps_drained s : p_col s = CDrain [] -> p_step s LPTau (set_col CWait s)
(* 113: a stopper meets the collector; 114-125 *)
| ps_meet s u : p_col s = CWait -> p_st s u = SSend -> p_step s LPTau (set_col CStop (set_st (tset (p_st s) u SNil) s))
| ps_stop s : p_col s = CStop -> closable (p_obj s) (p_closed s) (p_dobby s) ->
    p_step s LPTau (set_max (-1) (set_closed (close_all (p_obj s) (p_dobby s) (p_closed s)) (set_col CDead (set_own (own_all (p_dobby s) OGone (p_own s)) s))))
| ps_stop_panic s : p_col s = CStop -> ~ closable (p_obj s) (p_closed s) (p_dobby s) -> p_step s LPTau (set_col CPanic s)
(* Stop, 208, 211, 212: pool.stop is read twice *)
| ps_stop_call s u : p_st s u = SIdle -> p_step s (LStop u) (set_st (tset (p_st s) u (if p_stop s then SAgain else SDone)) s)
| ps_stop_again s u : p_st s u = SAgain -> p_step s LPTau (set_st (tset (p_st s) u (if p_stop s then SSend else SStuck)) s)
| ps_stop_nil s u : p_st s u = SNil -> p_step s (LStopped u) (set_stop false (set_st (tset (p_st s) u SDone) s)).
End step.

(** start, 45-61, with preheat n: the state in which NewTimedPool returns *)
Definition p_init (maxw : Z) (n : nat) (tts : nat -> Z) (clock : Z) : pstate :=
  PS maxw true (Z.of_nat n) (seq 0 n) [] (fun w => if decide (w < n)%nat then Some w else None) tts n n n
     (fun _ => None) (fun _ => false) (fun g => if decide (g < n)%nat then GStart g else GNone) (fun _ => JIdle) (fun _ => SIdle)
     CWait clock (fun _ => O) (fun w => if decide (w < n)%nat then ODobby else OFree).

(** NewTimedPool's checks, 183-194 *)
Inductive perr := ErrMaxWorkers | ErrHandler | ErrIdleTimeout | ErrGCPeriod.
(** timedpool.go 182-194: the checks of NewTimedPool *)
Definition new_check (maxw : Z) (handler_nil : bool) (idle gc : Z) : option perr :=
  if maxw <=? 0 then Some ErrMaxWorkers else if handler_nil then Some ErrHandler
  else if idle <=? 0 then Some ErrIdleTimeout else if gc <=? 0 then Some ErrGCPeriod else None.
