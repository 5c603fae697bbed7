(** Model of sync.Mutex, which closex.Manager (manager.go 11-15), TimedPool (timedpool.go 24-34), the Once of
    lazyx and sync.RWMutex use, from Go's sync/mutex.go (Go 1.19, without the race detector's hooks):

      func (m *Mutex) Lock() {
          if atomic.CompareAndSwapInt32(&m.state, 0, mutexLocked) { return }
          m.lockSlow()
      }
      func (m *Mutex) lockSlow() {
          starving := false; awoke := false; old := m.state
          for {
              if old&(mutexLocked|mutexStarving) == mutexLocked && runtime_canSpin(iter) {
                  if !awoke && old&mutexWoken == 0 && old>>mutexWaiterShift != 0 &&
                      atomic.CompareAndSwapInt32(&m.state, old, old|mutexWoken) { awoke = true }
                  runtime_doSpin(); old = m.state; continue
              }
              new := old
              if old&mutexStarving == 0 { new |= mutexLocked }
              if old&(mutexLocked|mutexStarving) != 0 { new += 1 << mutexWaiterShift }
              if starving && old&mutexLocked != 0 { new |= mutexStarving }
              if awoke {
                  if new&mutexWoken == 0 { throw }
                  new &^= mutexWoken
              }
              if atomic.CompareAndSwapInt32(&m.state, old, new) {
                  if old&(mutexLocked|mutexStarving) == 0 { break }
                  runtime_SemacquireMutex(&m.sema, queueLifo, 1)
                  starving = starving || runtime_nanotime()-waitStartTime > starvationThresholdNs
                  old = m.state
                  if old&mutexStarving != 0 {
                      if old&(mutexLocked|mutexWoken) != 0 || old>>mutexWaiterShift == 0 { throw }
                      delta := int32(mutexLocked - 1<<mutexWaiterShift)
                      if !starving || old>>mutexWaiterShift == 1 { delta -= mutexStarving }
                      atomic.AddInt32(&m.state, delta)
                      break
                  }
                  awoke = true
              } else { old = m.state }
          }
      }
      func (m *Mutex) Unlock() {
          new := atomic.AddInt32(&m.state, -mutexLocked)
          if new != 0 { m.unlockSlow(new) }
      }
      func (m *Mutex) unlockSlow(new int32) {
          if (new+mutexLocked)&mutexLocked == 0 { fatal }
          if new&mutexStarving == 0 {
              old := new
              for {
                  if old>>mutexWaiterShift == 0 || old&(mutexLocked|mutexWoken|mutexStarving) != 0 { return }
                  new = (old - 1<<mutexWaiterShift) | mutexWoken
                  if atomic.CompareAndSwapInt32(&m.state, old, new) { runtime_Semrelease(&m.sema, false, 1); return }
                  old = m.state
              }
          } else { runtime_Semrelease(&m.sema, true, 1) }
      }

    Each access to the state word is one step.  Whether a goroutine spins, and whether it finds that it has waited
    too long, is arbitrary.  The semaphore is a number of tokens; which of those that wait gets one is arbitrary.
    [N] goroutines use the mutex; the word does not overflow for fewer than 2^28 of them ([mutex_word]). *)
From Verif Require Import Base Conc.
Local Open Scope Z.

(** sync/mutex.go: the state word, mutexLocked, mutexWoken, mutexStarving, and the number of waiters above them *)
Record mw := MW { w_l : bool; w_k : bool; w_s : bool; w_n : Z }.
Definition enc (w : mw) : Z := Z.b2z (w_l w) + 2 * Z.b2z (w_k w) + 4 * Z.b2z (w_s w) + 8 * w_n w.
Definition mw0 : mw := MW false false false 0.
(** where a goroutine is in sync/mutex.go; [st], [aw]: the variables starving and awoke of lockSlow *)
Inductive xpc :=
| XIdle
| XFast                             (* Lock: the first CompareAndSwap *)
| XLoad (st aw : bool)              (* lockSlow: old = m.state is next *)
| XTry (st aw : bool) (old : mw)    (* lockSlow: with old read *)
| XSem (st : bool)                  (* lockSlow: runtime_SemacquireMutex *)
| XWoke (st : bool)                 (* lockSlow: past it *)
| XDelta (st : bool) (old : mw)     (* lockSlow: the AddInt32 is next *)
| XHold                             (* has the mutex *)
| XFree (old : mw)                  (* unlockSlow: the CompareAndSwap is next *)
| XRel.                             (* unlockSlow: runtime_Semrelease is next *)
(** sync/mutex.go: type Mutex, whether the runtime has aborted the program, and where the goroutines are *)
Record mxstate := MX { x_w : mw; x_sema : Z; x_bad : bool; x_pc : nat -> xpc }.
(** sync/mutex.go: the zero Mutex *)
Definition mx_new : mxstate := MX mw0 0 false (fun _ => XIdle).
(** sync/mutex.go: new in lockSlow *)
Definition try_new (st aw : bool) (old : mw) : mw :=
  MW (w_l old || negb (w_s old)) (if aw then false else w_k old) (w_s old || (st && w_l old)) (w_n old + (if w_l old || w_s old then 1 else 0)).
(** sync/mutex.go: the top of the loop of unlockSlow *)
Definition free_next (old : mw) : xpc := if (w_n old =? 0) || w_l old || w_k old || w_s old then XIdle else XFree old.
(** sync/mutex.go: Unlock after the AddInt32 *)
Definition unlock_next (w : mw) : xpc := if enc w =? 0 then XIdle else if w_s w then XRel else free_next w.

Section step.
Context (N : nat).
(** the steps of sync/mutex.go, as quoted above *)
Inductive mx_step : mxstate -> nat -> mxstate -> Prop :=
| mx_lock w a b pc t : (t < N)%nat -> pc t = XIdle -> mx_step (MX w a b pc) t (MX w a b (tset pc t XFast))
| mx_fast a b pc t : pc t = XFast -> mx_step (MX mw0 a b pc) t (MX (MW true false false 0) a b (tset pc t XHold))
| mx_slow w a b pc t : pc t = XFast -> w <> mw0 -> mx_step (MX w a b pc) t (MX w a b (tset pc t (XLoad false false)))
| mx_load w a b pc t st aw : pc t = XLoad st aw -> mx_step (MX w a b pc) t (MX w a b (tset pc t (XTry st aw w)))
| mx_spin w a b pc t st aw old : pc t = XTry st aw old -> w_l old = true -> w_s old = false -> mx_step (MX w a b pc) t (MX w a b (tset pc t (XLoad st aw)))
| mx_spin_set old a b pc t st : pc t = XTry st false old -> w_l old = true -> w_s old = false -> w_k old = false -> w_n old <> 0 ->
    mx_step (MX old a b pc) t (MX (MW (w_l old) true (w_s old) (w_n old)) a b (tset pc t (XLoad st true)))
| mx_throw1 w a b pc t st old : pc t = XTry st true old -> w_k old = false -> mx_step (MX w a b pc) t (MX w a true pc)
| mx_cas old a b pc t st aw : pc t = XTry st aw old -> (aw = true -> w_k old = true) ->
    mx_step (MX old a b pc) t (MX (try_new st aw old) a b (tset pc t (if w_l old || w_s old then XSem st else XHold)))
| mx_cas_fail w a b pc t st aw old : pc t = XTry st aw old -> w <> old -> mx_step (MX w a b pc) t (MX w a b (tset pc t (XLoad st aw)))
| mx_sem w a b pc t st st' : pc t = XSem st -> 0 < a -> (st = true -> st' = true) -> mx_step (MX w a b pc) t (MX w (a - 1) b (tset pc t (XWoke st')))
| mx_woke w a b pc t st : pc t = XWoke st -> w_s w = false -> mx_step (MX w a b pc) t (MX w a b (tset pc t (XTry st true w)))
| mx_woke_st w a b pc t st : pc t = XWoke st -> w_s w = true -> w_l w = false -> w_k w = false -> w_n w <> 0 -> mx_step (MX w a b pc) t (MX w a b (tset pc t (XDelta st w)))
| mx_throw2 w a b pc t st : pc t = XWoke st -> w_s w = true -> (w_l w = true \/ w_k w = true \/ w_n w = 0) -> mx_step (MX w a b pc) t (MX w a true pc)
| mx_delta w w' a b pc t st old : pc t = XDelta st old -> enc w' = enc w + 1 - 8 - (if negb st || (w_n old =? 1) then 4 else 0) ->
    mx_step (MX w a b pc) t (MX w' a b (tset pc t XHold))
| mx_unlock w w' a b pc t : pc t = XHold -> w_l w = true -> enc w' = enc w - 1 -> mx_step (MX w a b pc) t (MX w' a b (tset pc t (unlock_next w')))
| mx_fatal w a b pc t : pc t = XHold -> w_l w = false -> mx_step (MX w a b pc) t (MX w a true pc)
| mx_free old a b pc t : pc t = XFree old -> mx_step (MX old a b pc) t (MX (MW (w_l old) true (w_s old) (w_n old - 1)) a b (tset pc t XRel))
| mx_free_fail w a b pc t old : pc t = XFree old -> w <> old -> mx_step (MX w a b pc) t (MX w a b (tset pc t (free_next w)))
| mx_rel w a b pc t : pc t = XRel -> mx_step (MX w a b pc) t (MX w (a + 1) b (tset pc t XIdle)).
End step.
