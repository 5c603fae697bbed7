(** Model of sync.RWMutex, which syncmapx and convx use, from Go's sync/rwmutex.go
    (without the race detector's hooks):

      const rwmutexMaxReaders = 1 << 30
      func (rw *RWMutex) RLock() {
          if atomic.AddInt32(&rw.readerCount, 1) < 0 { runtime_SemacquireMutex(&rw.readerSem, false, 0) }
      }
      func (rw *RWMutex) RUnlock() {
          if r := atomic.AddInt32(&rw.readerCount, -1); r < 0 { rw.rUnlockSlow(r) }
      }
      func (rw *RWMutex) rUnlockSlow(r int32) {
          if r+1 == 0 || r+1 == -rwmutexMaxReaders { throw("sync: RUnlock of unlocked RWMutex") }
          if atomic.AddInt32(&rw.readerWait, -1) == 0 { runtime_Semrelease(&rw.writerSem, false, 1) }
      }
      func (rw *RWMutex) Lock() {
          rw.w.Lock()
          r := atomic.AddInt32(&rw.readerCount, -rwmutexMaxReaders) + rwmutexMaxReaders
          if r != 0 && atomic.AddInt32(&rw.readerWait, r) != 0 { runtime_SemacquireMutex(&rw.writerSem, false, 0) }
      }
      func (rw *RWMutex) Unlock() {
          r := atomic.AddInt32(&rw.readerCount, rwmutexMaxReaders)
          if r >= rwmutexMaxReaders { throw("sync: Unlock of unlocked RWMutex") }
          for i := 0; i < int(r); i++ { runtime_Semrelease(&rw.readerSem, false, 0) }
          rw.w.Unlock()
      }

    Each atomic operation is one step.  sync.Mutex (w) has an owner or none, a
    semaphore is a number of tokens; which of those that wait gets it is arbitrary.
    Fewer than 2^30 goroutines, [N], use the lock; the int32 counters do not wrap then
    ([rw_counters]). *)
From Verif Require Import Base Conc.
Local Open Scope Z.

(** sync/rwmutex.go: rwmutexMaxReaders *)
Definition max_readers : Z := 2^30.
(** where a goroutine is in sync/rwmutex.go *)
Inductive rwpc :=
| PIdle               (* not in a call, does not have the lock *)
| PRWant              (* RLock: about to add 1 to readerCount *)
| PRSem               (* RLock: waits for readerSem *)
| PRHold              (* has the lock for reading *)
| PRDec               (* rUnlockSlow: about to subtract 1 from readerWait *)
| PRPost              (* rUnlockSlow: about to release writerSem *)
| PWWant              (* Lock: rw.w.Lock() *)
| PWAnn               (* Lock: about to subtract rwmutexMaxReaders from readerCount *)
| PWWait (r : Z)      (* Lock: about to add r to readerWait *)
| PWSem               (* Lock: waits for writerSem *)
| PWHold              (* has the lock for writing *)
| PWPost (r i : Z).   (* Unlock: the loop; i releases made *)
(** sync/rwmutex.go: type RWMutex, and where the goroutines are *)
Record rwstate := RW { rw_count : Z; rw_wait : Z; rw_w : option nat; rw_rsem : Z; rw_wsem : Z; rw_pc : nat -> rwpc }.
(** sync/rwmutex.go: the zero RWMutex *)
Definition rw_new : rwstate := RW 0 0 None 0 0 (fun _ => PIdle).

Section step.
Context (N : nat).
(** the steps of sync/rwmutex.go, as quoted above *)
Inductive rw_step : rwstate -> nat -> rwstate -> Prop :=
(* calls of RLock and Lock *)
| rw_rlock c x w a b pc t : (t < N)%nat -> pc t = PIdle -> rw_step (RW c x w a b pc) t (RW c x w a b (tset pc t PRWant))
| rw_lock c x w a b pc t : (t < N)%nat -> pc t = PIdle -> rw_step (RW c x w a b pc) t (RW c x w a b (tset pc t PWWant))
(* RLock *)
| rw_radd c x w a b pc t : pc t = PRWant -> rw_step (RW c x w a b pc) t (RW (c + 1) x w a b (tset pc t (if c + 1 <? 0 then PRSem else PRHold)))
| rw_rsem_acq c x w a b pc t : pc t = PRSem -> 0 < a -> rw_step (RW c x w a b pc) t (RW c x w (a - 1) b (tset pc t PRHold))
(* RUnlock *)
| rw_runlock c x w a b pc t : pc t = PRHold -> rw_step (RW c x w a b pc) t (RW (c - 1) x w a b (tset pc t (if c - 1 <? 0 then PRDec else PIdle)))
| rw_rdec c x w a b pc t : pc t = PRDec -> rw_step (RW c x w a b pc) t (RW c (x - 1) w a b (tset pc t (if x - 1 =? 0 then PRPost else PIdle)))
| rw_rpost c x w a b pc t : pc t = PRPost -> rw_step (RW c x w a b pc) t (RW c x w a (b + 1) (tset pc t PIdle))
(* Lock *)
| rw_wlock c x a b pc t : pc t = PWWant -> rw_step (RW c x None a b pc) t (RW c x (Some t) a b (tset pc t PWAnn))
| rw_wann c x w a b pc t : pc t = PWAnn -> let r := c - max_readers + max_readers in
    rw_step (RW c x w a b pc) t (RW (c - max_readers) x w a b (tset pc t (if r =? 0 then PWHold else PWWait r)))
| rw_wwait c x w a b pc t r : pc t = PWWait r -> rw_step (RW c x w a b pc) t (RW c (x + r) w a b (tset pc t (if x + r =? 0 then PWHold else PWSem)))
| rw_wsem_acq c x w a b pc t : pc t = PWSem -> 0 < b -> rw_step (RW c x w a b pc) t (RW c x w a (b - 1) (tset pc t PWHold))
(* Unlock *)
| rw_wunlock c x w a b pc t : pc t = PWHold -> rw_step (RW c x w a b pc) t (RW (c + max_readers) x w a b (tset pc t (PWPost (c + max_readers) 0)))
| rw_wpost c x w a b pc t r i : pc t = PWPost r i -> i < r -> rw_step (RW c x w a b pc) t (RW c x w (a + 1) b (tset pc t (PWPost r (i + 1))))
| rw_wfree c x w a b pc t r i : pc t = PWPost r i -> ~ i < r -> rw_step (RW c x w a b pc) t (RW c x None a b (tset pc t PIdle)).
End step.
