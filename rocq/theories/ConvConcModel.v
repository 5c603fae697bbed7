(** Model of typex/convx/convx.go under concurrency: any number of goroutines, the
    RWMutex, the nested map it protects, and converters that themselves call convx
    (Into runs the converter while it holds the read lock).

    sync.RWMutex, as its documentation promises: a call of Lock that finds the lock held
    by readers makes every later RLock wait until the writer has come and gone ([k_pend]
    is the goroutine that has called Lock and has not yet called Unlock; a second writer
    waits before it announces itself).  When the writer leaves, waiting readers and waiting
    writers may enter in any order (Go lets the waiting readers in first).

    A map write takes two steps, between which the map is torn: the runtime aborts the
    program ([k_crash]) when another goroutine touches a torn map. *)
From Verif Require Import Base Conc ConvModel.

Section Model.
Context {V : Type}.

(** what a goroutine, or a converter, does: the calls of convx it makes, each of which may
    depend on the answers of the earlier ones.  Converters are named by numbers.
    the calls are those of convx.go 11-59 *)
Inductive code :=
| KRet (v : V)                                                            (* done, with a value *)
| KPanic                                                                  (* panics *)
| KInto (T R : gty) (dyn : option gty) (v : V) (k : option V -> code)     (* Into, IntoOr *)
| KExists (T R : gty) (k : bool -> code)
| KRegister (T R : gty) (f : nat) (k : code)
| KUnregister (T R : gty) (k : code).

(** the converters of the program *)
Context (conv : nat -> V -> code).

(** where a goroutine is in convx.go 11-59 *)
Inductive kpc :=
| PRun (c : code)       (* its own code: about to call, to return or to panic *)
| PRead (c : code)      (* 31, 42: has the read lock, before the lookup *)
| PRel (c : code)       (* 32, 43: deferred RUnlock; then goes on with c *)
| PWait (c : code)      (* 12, 21: Lock has announced itself, and waits for the readers *)
| PWrite (c : code)     (* has the lock, before the write *)
| PTorn (c : code)      (* in the middle of the write *)
| PUnlock (c : code).   (* 13, 22: deferred Unlock; then goes on with c *)
(** a call of Into whose converter f is running, and what its caller goes on with; convx.go 56 *)
Record frame := Fr { fr_T : gty; fr_R : gty; fr_dyn : option gty; fr_v : V; fr_f : nat; fr_k : option V -> code }.
(** a goroutine, and the converters it is inside of, innermost first;
    no code of its own, see convx.go 11-59 for what it runs *)
Record thr := Thr { t_pc : kpc; t_in : list frame }.
(** convx.go 8-9: the map and its RWMutex, and the goroutines *)
Record kstate := KS { k_reg : registry_of nat; k_torn : bool; k_crash : bool; k_pend : option nat; k_readers : list nat; k_th : nat -> thr }.
(** convx.go 8-9; the goroutines run [main] *)
Definition k_init (main : nat -> code) : kstate := KS no_converters false false None [] (fun t => Thr (PRun (main t)) []).

(** convx.go 31, 42: the calls that take the read lock *)
Definition is_read (c : code) : bool := match c with KInto _ _ _ _ _ | KExists _ _ _ => true | _ => false end.
(** convx.go 12, 21: the calls that take the lock *)
Definition is_write (c : code) : bool := match c with KRegister _ _ _ _ | KUnregister _ _ _ => true | _ => false end.

(** what happens to the registry; convx.go 11-59 *)
Inductive kev :=
| EvFind (t : nat) (T R : gty) (dyn : option gty) (f : option nat)   (* Into found this converter *)
| EvInto (t : nat) (T R : gty) (dyn : option gty) (v : V) (f : nat) (r : V) (* its converter f returned r *)
| EvExists (t : nat) (T R : gty) (b : bool)
| EvRegister (t : nat) (T R : gty) (f : nat)
| EvUnregister (t : nat) (T R : gty).

(** one RUnlock by t; convx.go 32, 43 *)
Fixpoint drop_reader (t : nat) (rs : list nat) : list nat :=
  match rs with [] => [] | r :: rs => if decide (r = t) then rs else r :: drop_reader t rs end.

(** the steps of convx.go 11-18 (Register), 20-28 (Unregister), 30-39 (Exists) and 41-59 (Into) *)
Inductive k_step : kstate -> option kev -> kstate -> Prop :=
(** 31, 42 *)
| ks_rlock m tn cr rs th t c fr : th t = Thr (PRun c) fr -> is_read c = true ->
    k_step (KS m tn cr None rs th) None (KS m tn cr None (t :: rs) (tset th t (Thr (PRead c) fr)))
(** 33-38 *)
| ks_exists m cr p rs th t T R k fr : th t = Thr (PRead (KExists T R k)) fr ->
    k_step (KS m false cr p rs th) (Some (EvExists t T R (exists_conv m T R))) (KS m false cr p rs (tset th t (Thr (PRel (k (exists_conv m T R))) fr)))
(** 44-55: nothing found *)
| ks_miss m cr p rs th t T R d v k fr : th t = Thr (PRead (KInto T R d v k)) fr -> find_conv m T R d = None ->
    k_step (KS m false cr p rs th) (Some (EvFind t T R d None)) (KS m false cr p rs (tset th t (Thr (PRel (k None)) fr)))
(** 56: the converter is called *)
| ks_hit m cr p rs th t T R d v k fr f : th t = Thr (PRead (KInto T R d v k)) fr -> find_conv m T R d = Some f ->
    k_step (KS m false cr p rs th) (Some (EvFind t T R d (Some f))) (KS m false cr p rs (tset th t (Thr (PRun (conv f v)) (Fr T R d v f k :: fr))))
(** 56-58: the converter returns, or panics *)
| ks_ret m tn cr p rs th t T R d v f k r fr : th t = Thr (PRun (KRet r)) (Fr T R d v f k :: fr) ->
    k_step (KS m tn cr p rs th) (Some (EvInto t T R d v f r)) (KS m tn cr p rs (tset th t (Thr (PRel (k (Some r))) fr)))
| ks_panic m tn cr p rs th t k fr : th t = Thr (PRun KPanic) (k :: fr) ->
    k_step (KS m tn cr p rs th) None (KS m tn cr p rs (tset th t (Thr (PRel KPanic) fr)))
| ks_runlock m tn cr p rs th t c fr : th t = Thr (PRel c) fr ->
    k_step (KS m tn cr p rs th) None (KS m tn cr p (drop_reader t rs) (tset th t (Thr (PRun c) fr)))
(** 12, 21 *)
| ks_announce m tn cr rs th t c fr : th t = Thr (PRun c) fr -> is_write c = true ->
    k_step (KS m tn cr None rs th) None (KS m tn cr (Some t) rs (tset th t (Thr (PWait c) fr)))
| ks_lock m tn cr p th t c fr : th t = Thr (PWait c) fr ->
    k_step (KS m tn cr p [] th) None (KS m tn cr p [] (tset th t (Thr (PWrite c) fr)))
(** 14-17, 23-27 *)
| ks_write m cr p rs th t c fr : th t = Thr (PWrite c) fr ->
    k_step (KS m false cr p rs th) None (KS m true cr p rs (tset th t (Thr (PTorn c) fr)))
| ks_register m tn cr p rs th t T R f k fr : th t = Thr (PTorn (KRegister T R f k)) fr ->
    k_step (KS m tn cr p rs th) (Some (EvRegister t T R f)) (KS (register m T R f) false cr p rs (tset th t (Thr (PUnlock k) fr)))
| ks_unregister m tn cr p rs th t T R k fr : th t = Thr (PTorn (KUnregister T R k)) fr ->
    k_step (KS m tn cr p rs th) (Some (EvUnregister t T R)) (KS (unregister m T R) false cr p rs (tset th t (Thr (PUnlock k) fr)))
| ks_unlock m tn cr p rs th t c fr : th t = Thr (PUnlock c) fr ->
    k_step (KS m tn cr p rs th) None (KS m tn cr None rs (tset th t (Thr (PRun c) fr)))
(** the runtime's check *)
| ks_race m cr p rs th t c fr : th t = Thr (PRead c) fr \/ th t = Thr (PWrite c) fr ->
    k_step (KS m true cr p rs th) None (KS m true true p rs th).
End Model.
Arguments code : clear implicits.
Arguments kpc : clear implicits.
Arguments frame : clear implicits.
Arguments kev : clear implicits.
Arguments thr : clear implicits.
Arguments kstate : clear implicits.
Arguments k_step {V} conv _ _ _.
