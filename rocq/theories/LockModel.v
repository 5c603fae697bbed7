(** Model of syncx/lockx/lockx.go.  Lock compares the first machine word of the
    object *l with the address l itself (both CompareAndSwap calls work on the
    object's memory, not on a pointer to it). *)
From Verif Require Import Base Conc.

(** what the first word of the object contains: its own address, nil, or anything else;
    lockx.go 11, 16 *)
Inductive word := Own | Nil | Other.

(** where a goroutine is in lockx.go 9-19 *)
Inductive kpc :=
| KIdle      (* not in a call *)
| KTry       (* lockx.go 11: first CompareAndSwap *)
| KBody      (* lockx.go 15: f(p) is running *)
| KRel       (* lockx.go 16: second CompareAndSwap *)
| KDead.     (* f panicked: there is no defer, the object is left as it is *)
(** what the steps of lockx.go 9-19 show to the outside *)
Inductive kev := ECall | EFail | EEnter | EExit | EPanic | ERelease | EReleaseFail.

(** lockx.go 9: the first word of *l, and where the goroutines are *)
Record kstate := KS { k_word : word; k_th : nat -> kpc }.

(** any number of goroutines; callbacks do not write the object's first word;
    the steps of lockx.go 9-19 *)
Inductive k_step : kstate -> nat * kev -> kstate -> Prop :=
| ks_call w th t : th t = KIdle -> k_step (KS w th) (t, ECall) (KS w (tset th t KTry))
| ks_enter th t : th t = KTry -> k_step (KS Own th) (t, EEnter) (KS Nil (tset th t KBody))
| ks_fail w th t : th t = KTry -> w <> Own -> k_step (KS w th) (t, EFail) (KS w th)     (* Gosched, p = l, again *)
| ks_exit w th t : th t = KBody -> k_step (KS w th) (t, EExit) (KS w (tset th t KRel))
| ks_panic w th t : th t = KBody -> k_step (KS w th) (t, EPanic) (KS w (tset th t KDead))
| ks_release th t : th t = KRel -> k_step (KS Nil th) (t, ERelease) (KS Own (tset th t KIdle))
| ks_release_fail w th t : th t = KRel -> w <> Nil -> k_step (KS w th) (t, EReleaseFail) (KS w th).
(** before any call of lockx.go 9 *)
Definition k_init (w : word) : kstate := KS w (fun _ => KIdle).

(** events of one goroutine; see lockx.go 9-19 *)
Definition count_ev (t : nat) (e : kev -> bool) (tr : list (nat * kev)) : nat :=
  length (filter (fun p => p.1 = t /\ e p.2 = true) tr).
(** lockx.go 9 *)
Definition is_call (e : kev) := match e with ECall => true | _ => false end.
(** lockx.go 11: the CompareAndSwap succeeds *)
Definition is_enter (e : kev) := match e with EEnter => true | _ => false end.
(** lockx.go 16: the CompareAndSwap succeeds *)
Definition is_release (e : kev) := match e with ERelease => true | _ => false end.
(** lockx.go 15: f returns or panics *)
Definition is_leave (e : kev) := match e with EExit | EPanic => true | _ => false end.

(** callbacks that do write the object's first word, which the *T they get lets them;
    lockx.go 9-19 *)
Inductive kw_step : kstate -> nat * option kev -> kstate -> Prop :=
| kw_lock s t e s' : k_step s (t, e) s' -> kw_step s (t, Some e) s'
| kw_write w w' th t : th t = KBody -> kw_step (KS w th) (t, None) (KS w' th).
