(** Go's sync/poolqueue.go, poolDequeue (Go 1.19): the queue under sync.Pool, on which
    syncx/syncpoolx/syncpoolx.go 25-36 and the pools of dsx/linkedx stand.  One owner calls
    pushHead and popHead; any number of goroutines call popTail.  A step is an
    atomic access, or an access to the words of a slot.  headTail holds two 32-bit numbers
    that wrap; n is the number of slots.  An interface is two words, its type and its
    value; the two are written in either order.  A read of both words of a slot is one step. *)
From Verif Require Import Base Conc.
Open Scope Z_scope.

(** the range of head and tail, poolqueue.go, under syncpoolx.go 26, 35 *)
Definition W : Z := 2^32.
(** a slot: the two words of an interface; the type of the objects is never nil (syncpoolx.go 26, 35) *)
Record slot := Sw { w_typ : bool; w_val : option nat }.
(** a read of a slot as an interface: one with a nil type is nil; syncpoolx.go 26 *)
Definition w_read (s : slot) : option nat := if w_typ s then w_val s else None.
(** where the owner is in pushHead or popHead; syncpoolx.go 26, 35 *)
Inductive opc :=
| OIdle
| OPush0 (x : nat)            (* before the load of headTail *)
| OPush1 (x : nat) (h : Z)    (* before the load of slot.typ *)
| OPush2 (x : nat) (h : Z)    (* before the write of the slot *)
| OPush3t (x : nat) (h : Z)   (* its type is written *)
| OPush3v (x : nat) (h : Z)   (* its value is written *)
| OPush4 (x : nat) (h : Z)    (* before the Add to headTail *)
| OPop0                       (* before the load of headTail *)
| OPop1 (h t : Z)             (* before the CompareAndSwap *)
| OPop2 (h : Z)               (* before the read of the slot *)
| OPop3 (h : Z) (v : option nat). (* before the slot is zeroed *)
(** where another goroutine is in popTail; syncpoolx.go 26 *)
Inductive cpc :=
| CIdle | C0 | C1 (h t : Z) | C2 (t : Z)
| C3 (t : Z) (v : option nat)    (* slot.val = nil is next *)
| C4 (t : Z) (v : option nat).   (* StorePointer(&slot.typ, nil) is next *)
(** poolDequeue and its users; syncpoolx.go 8-10 *)
Record dst := D { d_head : Z; d_tail : Z; d_slot : Z -> slot; d_own : opc; d_cons : nat -> cpc }.
(** an empty queue that has been in use for any time: all slots are nil; syncpoolx.go 8-10 *)
Definition d_init (h : Z) : dst := D h h (fun _ => Sw false None) OIdle (fun _ => CIdle).
(** what is seen: a push takes effect, or is refused because the queue is full or because a
    popTail has not yet emptied the slot; a popHead or popTail takes effect, returns a
    value, or finds the queue empty; syncpoolx.go 26, 35 *)
Inductive dlab := LPush (x : nat) | LPushFull | LPushBusy | LHead | LHeadRet (v : option nat) | LHeadNone
  | LTail (i : nat) | LTailRet (i : nat) (v : option nat) | LTailNone (i : nat) | LTau.
(** one word of one slot is written; syncpoolx.go 26, 35 *)
Definition sput (f : Z -> slot) (k : Z) (s : slot) : Z -> slot := fun j => if decide (j = k) then s else f j.

Section step.
Context (n : Z).
(** poolDequeue.pushHead, popHead, popTail; syncpoolx.go 26, 35 *)
Inductive d_step : dst -> dlab -> dst -> Prop :=
| ds_push h t sl c x : d_step (D h t sl OIdle c) LTau (D h t sl (OPush0 x) c)
| ds_push_full h t sl c x : (t + n) mod W = h -> d_step (D h t sl (OPush0 x) c) LPushFull (D h t sl OIdle c)
| ds_push_load h t sl c x : (t + n) mod W <> h -> d_step (D h t sl (OPush0 x) c) LTau (D h t sl (OPush1 x h) c)
| ds_push_busy h t sl c x hd : w_typ (sl (hd mod n)) = true -> d_step (D h t sl (OPush1 x hd) c) LPushBusy (D h t sl OIdle c)
| ds_push_free h t sl c x hd : w_typ (sl (hd mod n)) = false -> d_step (D h t sl (OPush1 x hd) c) LTau (D h t sl (OPush2 x hd) c)
| ds_push_t h t sl c x hd : d_step (D h t sl (OPush2 x hd) c) LTau (D h t (sput sl (hd mod n) (Sw true (w_val (sl (hd mod n))))) (OPush3t x hd) c)
| ds_push_v h t sl c x hd : d_step (D h t sl (OPush2 x hd) c) LTau (D h t (sput sl (hd mod n) (Sw (w_typ (sl (hd mod n))) (Some x))) (OPush3v x hd) c)
| ds_push_tv h t sl c x hd : d_step (D h t sl (OPush3t x hd) c) LTau (D h t (sput sl (hd mod n) (Sw (w_typ (sl (hd mod n))) (Some x))) (OPush4 x hd) c)
| ds_push_vt h t sl c x hd : d_step (D h t sl (OPush3v x hd) c) LTau (D h t (sput sl (hd mod n) (Sw true (w_val (sl (hd mod n))))) (OPush4 x hd) c)
| ds_push_add h t sl c x hd : d_step (D h t sl (OPush4 x hd) c) (LPush x) (D ((h + 1) mod W) t sl OIdle c)
| ds_pop h t sl c : d_step (D h t sl OIdle c) LTau (D h t sl OPop0 c)
| ds_pop_none h t sl c : t = h -> d_step (D h t sl OPop0 c) LHeadNone (D h t sl OIdle c)
| ds_pop_load h t sl c : t <> h -> d_step (D h t sl OPop0 c) LTau (D h t sl (OPop1 h t) c)
| ds_pop_cas h t sl c : d_step (D h t sl (OPop1 h t) c) LHead (D ((h - 1) mod W) t sl (OPop2 ((h - 1) mod W)) c)
| ds_pop_retry h t sl c h' t' : (h', t') <> (h, t) -> d_step (D h t sl (OPop1 h' t') c) LTau (D h t sl OPop0 c)
| ds_pop_read h t sl c hd : d_step (D h t sl (OPop2 hd) c) LTau (D h t sl (OPop3 hd (w_read (sl (hd mod n)))) c)
| ds_pop_zero h t sl c hd v : d_step (D h t sl (OPop3 hd v) c) (LHeadRet v) (D h t (sput sl (hd mod n) (Sw false None)) OIdle c)
| ds_tail h t sl o c i : c i = CIdle -> d_step (D h t sl o c) LTau (D h t sl o (tset c i C0))
| ds_tail_none h t sl o c i : c i = C0 -> t = h -> d_step (D h t sl o c) (LTailNone i) (D h t sl o (tset c i CIdle))
| ds_tail_load h t sl o c i : c i = C0 -> t <> h -> d_step (D h t sl o c) LTau (D h t sl o (tset c i (C1 h t)))
| ds_tail_cas h t sl o c i : c i = C1 h t -> d_step (D h t sl o c) (LTail i) (D h ((t + 1) mod W) sl o (tset c i (C2 t)))
| ds_tail_retry h t sl o c i h' t' : c i = C1 h' t' -> (h', t') <> (h, t) -> d_step (D h t sl o c) LTau (D h t sl o (tset c i C0))
| ds_tail_read h t sl o c i tl : c i = C2 tl -> d_step (D h t sl o c) LTau (D h t sl o (tset c i (C3 tl (w_read (sl (tl mod n))))))
| ds_tail_val h t sl o c i tl v : c i = C3 tl v -> d_step (D h t sl o c) LTau (D h t (sput sl (tl mod n) (Sw (w_typ (sl (tl mod n))) None)) o (tset c i (C4 tl v)))
| ds_tail_typ h t sl o c i tl v : c i = C4 tl v -> d_step (D h t sl o c) (LTailRet i v) (D h t (sput sl (tl mod n) (Sw false (w_val (sl (tl mod n))))) o (tset c i CIdle)).
End step.
