(** Go's sync.Pool (sync/pool.go, sync/poolqueue.go, Go 1.19), on which
    syncx/syncpoolx/syncpoolx.go 16-36 and the linkedx containers stand.  Each P has a place for one
    object and a chain of poolDequeues; what is put by a goroutine on P goes to P's place or to
    the newest dequeue of P's chain; what is taken comes from P's own place, from the head of one of
    its dequeues, or from the tail of anybody's.  The garbage collector moves all of it to the
    victim cache and throws away what was there.  Which place or dequeue a call tries is left open
    (the code tries them in an order), so the model has more executions than the code.  The number
    of Ps does not change. *)
From Verif Require Import Base Conc PDeqModel.
Open Scope Z_scope.

(** a poolDequeue in a chain: its size, whether a newer one has been linked after it, and whether it has been
    taken out of its chain; syncpoolx.go 26, 35 *)
Record dq := Q { q_n : Z; q_d : dst; q_shut : bool; q_gone : bool }.
(** local and victim; syncpoolx.go 8-10 *)
Record gp := GP { g_priv : list (option nat); g_dq : list dq; g_vpriv : list (option nat); g_vdq : list dq }.
(** the zero Pool, with m Ps; syncpoolx.go 8-10 *)
Definition g_init (m : nat) : gp := GP (replicate m None) [] [] [].
(** what is seen of the pool: an object is in it from GPut to GGet; GNew: New is called; GDrop: the collector throws away *)
Inductive glab := GPut (x : nat) | GGet (x : nat) | GNew (x : nat) | GDrop (c : list nat) | GTau.
(** what a step of a dequeue is to the pool; syncpoolx.go 26, 35 *)
Definition g_lab (l : dlab) : glab :=
  match l with LPush x => GPut x | LHeadRet (Some x) | LTailRet _ (Some x) => GGet x | _ => GTau end.
(** the owner is in pushHead; syncpoolx.go 35 *)
Definition pushing (o : opc) : bool :=
  match o with OPush0 _ | OPush1 _ _ | OPush2 _ _ | OPush3t _ _ | OPush3v _ _ | OPush4 _ _ => true | _ => false end.
(** nobody is in pushHead, popHead or popTail: the collector runs with the world stopped, and a goroutine is not
    stopped while it is pinned to its P; syncpoolx.go 26, 35 *)
Definition q_quiet (q : dq) : Prop := d_own (q_d q) = OIdle /\ forall i, d_cons (q_d q) i = CIdle.
Definition g_quiet (s : gp) : Prop := Forall q_quiet (g_dq s) /\ Forall q_quiet (g_vdq s).
(** what memory holds in the places from tail to head of a dequeue that is still in its chain; syncpoolx.go 8-10 *)
Definition q_items (q : dq) : list nat :=
  if q_gone q then [] else
  omap (fun j => w_read (d_slot (q_d q) ((d_tail (q_d q) + Z.of_nat j) mod q_n q))) (seq 0 (Z.to_nat ((d_head (q_d q) - d_tail (q_d q)) mod W))).
Definition items (ps : list (option nat)) (qs : list dq) : list nat := omap id ps ++ concat (map q_items qs).
Definition g_items (s : gp) : list nat := items (g_priv s) (g_dq s) ++ items (g_vpriv s) (g_vdq s).

(** a step in a dequeue.  No push begins once a newer dequeue is there (poolChain.pushHead); it is taken out of
    the chain after a popTail has found it empty, if a newer one was there before (poolChain.popTail); syncpoolx.go 26, 35 *)
Inductive q_step : dq -> dlab -> dq -> Prop :=
| qs n d sh go l d' go' : d_step n d l d' -> (pushing (d_own d') = true -> pushing (d_own d) = true \/ sh = false) ->
    (go' = go \/ (sh = true /\ exists i, l = LTailNone i)) -> (go = true -> go' = true) -> q_step (Q n d sh go) l (Q n d' sh go').
(** sync.Pool.Get, Put, pin, poolCleanup; syncpoolx.go 26, 35 *)
Inductive g_step : gp -> glab -> gp -> Prop :=
| gs_put_priv ps qs vps vqs p x : ps !! p = Some None -> g_step (GP ps qs vps vqs) (GPut x) (GP (<[p := Some x]> ps) qs vps vqs)
| gs_get_priv ps qs vps vqs p x : ps !! p = Some (Some x) -> g_step (GP ps qs vps vqs) (GGet x) (GP (<[p := None]> ps) qs vps vqs)
| gs_get_vpriv ps qs vps vqs p x : vps !! p = Some (Some x) -> g_step (GP ps qs vps vqs) (GGet x) (GP ps qs (<[p := None]> vps) vqs)
| gs_chain ps qs vps vqs n : 0 < n < W -> (n | W) -> g_step (GP ps qs vps vqs) GTau (GP ps (qs ++ [Q n (d_init 0) false false]) vps vqs)
| gs_shut ps qs vps vqs k n d sh go : qs !! k = Some (Q n d sh go) -> d_own d = OIdle ->
    g_step (GP ps qs vps vqs) GTau (GP ps (<[k := Q n d true go]> qs) vps vqs)
| gs_dq ps qs vps vqs k q l q' : qs !! k = Some q -> q_step q l q' -> g_step (GP ps qs vps vqs) (g_lab l) (GP ps (<[k := q']> qs) vps vqs)
| gs_vdq ps qs vps vqs k q l q' : vqs !! k = Some q -> q_step q l q' -> d_own (q_d q') = d_own (q_d q) ->
    g_step (GP ps qs vps vqs) (g_lab l) (GP ps qs vps (<[k := q']> vqs))
| gs_new ps qs vps vqs x : g_step (GP ps qs vps vqs) (GNew x) (GP ps qs vps vqs)
| gs_gc ps qs vps vqs : g_quiet (GP ps qs vps vqs) ->
    g_step (GP ps qs vps vqs) (GDrop (items vps vqs)) (GP (replicate (length ps) None) [] ps qs).
