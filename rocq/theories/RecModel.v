(** Containers whose panics the caller recovers, and containers that were not made
    by their New.  A call gives its outcome and the state it leaves behind: when it
    panics, whatever it had already written stays written.  The calls that return
    are those of the models of each package; only the panics are added here. *)
From Verif Require Import Base SeqSpec LinkedHeap RingSpec BitSetSpec SliceStackSpec GoSlice.
From Verif Require Import LinkedStackModel LinkedQueueModel LinkedListModel DequeModel RingModel SliceStackModel BitSetModel.

(** a history in which every panic is recovered: every outcome, and the last state;
    no code of /repo (the packages are those of the .go files cited below) *)
Fixpoint rec_run {S O R} (step : S -> O -> S * res R) (s : S) (os : list O) : list (res R) * S :=
  match os with
  | [] => ([], s)
  | o :: os' =>
      let '(s1, r) := step s o in
      let '(rs, s') := rec_run step s1 os' in (r :: rs, s')
  end.
(** the outcome of a call, and the state after it when it leaves [left] on a panic;
    no code of /repo (the packages are those of the .go files cited below) *)
Definition recovered {S R} (left : S) (r : res (S * R)) : S * res R :=
  match r with Ret (s, a) => (s, Ret a) | Panic => (left, Panic) | Spin => (left, Spin) end.

Section Linked.
Context {A : Type} (zero : A).

(** *** dsx/linkedx/stackx.  [made]: by New.  Otherwise s.pool is nil, and
    s.pool.Get() panics (stackx.go 34). *)
Definition sr_push (made : bool) (c : nat) (s : stack A) (x : A) : res (stack A * ret A) :=
  if made then s_step zero s (c, Push x) else Panic.
(** stackx.go 32-60 *)
Definition sr_step (made : bool) (s : stack A) (co : nat * sop A) : stack A * res (ret A) :=
  match co.2 with
  | Push x =>                                  (* 33: s.length++ comes first *)
      recovered (Stack (s_heap s) (s_pool s) (s_head s) (s_length s + 1)) (sr_push made co.1 s x)
  | Pop =>                                     (* 48: s.head.data is last *)
      recovered match s_head s with
                | Some hd =>
                    match s_heap s !! hd with
                    | Some nd => Stack (s_heap s) (s_pool s ++ [hd]) (nnext nd) (s_length s - 1)
                    | None => s
                    end
                | None => s
                end (s_step zero s co)
  | _ => recovered s (s_step zero s co)
  end.

(** *** dsx/linkedx/queuex.  Not made by New: the pool has no New function, its Get
    returns nil when it is empty, and the type assertion panics (queuex.go 33). *)
Definition qr_step (made : bool) (q : queue A) (co : nat * qop A) : queue A * res (ret A) :=
  match co.2 with
  | Enqueue x =>
      recovered q (if made || bool_decide (is_Some (q_pool q !! co.1)) then q_step zero q co else Panic)
  | Dequeue =>                                 (* 51: q.head.data is last *)
      recovered match q_head q with
                | Some hd =>
                    match q_heap q !! hd with
                    | Some nd => Queue (q_heap q) (q_pool q ++ [hd]) (nnext nd) (q_tail q)
                    | None => q
                    end
                | None => q
                end (q_step zero q co)
  | _ => recovered q (q_step zero q co)
  end.

(** *** dsx/linkedx/dequex: the same pool (dequex.go 39, 48, 63, 72).  Only the calls
    that panic at the pool are of interest here. *)
Definition dr_gets (d : deque A) (o : dop A) : bool :=
  match o with
  | PushFront _ =>
      match d_head d with
      | None => true
      | Some hd => match d_heap d !! hd with Some n => (dstart n =? 0)%Z | None => false end
      end
  | PushBack _ =>
      match d_tail d with
      | None => true
      | Some tl => match d_heap d !! tl with Some n => (dend n =? chunk)%Z | None => false end
      end
  | _ => false
  end.
(** dequex.go 37-129 *)
Definition dr_step (made : bool) (d : deque A) (co : nat * dop A) : deque A * res (ret A) :=
  recovered d (if negb (dr_gets d co.2) || made || bool_decide (is_Some (d_pool d !! co.1)) then d_step zero d co else Panic).

(** *** dsx/linkedx/listx.  l.length++ or l.length-- comes first (34, 48, 74); with a
    nil pool nothing more happens; otherwise a panic of Insert (58) comes after the
    node was taken and filled (49-51). *)
Definition l_counted (d : Z) (l : llist A) : llist A :=
  LList (l_heap l) (l_pool l) (l_head l) (l_tail l) (l_length l + d).
(** listx.go 34-37, 48-51: the length is changed and the node taken before the panic *)
Definition l_taken (c : nat) (l : llist A) (x : A) : llist A :=
  let '(n, pool, h) := pool_get (Node zero None) c (l_pool l) (l_heap l) in
  LList (<[n := Node x None]> h) pool (l_head l) (l_tail l) (l_length l + 1).
(** listx.go 33-125 *)
Definition lr_step (made : bool) (l : llist A) (co : nat * lop A) : llist A * res (ret A) :=
  match co.2 with
  | Append x | Insert _ x =>
      if made then recovered (l_taken co.1 l x) (l_step zero l co)
      else (l_counted 1 l, Panic)
  | Remove _ => recovered (l_counted (-1) l) (l_step zero l co)
  | _ => recovered l (l_step zero l co)
  end.

(** *** dsx/slicex/queuex.  The zero Ring has cap 0: % r.cap panics (59; Enqueue calls
    IsFull first).  Every panic comes before the fields are written. *)
Definition rr_step (r : ring A) (o : rop A) : ring A * res (ret A) :=
  match o with
  | REnqueue _ | RIsFull =>
      if (rg_cap r =? 0)%Z then (r, Panic)
      else match r_step (Some r) o with Ret (Some r', a) => (r', Ret a) | Ret (None, a) => (r, Ret a) | Panic => (r, Panic) | Spin => (r, Spin) end
  | _ => match r_step (Some r) o with Ret (Some r', a) => (r', Ret a) | Ret (None, a) => (r, Ret a) | Panic => (r, Panic) | Spin => (r, Spin) end
  end.

(** *** dsx/slicex/listx.  Insert has appended before it panics (listx.go 14-16). *)
Definition vr_step (st : list (list A) * slice) (co : nat * lop A) : (list (list A) * slice) * res (ret A) :=
  recovered (match co.2 with Insert _ x => append zero co.1 st.1 st.2 [x] | _ => st end) (v_step zero st co).
End Linked.

(** *** dsx/setx/bitsetx: the indices before the negative one have been used. *)
Section Bits.
Variable w : Z.
(** bitsetx.go 12-14, 18-20, 24-26: the indices before the one that panics *)
Fixpoint b_left (f : Z -> Z -> Z) (data : Z) (is : list Z) : Z :=
  match is with
  | [] => data
  | i :: is' => match shl1 w i with Ret k => b_left f (f data k) is' | _ => data end
  end.
(** bitsetx.go 11-55 *)
Definition br_step (data : Z) (o : bop) : Z * res (ret unit) :=
  recovered match o with
            | BSet is => b_left Z.lor data is
            | BClear is => b_left (fun d k => Z.land d (wnot w k)) data is
            | BToggle is => b_left Z.lxor data is
            | _ => data
            end (b_step w data o).
End Bits.
