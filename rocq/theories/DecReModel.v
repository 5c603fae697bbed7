(** iox/decouplex/decouple.go, one goroutine, with callbacks that use the decoupler:
    the drop function and the functions given to Next are programs. *)
From Verif Require Import Base DecModel.
Local Open Scope Z.

(** what a program does: return an integer (what drop returns; the value is ignored
    for a view), Write b and look at the int it returns, Next view and look at the bool;
    the calls are decouple.go 48 and 76 *)
Inductive dprog :=
| PRet (n : Z)
| PWrite (b : list Z) (k : Z -> dprog)
| PNext (view : list Z -> dprog) (k : bool -> dprog).
(** what can be seen from outside: b was stored; b was given to drop; view was called
    with b; view returned and its argument now reads b; Next returned;
    decouple.go 50, 62, 70, 94, 98 *)
Inductive devent := EStored (b : list Z) | EDrop (b : list Z) | EView (b : list Z) | EViewed (b : list Z) | ENext (ok : bool).

Section M.
Context (drop : list Z -> dprog).   (* d.drop *)
(** decouple.go 48-101: the calls a program makes, with the callbacks run where the code calls them
    (50, 70: d.drop; 94: view) *)
Fixpoint exec (fuel : nat) (d : dec) (tr : list devent) (p : dprog) : res (dec * list devent * Z) :=
  match fuel with
  | O => Spin
  | S fuel =>
      match p with
      | PRet n => Ret (d, tr, n)
      (* 48-74 *)
      | PWrite b k =>
          let! w := dec_write fuel d b in
          let! x := match w with
                    | (d, DDropped b) => exec fuel d (tr ++ [EDrop b]) (drop b)
                    | (d, DStored n) => Ret (d, tr ++ [EStored b], n)
                    | (d, DNext _) => Panic
                    end in
          let '(d, tr, n) := x in exec fuel d tr (k n)
      (* 76-101: idx is computed before view is called; _read is incremented after it *)
      | PNext view k =>
          if d_len d =? 0 then exec fuel d (tr ++ [ENext false]) (k false) else
          if d_size d =? 0 then Panic else
          let idx := d_read d mod d_size d in
          let! _ := wait_loop fuel d idx in
          let! x := exec fuel d (tr ++ [EView (d_buf d idx)]) (view (d_buf d idx)) in
          let '(d, tr, _) := x in
          exec fuel (Dec (u64 (d_read d + 1)) (d_write d) (u64 (d_len d + (2^64 - 1))) (d_size d) (zset (d_lock d) idx lock_empty) (d_buf d))
            (tr ++ [EViewed (d_buf d idx); ENext true]) (k true)
      end
  end.

(** *** The ideal: a queue q of at most [size] messages.  While a view runs its message
    is still in the queue.  The ideal is silent (None) where the decoupler leaves it:
    when Next is called from a view, and when, after a message was dropped, the queue
    is let down to size - 2 messages and then written to, without having been written
    to at size - 1 ([al] false: there was a drop and no message was stored since). *)
Context (size : Z).
(** not code: the ideal queue of messages, for the specification of decouple.go 48-101 *)
Record ideal := Id { i_q : list (list Z); i_al : bool; i_writes : Z; i_tr : list devent }.
(** not code: an entry in the trace of the ideal queue (decouple.go 48-101) *)
Definition emit (s : ideal) (es : list devent) : ideal := Id (i_q s) (i_al s) (i_writes s) (i_tr s ++ es).
(** not code: the program run on the ideal queue, in the place of decouple.go 48-101 *)
Fixpoint ideal_exec (fuel : nat) (inview : bool) (s : ideal) (p : dprog) : option (ideal * Z) :=
  match fuel with
  | O => None
  | S fuel =>
      match p with
      | PRet n => Some (s, n)
      | PWrite b k =>
          x ← (if decide (b = []) then ideal_exec fuel inview (emit s [EDrop b]) (drop b)
               else if decide (Z.of_nat (length (i_q s)) = size) then
                 ideal_exec fuel inview (Id (i_q s) false (i_writes s + 1) (i_tr s ++ [EDrop b])) (drop b)
               else if i_al s || bool_decide (Z.of_nat (length (i_q s)) = size - 1) then
                 Some (Id (i_q s ++ [b]) true (i_writes s + 1) (i_tr s ++ [EStored b]), Z.of_nat (length b))
               else None);
          ideal_exec fuel inview x.1 (k x.2)
      | PNext view k =>
          match i_q s with
          | [] => ideal_exec fuel inview (emit s [ENext false]) (k false)
          | m :: _ =>
              if inview then None else
              x ← ideal_exec fuel true (emit s [EView m]) (view m);
              ideal_exec fuel inview (Id (tail (i_q x.1)) (i_al x.1) (i_writes x.1) (i_tr x.1 ++ [EViewed m; ENext true])) (k true)
          end
      end
  end.
End M.
(** not code: the ideal queue at the start, in the place of decouple.go 22-41 *)
Definition ideal_new : ideal := Id [] true 0 [].
