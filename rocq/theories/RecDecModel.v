(** iox/decouplex from one goroutine, with callbacks that may panic ([p]).  The
    drop function is called last (50, 70); the view function before the slot is
    released (94).  The outcome says what a callback was given. *)
From Verif Require Import Base DecModel.
Local Open Scope Z.

(** 54-55: the counter has moved when ts % d.size panics *)
Definition dec_left (d : dec) (o : dop) : dec :=
  match o with
  | OWrite _ => Dec (d_read d) (u64 (d_write d + 1)) (d_len d) (d_size d) (d_lock d) (d_buf d)
  | ONext => d
  end.
(** decouple.go 48-101: one call *)
Definition zr_step (fuel : nat) (d : dec) (op : dop * bool) : dec * (list (list Z) * res dret) :=
  match dec_step fuel d op.1 with
  | Ret (d', DDropped b) => (d', ([b], if op.2 then Panic else Ret (DDropped b)))
  | Ret (d', DNext (Some m)) => if op.2 then (d, ([m], Panic)) else (d', ([m], Ret (DNext (Some m))))
  | Ret (d', a) => (d', ([], Ret a))
  | Panic => (dec_left d op.1, ([], Panic))
  | Spin => (d, ([], Spin))
  end.
