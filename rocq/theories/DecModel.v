(** Model of iox/decouplex/decouple.go.  Bytes and words are integers. *)
From Verif Require Import Base Conc.
Local Open Scope Z.

(** 43-46 *)
Definition lock_empty : Z := 2^64 - 2.
(** decouple.go 45: busy *)
Definition lock_busy : Z := 2^64 - 1.

(** *** From one goroutine.  [d_lock]/[d_buf] are the slots 0 .. size-1. decouple.go 8-20 *)
Record dec := Dec { d_read : Z; d_write : Z; d_len : Z; d_size : Z; d_lock : Z -> Z; d_buf : Z -> list Z }.
(** assignment to a slot, decouple.go 59-63, 96 *)
Definition zset {A} (f : Z -> A) (i : Z) (a : A) : Z -> A := fun j => if j =? i then a else f j.
(** 22-41 *)
Definition new_decoupler (size : Z) : dec := Dec 0 (2^64 - 1) 0 size (fun _ => lock_empty) (fun _ => []).

(** how the calls of decouple.go 48-101 end *)
Inductive dret := DStored (n : Z) | DDropped (b : list Z) | DNext (m : option (list Z)).
(** 53-73: the loop; the CompareAndSwap succeeds, nobody else being there *)
Fixpoint write_loop (fuel : nat) (d : dec) (b : list Z) : res (dec * dret) :=
  match fuel with
  | O => Spin
  | S fuel =>
      let ts := u64 (d_write d + 1) in
      let d := Dec (d_read d) ts (d_len d) (d_size d) (d_lock d) (d_buf d) in
      if d_size d =? 0 then Panic else
      let idx := ts mod d_size d in
      let lock := d_lock d idx in
      if lock =? lock_empty then
        Ret (Dec (d_read d) ts (u64 (d_len d + 1)) (d_size d) (zset (d_lock d) idx ts) (zset (d_buf d) idx b), DStored (Z.of_nat (length b)))
      else if negb (lock =? lock_busy) && (d_len d =? d_size d) then Ret (d, DDropped b)
      else write_loop fuel d b
  end.
(** 48-51 *)
Definition dec_write (fuel : nat) (d : dec) (b : list Z) : res (dec * dret) :=
  match b with [] => Ret (d, DDropped b) | _ => write_loop fuel d b end.
(** 84-91 *)
Fixpoint wait_loop (fuel : nat) (d : dec) (idx : Z) : res unit :=
  match fuel with
  | O => Spin
  | S fuel => if (d_lock d idx =? lock_empty) || (d_lock d idx =? lock_busy) then wait_loop fuel d idx else Ret ()
  end.
(** 76-101; the bytes that [view] is given are valid during the call only *)
Definition dec_next (fuel : nat) (d : dec) : res (dec * dret) :=
  if d_len d =? 0 then Ret (d, DNext None) else
  if d_size d =? 0 then Panic else
  let idx := d_read d mod d_size d in
  let! _ := wait_loop fuel d idx in
  Ret (Dec (u64 (d_read d + 1)) (d_write d) (u64 (d_len d + (2^64 - 1))) (d_size d) (zset (d_lock d) idx lock_empty) (d_buf d), DNext (Some (d_buf d idx))).
(** the calls of decouple.go 48-101 *)
Inductive dop := OWrite (b : list Z) | ONext.
(** decouple.go 48-101: one call *)
Definition dec_step (fuel : nat) (d : dec) (o : dop) : res (dec * dret) :=
  match o with OWrite b => dec_write fuel d b | ONext => dec_next fuel d end.

(** *** Any number of writers and one reader.  Write call number t writes [msg t].
    Each atomic operation is a step; the copy into the slot's buffer is one step,
    which is justified by [decoupler_slot_exclusive]. decouple.go 48-74 *)
Inductive wpc := WIdle | WAdd | WLoad (ts : Z) | WCas (ts : Z) | WCopy (ts : Z) | WStore (ts : Z) | WLen | WCheck | WStored | WDropped.
(** where the reader is in decouple.go 76-101 *)
Inductive rpc := RIdle | RWait | RView | REmpty | RDec.
(** decouple.go 8-20, and where the goroutines are *)
Record cdec := CD { c_d : dec; c_w : nat -> wpc; c_r : rpc }.
(** what the steps of decouple.go 48-101 show to the outside *)
Inductive dlab := LWrite (t : nat) | LAdd (t : nat) | LPublish (t : nat) | LStored (t : nat) | LDrop (t : nat) | LView (b : list Z) | LNext (ok : bool) | LDTau.

Section step.
Context (msg : nat -> list Z).
(** decouple.go 55, 80: ts % d.size *)
Definition slot (d : dec) (ts : Z) : Z := ts mod d_size d.
(** decouple.go 59, 63, 96: a new value in locktab *)
Definition with_lock (d : dec) (i v : Z) : dec := Dec (d_read d) (d_write d) (d_len d) (d_size d) (zset (d_lock d) i v) (d_buf d).
(** the steps of decouple.go 48-74 (Write) and 76-101 (Next) *)
Inductive d_step : cdec -> dlab -> cdec -> Prop :=
(* 48-51 *)
| ds_write d w r t : w t = WIdle -> msg t <> [] -> d_step (CD d w r) (LWrite t) (CD d (tset w t WAdd) r)
| ds_write_empty d w r t : w t = WIdle -> msg t = [] -> d_step (CD d w r) (LDrop t) (CD d (tset w t WDropped) r)
(* 54 *)
| ds_add d w r t : w t = WAdd ->
    d_step (CD d w r) (LAdd t) (CD (Dec (d_read d) (u64 (d_write d + 1)) (d_len d) (d_size d) (d_lock d) (d_buf d)) (tset w t (WLoad (u64 (d_write d + 1)))) r)
(* 57-58 *)
| ds_load_empty d w r t ts : w t = WLoad ts -> d_lock d (slot d ts) = lock_empty -> d_step (CD d w r) LDTau (CD d (tset w t (WCas ts)) r)
| ds_load_busy d w r t ts : w t = WLoad ts -> d_lock d (slot d ts) = lock_busy -> d_step (CD d w r) LDTau (CD d (tset w t WAdd) r)
| ds_load_full d w r t ts : w t = WLoad ts -> d_lock d (slot d ts) <> lock_empty -> d_lock d (slot d ts) <> lock_busy ->
    d_step (CD d w r) LDTau (CD d (tset w t WCheck) r)
(* 58-61 *)
| ds_cas d w r t ts : w t = WCas ts -> d_lock d (slot d ts) = lock_empty ->
    d_step (CD d w r) LDTau (CD (with_lock d (slot d ts) lock_busy) (tset w t (WCopy ts)) r)
| ds_cas_fail d w r t ts : w t = WCas ts -> d_lock d (slot d ts) <> lock_empty -> d_step (CD d w r) LDTau (CD d (tset w t WAdd) r)
(* 62 *)
| ds_copy d w r t ts : w t = WCopy ts ->
    d_step (CD d w r) LDTau (CD (Dec (d_read d) (d_write d) (d_len d) (d_size d) (d_lock d) (zset (d_buf d) (slot d ts) (msg t))) (tset w t (WStore ts)) r)
(* 63 *)
| ds_store d w r t ts : w t = WStore ts -> d_step (CD d w r) (LPublish t) (CD (with_lock d (slot d ts) ts) (tset w t WLen) r)
(* 64-65 *)
| ds_len d w r t : w t = WLen ->
    d_step (CD d w r) (LStored t) (CD (Dec (d_read d) (d_write d) (u64 (d_len d + 1)) (d_size d) (d_lock d) (d_buf d)) (tset w t WStored) r)
(* 68-71 *)
| ds_drop d w r t : w t = WCheck -> d_len d = d_size d -> d_step (CD d w r) (LDrop t) (CD d (tset w t WDropped) r)
| ds_retry d w r t : w t = WCheck -> d_len d <> d_size d -> d_step (CD d w r) LDTau (CD d (tset w t WAdd) r)
(* 77-79 *)
| ds_next_none d w : d_len d = 0 -> d_step (CD d w RIdle) (LNext false) (CD d w RIdle)
| ds_next d w : d_len d <> 0 -> d_step (CD d w RIdle) LDTau (CD d w RWait)
(* 84-91: the loop ends *)
| ds_found d w : d_lock d (slot d (d_read d)) <> lock_empty -> d_lock d (slot d (d_read d)) <> lock_busy -> d_step (CD d w RWait) LDTau (CD d w RView)
(* 93-95 *)
| ds_view d w : d_step (CD d w RView) (LView (d_buf d (slot d (d_read d)))) (CD d w REmpty)
(* 96 *)
| ds_empty d w : d_step (CD d w REmpty) LDTau (CD (with_lock d (slot d (d_read d)) lock_empty) w RDec)
(* 97-100 *)
| ds_dec d w : d_step (CD d w RDec) (LNext true)
    (CD (Dec (u64 (d_read d + 1)) (d_write d) (u64 (d_len d + (2^64 - 1))) (d_size d) (d_lock d) (d_buf d)) w RIdle).
(** decouple.go 22-41: NewDecoupler *)
Definition d_init (size : Z) : cdec := CD (new_decoupler size) (fun _ => WIdle) RIdle.
End step.
