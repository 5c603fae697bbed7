(** Model of iox/decouplex/decouple.go in which the buffers are memory: any number of
    writers and one reader, every access to a word of a slice header or to a byte of a
    message a step of its own.  The locks and counters are those of [DecModel.dec], whose
    field [d_buf] is not used here. *)
From Verif Require Import Base Conc DecModel.
Local Open Scope Z.

(** d.buffer: pointer, length and capacity of each slot's slice; the bytes of array [a], and
    how many there are; the next array that append allocates.  The slices of NewDecoupler (35) are nil *)
Record bmem := BM { b_ptr : Z -> nat; b_hlen : Z -> nat; b_cap : Z -> nat; b_mem : nat -> nat -> Z; b_size : nat -> nat; b_next : nat }.
(** decouple.go 38: make([][]byte, size), all slices nil *)
Definition bmem_new : bmem := BM (fun _ => O) (fun _ => O) (fun _ => O) (fun _ _ => 0) (fun _ => O) 0.
(** decouple.go 62: the pointer of d.buffer[i] *)
Definition set_ptr (m : bmem) (i : Z) (a : nat) : bmem := BM (zset (b_ptr m) i a) (b_hlen m) (b_cap m) (b_mem m) (b_size m) (b_next m).
(** decouple.go 62: the length of d.buffer[i] *)
Definition set_hlen (m : bmem) (i : Z) (n : nat) : bmem := BM (b_ptr m) (zset (b_hlen m) i n) (b_cap m) (b_mem m) (b_size m) (b_next m).
(** decouple.go 62: the capacity of d.buffer[i] *)
Definition set_cap (m : bmem) (i : Z) (n : nat) : bmem := BM (b_ptr m) (b_hlen m) (zset (b_cap m) i n) (b_mem m) (b_size m) (b_next m).
(** decouple.go 62: one byte of an array *)
Definition set_byte (m : bmem) (a j : nat) (v : Z) : bmem :=
  BM (b_ptr m) (b_hlen m) (b_cap m) (fun a' j' => if decide (a' = a /\ j' = j) then v else b_mem m a' j') (b_size m) (b_next m).
(** decouple.go 62: append makes a new array *)
Definition alloc (m : bmem) (c : nat) : bmem := BM (b_ptr m) (b_hlen m) (b_cap m) (b_mem m) (tset (b_size m) (b_next m) c) (S (b_next m)).

(** A writer is where it is in [DecModel], or within line 60: it has the pointer; it copies
    to array [a] of capacity [c], and has copied the bytes [done]; it has copied them all;
    it has written the pointer; it has written the length, too. *)
Inductive bwpc := BW (p : wpc) | BCap (ts : Z) (a : nat) | BBytes (ts : Z) (a c : nat) (done : list nat) | BHead (ts : Z) (a c : nat) | BHead1 (ts : Z) (a c : nat) | BHead2 (ts : Z) (a c : nat).
(** The reader is where it is in [DecModel], or within line 92: it has the pointer; the
    callback looks at the [n] bytes of array [a], and has seen [got]; it has seen them all. *)
Inductive brpc := BR (p : rpc) | BLen (a : nat) | BLook (a n : nat) (got : list Z) | BUse (a n : nat).
(** decouple.go 8-20, and where the goroutines are *)
Record bdec := BD { b_d : dec; b_m : bmem; b_w : nat -> bwpc; b_r : brpc }.

Section step.
Context (msg : nat -> list Z).
(** the steps of decouple.go 48-74 (Write) and 76-101 (Next) *)
Inductive b_step : bdec -> dlab -> bdec -> Prop :=
(* 48-51 *)
| bs_write d m w r t : w t = BW WIdle -> msg t <> [] -> b_step (BD d m w r) (LWrite t) (BD d m (tset w t (BW WAdd)) r)
| bs_write_empty d m w r t : w t = BW WIdle -> msg t = [] -> b_step (BD d m w r) (LDrop t) (BD d m (tset w t (BW WDropped)) r)
(* 54 *)
| bs_add d m w r t : w t = BW WAdd ->
    b_step (BD d m w r) (LAdd t) (BD (Dec (d_read d) (u64 (d_write d + 1)) (d_len d) (d_size d) (d_lock d) (d_buf d)) m (tset w t (BW (WLoad (u64 (d_write d + 1))))) r)
(* 57-58 *)
| bs_load_empty d m w r t ts : w t = BW (WLoad ts) -> d_lock d (slot d ts) = lock_empty -> b_step (BD d m w r) LDTau (BD d m (tset w t (BW (WCas ts))) r)
| bs_load_busy d m w r t ts : w t = BW (WLoad ts) -> d_lock d (slot d ts) = lock_busy -> b_step (BD d m w r) LDTau (BD d m (tset w t (BW WAdd)) r)
| bs_load_full d m w r t ts : w t = BW (WLoad ts) -> d_lock d (slot d ts) <> lock_empty -> d_lock d (slot d ts) <> lock_busy ->
    b_step (BD d m w r) LDTau (BD d m (tset w t (BW WCheck)) r)
(* 58-61 *)
| bs_cas d m w r t ts : w t = BW (WCas ts) -> d_lock d (slot d ts) = lock_empty ->
    b_step (BD d m w r) LDTau (BD (with_lock d (slot d ts) lock_busy) m (tset w t (BW (WCopy ts))) r)
| bs_cas_fail d m w r t ts : w t = BW (WCas ts) -> d_lock d (slot d ts) <> lock_empty -> b_step (BD d m w r) LDTau (BD d m (tset w t (BW WAdd)) r)
(* 62: d.buffer[idx][:0] *)
| bs_ptr d m w r t ts : w t = BW (WCopy ts) -> b_step (BD d m w r) LDTau (BD d m (tset w t (BCap ts (b_ptr m (slot d ts)))) r)
(* append finds room in the array *)
| bs_room d m w r t ts a : w t = BCap ts a -> (length (msg t) <= b_cap m (slot d ts))%nat ->
    b_step (BD d m w r) LDTau (BD d m (tset w t (BBytes ts a (b_cap m (slot d ts)) [])) r)
(* or makes a new one of any capacity that is enough *)
| bs_grow d m w r t ts a c : w t = BCap ts a -> (b_cap m (slot d ts) < length (msg t) <= c)%nat ->
    b_step (BD d m w r) LDTau (BD d (alloc m c) (tset w t (BBytes ts (b_next m) c [])) r)
(* memmove: in any order, perhaps some of them twice *)
| bs_byte d m w r t ts a c done j : w t = BBytes ts a c done -> (j < length (msg t))%nat ->
    b_step (BD d m w r) LDTau (BD d (set_byte m a j (nth j (msg t) 0)) (tset w t (BBytes ts a c (j :: done))) r)
| bs_copied d m w r t ts a c done : w t = BBytes ts a c done -> (forall j, (j < length (msg t))%nat -> j ∈ done) ->
    b_step (BD d m w r) LDTau (BD d m (tset w t (BHead ts a c)) r)
(* d.buffer[idx] = *)
| bs_head d m w r t ts a c : w t = BHead ts a c -> b_step (BD d m w r) LDTau (BD d (set_ptr m (slot d ts) a) (tset w t (BHead1 ts a c)) r)
| bs_head1 d m w r t ts a c : w t = BHead1 ts a c -> b_step (BD d m w r) LDTau (BD d (set_hlen m (slot d ts) (length (msg t))) (tset w t (BHead2 ts a c)) r)
| bs_head2 d m w r t ts a c : w t = BHead2 ts a c -> b_step (BD d m w r) LDTau (BD d (set_cap m (slot d ts) c) (tset w t (BW (WStore ts))) r)
(* 63 *)
| bs_store d m w r t ts : w t = BW (WStore ts) -> b_step (BD d m w r) (LPublish t) (BD (with_lock d (slot d ts) ts) m (tset w t (BW WLen)) r)
(* 64-65 *)
| bs_len d m w r t : w t = BW WLen ->
    b_step (BD d m w r) (LStored t) (BD (Dec (d_read d) (d_write d) (u64 (d_len d + 1)) (d_size d) (d_lock d) (d_buf d)) m (tset w t (BW WStored)) r)
(* 68-71 *)
| bs_drop d m w r t : w t = BW WCheck -> d_len d = d_size d -> b_step (BD d m w r) (LDrop t) (BD d m (tset w t (BW WDropped)) r)
| bs_retry d m w r t : w t = BW WCheck -> d_len d <> d_size d -> b_step (BD d m w r) LDTau (BD d m (tset w t (BW WAdd)) r)
(* 77-79 *)
| bs_next_none d m w : d_len d = 0 -> b_step (BD d m w (BR RIdle)) (LNext false) (BD d m w (BR RIdle))
| bs_next d m w : d_len d <> 0 -> b_step (BD d m w (BR RIdle)) LDTau (BD d m w (BR RWait))
(* 84-91: the loop ends *)
| bs_found d m w : d_lock d (slot d (d_read d)) <> lock_empty -> d_lock d (slot d (d_read d)) <> lock_busy -> b_step (BD d m w (BR RWait)) LDTau (BD d m w (BR RView))
(* 93-95: the header; the callback looks at the bytes *)
| bs_vptr d m w : b_step (BD d m w (BR RView)) LDTau (BD d m w (BLen (b_ptr m (slot d (d_read d)))))
| bs_vlen d m w a : b_step (BD d m w (BLen a)) LDTau (BD d m w (BLook a (b_hlen m (slot d (d_read d))) []))
| bs_look d m w a n got : (length got < n)%nat -> b_step (BD d m w (BLook a n got)) LDTau (BD d m w (BLook a n (got ++ [b_mem m a (length got)])))
| bs_seen d m w a n got : length got = n -> b_step (BD d m w (BLook a n got)) (LView got) (BD d m w (BUse a n))
(* and may overwrite them *)
| bs_use d m w a n j v : (j < n)%nat -> b_step (BD d m w (BUse a n)) LDTau (BD d (set_byte m a j v) w (BUse a n))
(* 96 *)
| bs_empty d m w a n : b_step (BD d m w (BUse a n)) LDTau (BD (with_lock d (slot d (d_read d)) lock_empty) m w (BR RDec))
(* 97-100 *)
| bs_dec d m w : b_step (BD d m w (BR RDec)) (LNext true)
    (BD (Dec (u64 (d_read d + 1)) (d_write d) (u64 (d_len d + (2^64 - 1))) (d_size d) (d_lock d) (d_buf d)) m w (BR RIdle)).
(** decouple.go 22-41: NewDecoupler *)
Definition b_init (size : Z) : bdec := BD (new_decoupler size) bmem_new (fun _ => BW WIdle) (BR RIdle).

(** the words of memory that the goroutines share without atomic operations, and who is
    about to read or write which; writer t is [Some t], the reader [None]; decouple.go 62, 94 *)
Inductive word := WPtr (i : Z) | WLen_ (i : Z) | WCap_ (i : Z) | WByte (a j : nat).
(** decouple.go 62 (the writers), 94 (the reader) *)
Inductive touches (s : bdec) : option nat -> word -> bool -> Prop :=
| to_ptr t ts : b_w s t = BW (WCopy ts) -> touches s (Some t) (WPtr (slot (b_d s) ts)) false
| to_cap t ts a : b_w s t = BCap ts a -> touches s (Some t) (WCap_ (slot (b_d s) ts)) false
| to_byte t ts a c done j : b_w s t = BBytes ts a c done -> (j < length (msg t))%nat -> touches s (Some t) (WByte a j) true
| to_head t ts a c : b_w s t = BHead ts a c -> touches s (Some t) (WPtr (slot (b_d s) ts)) true
| to_head1 t ts a c : b_w s t = BHead1 ts a c -> touches s (Some t) (WLen_ (slot (b_d s) ts)) true
| to_head2 t ts a c : b_w s t = BHead2 ts a c -> touches s (Some t) (WCap_ (slot (b_d s) ts)) true
| to_vptr : b_r s = BR RView -> touches s None (WPtr (slot (b_d s) (d_read (b_d s)))) false
| to_vlen a : b_r s = BLen a -> touches s None (WLen_ (slot (b_d s) (d_read (b_d s)))) false
| to_look a n got j : b_r s = BLook a n got -> (j < n)%nat -> touches s None (WByte a j) false
| to_use a n j wr : b_r s = BUse a n -> (j < n)%nat -> touches s None (WByte a j) wr.
End step.
