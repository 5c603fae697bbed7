(** Model of iox/decouplex/decouple.go with any number of goroutines that call Next.
    Writers take the steps of [DecModel.d_step]; the reader's plain accesses to _read
    (80, 98) are steps of their own. *)
From Verif Require Import Base Conc DecModel.
Local Open Scope Z.

(** where a goroutine is in decouple.go 76-101 *)
Inductive npc := NIdle | NRead | NWait (r : Z) | NView (r : Z) | NEmpty (r : Z) | NDec | NLoad | NStore (x : Z).
(** decouple.go 8-20, and where the goroutines are *)
Record mdec := MD { m_d : dec; m_w : nat -> wpc; m_r : nat -> npc }.
(** decouple.go 97: a new value of _len *)
Definition with_len (d : dec) (n : Z) : dec := Dec (d_read d) (d_write d) n (d_size d) (d_lock d) (d_buf d).
(** decouple.go 98: a new value of _read *)
Definition with_read (d : dec) (n : Z) : dec := Dec n (d_write d) (d_len d) (d_size d) (d_lock d) (d_buf d).

Section step.
Context (msg : nat -> list Z).
(** the steps of decouple.go 48-74 (Write) and 76-101 (Next) *)
Inductive m_step : mdec -> dlab -> mdec -> Prop :=
(* 48-74: Write, as in DecModel *)
| ms_write d w r l d' w' : d_step msg (CD d w RIdle) l (CD d' w' RIdle) -> (forall ok, l <> LNext ok) -> m_step (MD d w r) l (MD d' w' r)
(* 77-79 *)
| ms_none d w r g : r g = NIdle -> d_len d = 0 -> m_step (MD d w r) (LNext false) (MD d w r)
| ms_some d w r g : r g = NIdle -> d_len d <> 0 -> m_step (MD d w r) LDTau (MD d w (tset r g NRead))
(* 80 *)
| ms_read d w r g : r g = NRead -> m_step (MD d w r) LDTau (MD d w (tset r g (NWait (d_read d))))
(* 84-91: the loop ends *)
| ms_found d w r g n : r g = NWait n -> d_lock d (slot d n) <> lock_empty -> d_lock d (slot d n) <> lock_busy ->
    m_step (MD d w r) LDTau (MD d w (tset r g (NView n)))
(* 93-95 *)
| ms_view d w r g n : r g = NView n -> m_step (MD d w r) (LView (d_buf d (slot d n))) (MD d w (tset r g (NEmpty n)))
(* 96 *)
| ms_empty d w r g n : r g = NEmpty n -> m_step (MD d w r) LDTau (MD (with_lock d (slot d n) lock_empty) w (tset r g NDec))
(* 97 *)
| ms_dec d w r g : r g = NDec -> m_step (MD d w r) LDTau (MD (with_len d (u64 (d_len d + (2^64 - 1)))) w (tset r g NLoad))
(* 98-100: _read++, return true *)
| ms_load d w r g : r g = NLoad -> m_step (MD d w r) LDTau (MD d w (tset r g (NStore (d_read d))))
| ms_store d w r g x : r g = NStore x -> m_step (MD d w r) (LNext true) (MD (with_read d (u64 (x + 1))) w (tset r g NIdle)).
(** decouple.go 22-41: NewDecoupler *)
Definition m_init (size : Z) : mdec := MD (new_decoupler size) (fun _ => WIdle) (fun _ => NIdle).

(** the same as a function, for examples; decouple.go 48-101 *)
Inductive mmove := MWrite (t : nat) | MNext (g : nat).
End step.
