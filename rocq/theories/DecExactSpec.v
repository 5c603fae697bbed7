(** What a Decoupler used by one goroutine does, drops included: a ring of slots,
    the number of times a Write has tried a slot and the number of messages
    delivered.  No lock words, no length, no machine arithmetic. *)
From Verif Require Import Base DecModel.

Notation dslot := (option (list Z)).
Record dring := DR { r_slots : list dslot; r_tries : nat; r_reads : nat }.
Definition dr_new (n : nat) : dring := DR (replicate n None) 0 0.
(** the full slots that come before the first empty one *)
Fixpoint passes (l : list dslot) : nat := match l with Some _ :: l => S (passes l) | _ => 0 end.
Definition fulls (l : list dslot) : nat := length (omap id l).
Definition dr_step (g : dring) (o : dop) : res (dring * dret) :=
  match o with
  | OWrite [] => Ret (g, DDropped [])
  | OWrite b =>
      (* the slots in the order in which the writer comes to them *)
      let p := passes (rotate (r_tries g) (r_slots g)) in
      if decide (p = length (r_slots g)) then Ret (DR (r_slots g) (r_tries g + 1) (r_reads g), DDropped b)
      else Ret (DR (<[(r_tries g + p) mod length (r_slots g) := Some b]> (r_slots g)) (r_tries g + p + 1) (r_reads g), DStored (Z.of_nat (length b)))
  | ONext =>
      let i := r_reads g mod length (r_slots g) in
      match r_slots g !! i with
      | Some (Some b) => Ret (DR (<[i := None]> (r_slots g)) (r_tries g) (r_reads g + 1), DNext (Some b))
      | _ => if decide (fulls (r_slots g) = 0) then Ret (g, DNext None) else Spin
      end
  end.
