(** A Decoupler declared with var: size 0, no slots, a nil drop function, and
    _write 0 instead of ^uint64(0). *)
From Verif Require Import Base DecModel RecDecModel.
Local Open Scope Z.

(** decouple.go 8-18 *)
Definition dec_zero : dec := Dec 0 0 0 0 (fun _ => 0) (fun _ => []).
(** a call, and what it leaves when it panics: 48 and 68 call the nil function, 53
    divides by zero when the counter has moved *)
Definition z0_step (fuel : nat) (d : dec) (o : dop) : dec * res dret :=
  match o with
  | OWrite [] => (d, Panic)
  | _ => match dec_step (S fuel) d o with
         | Ret (d', DDropped _) => (d', Panic)
         | Ret (d', a) => (d', Ret a)
         | Panic => (dec_left d o, Panic)
         | Spin => (d, Spin)
         end
  end.
