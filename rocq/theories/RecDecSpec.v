(** A decoupler whose view and drop functions may panic, the panic being recovered. *)
From Verif Require Import Base DecModel.
Local Open Scope Z.

(** a Next whose view panics *)
Definition spoiled (op : dop * bool) : bool := match op with (ONext, true) => true | _ => false end.
(** the calls that are not such, and their outcomes *)
Definition kept (hist : list (dop * bool)) : list (dop * bool) := List.filter (fun op => negb (spoiled op)) hist.
Fixpoint kept_outcomes {R} (hist : list (dop * bool)) (rs : list R) : list R :=
  match hist, rs with
  | op :: hist', r :: rs' => if spoiled op then kept_outcomes hist' rs' else r :: kept_outcomes hist' rs'
  | _, _ => []
  end.
(** what the callback of a call is given, and how the call ends *)
Definition given (a : dret) : list (list Z) :=
  match a with DDropped b => [b] | DNext (Some m) => [m] | _ => [] end.
Definition ends (p : bool) (a : dret) : res dret :=
  match a with DDropped _ => if p then Panic else Ret a | _ => Ret a end.
