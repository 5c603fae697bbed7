(** Data races.  Two accesses to one place race if they are made by different
    goroutines, at least one of them writes, they are not both made under one mutex
    (or both atomic), and some schedule leads to a state in which both are about to
    happen: nothing then orders them.  [acc s i x wr lk]: in state s goroutine i is
    about to access the place x, writing it iff wr, under the mutex iff lk. *)
From Verif Require Import Base.

Definition race {S I X} (acc : S -> I -> X -> bool -> bool -> Prop) (s : S) (x : X) : Prop :=
  exists i j wi wj li lj, i <> j /\ acc s i x wi li /\ acc s j x wj lj /\ (wi || wj = true) /\ (li && lj = false).
