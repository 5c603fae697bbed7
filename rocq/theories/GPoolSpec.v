(** What a pool is: a bag. *)
From Verif Require Import Base GPoolModel.
Open Scope nat_scope.

Inductive b_step : list nat -> glab -> list nat -> Prop :=
| bs_put b x : b_step b (GPut x) (x :: b)
| bs_get b x b' : b ≡ₚ x :: b' -> b_step b (GGet x) b'
| bs_drop b c b' : b ≡ₚ c ++ b' -> b_step b (GDrop c) b'
| bs_new b x : b_step b (GNew x) b
| bs_tau b : b_step b GTau b.
(** how often x is put, got, made by New and dropped in a trace *)
Definition puts (x : nat) (tr : list glab) : nat := sum_list_with (fun l => match l with GPut y => if decide (y = x) then 1 else 0 | _ => 0 end) tr.
Definition gets (x : nat) (tr : list glab) : nat := sum_list_with (fun l => match l with GGet y => if decide (y = x) then 1 else 0 | _ => 0 end) tr.
Definition mades (x : nat) (tr : list glab) : nat := sum_list_with (fun l => match l with GNew y => if decide (y = x) then 1 else 0 | _ => 0 end) tr.
Definition drops (x : nat) (tr : list glab) : nat := sum_list_with (fun l => match l with GDrop c => count_occ Nat.eq_dec c x | _ => 0 end) tr.
(** x is put only by somebody who has it: it was made or got more often than it was put *)
Definition disciplined (x : nat) (tr : list glab) : Prop :=
  forall p, p `prefix_of` tr -> puts x p <= mades x p + gets x p.
