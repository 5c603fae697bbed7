(** The calls on which dsx/linkedx/listx is an indexed sequence: anything that
    does not touch the last position and stays in range. *)
From Verif Require Import Base SeqSpec.

Definition safe_list_op {A} (l : list A) (o : lop A) : Prop :=
  match o with
  | Insert i _ => (0 <= i < zlen l)%Z
  | Remove i => (0 <= i < zlen l - 1)%Z
  | _ => True
  end.
