(** The histories on which dsx/linkedx/dequex is a double-ended queue: once an
    element has been pushed, no call is made on an emptied deque. *)
From Verif Require Import Base SeqSpec.

Definition is_push {A} (o : dop A) : bool :=
  match o with PushFront _ | PushBack _ => true | _ => false end.

Definition never_used_after_emptied {A} (os : list (dop A)) : Prop :=
  forall pre o post, os = pre ++ o :: post ->
    Forall (fun o => is_push o = false) pre (* nothing pushed so far *)
    \/ ideal_state deque_step [] pre <> [].
