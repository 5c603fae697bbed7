(** Ways to use a deque: as a stack, from one end only; as a queue, in at one end and
    out at the other. *)
From Verif Require Import Base SeqSpec.

Section Spec.
Context {A : Type}.
Definition at_back (o : dop A) : Prop := match o with PushBack _ | PopBack | PeekBack => True | _ => False end.
Definition at_front (o : dop A) : Prop := match o with PushFront _ | PopFront | PeekFront => True | _ => False end.
Definition back_to_front (o : dop A) : Prop := match o with PushBack _ | PopFront | PeekFront => True | _ => False end.
Definition front_to_back (o : dop A) : Prop := match o with PushFront _ | PopBack | PeekBack => True | _ => False end.

(** never more than [n] elements *)
Definition depth_at_most (n : nat) (os : list (dop A)) : Prop :=
  forall pre post, os = pre ++ post -> length (ideal_state deque_step [] pre) <= n.

(** the pool hands out only new nodes: there cannot be as many nodes in it as there are calls *)
Definition only_new_nodes (hist : list (nat * dop A)) : Prop := Forall (fun co => length hist <= co.1) hist.

(** a deque that is good until it is first emptied, and empty from then on *)
Definition once_step (s : option (list A)) (o : dop A) : option (list A) * ret A :=
  match s with
  | Some l =>
      let '(l', r) := deque_step l o in
      (match l, l' with _ :: _, [] => None | _, _ => Some l' end, r)
  | None =>
      (None, match o with PushFront _ | PushBack _ => RUnit | _ => RVal None end)
  end.
(** the elements pushed *)
Definition pushed (os : list (dop A)) : list A :=
  omap (fun o => match o with PushFront x | PushBack x => Some x | _ => None end) os.
(** at most [n] are pushed before the deque is first emptied *)
Definition first_fill_at_most (n : nat) (os : list (dop A)) : Prop :=
  forall pre post, os = pre ++ post -> ideal_state once_step (Some []) pre <> None -> length (pushed pre) <= n.
End Spec.
