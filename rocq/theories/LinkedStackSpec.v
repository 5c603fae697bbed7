(** What dsx/linkedx/stackx really implements, as a function of the list of
    elements (top first): like the ideal stack, except that Pop discards the top
    and answers with the element *below* it, and fails when there is none. *)
From Verif Require Import Base SeqSpec.

Definition coded_stack_step {A} (l : list A) (o : sop A) : res (list A * ret A) :=
  match o with
  | Pop => match l with
           | [] => Ret ([], RVal None)
           | [_] => Panic
           | _ :: y :: l' => Ret (y :: l', RVal (Some y))
           end
  | _ => Ret (lifo_step l o)
  end.
