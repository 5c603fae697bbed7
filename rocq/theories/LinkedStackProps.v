(** Properties of dsx/linkedx/stackx (C14, C15). *)
From Verif Require Import Base SeqSpec LinkedHeap LinkedStackModel LinkedStackSpec LinkedStackProofs.

(** C14 (natural statement, false): every history behaves as the ideal stack. *)
Theorem linked_stack_lifo_refuted :
  ~ (forall (hist : list (nat * sop nat)),
       exists s', run (s_step 0) s_new hist = (ideal_results lifo_step [] hist.*2, Ret s')).
Proof.
  intros H. destruct (H [(0, Push 1); (0, Push 2); (0, Pop)]) as [s' Hs]. vm_compute in Hs. discriminate.
Qed.
Print Assumptions linked_stack_lifo_refuted.

(** Any stack with a single element panics on Pop, whatever was pushed and whatever the pool does. *)
Theorem linked_stack_single_pop_panics :
  forall (A : Type) (zero x : A) (c c' : nat),
    run (s_step zero) s_new [(c, Push x); (c', Pop)] = ([RBool true], Panic).
Proof. intros. reflexivity. Qed.
Print Assumptions linked_stack_single_pop_panics.

(** C14, restricted to histories that never Pop a non-empty stack. *)
Theorem linked_stack_lifo_partial :
  forall (A : Type) (zero : A) (hist : list (nat * sop A)),
    (forall pre post, hist.*2 = pre ++ Pop :: post -> ideal_state lifo_step [] pre = []) ->
    exists s', run (s_step zero) s_new hist = (ideal_results lifo_step [] hist.*2, Ret s').
Proof. exact @stack_no_pop. Qed.
Print Assumptions linked_stack_lifo_partial.

Example linked_stack_lifo_partial_nonvacuous :
  let hist := [(0, Pop); (0, Push 7); (3, Push 8); (0, STop); (0, SLen)] in
  (forall pre post, hist.*2 = pre ++ Pop :: post -> ideal_state (@lifo_step nat) [] pre = []) /\
  ideal_results lifo_step [] hist.*2
  = [RVal None; RBool true; RBool true; RVal (Some 8); RInt 2].
Proof.
  split; [|reflexivity]. cbn. intros pre post E.
  destruct pre as [|o pre]; [reflexivity|].
  exfalso. destruct pre as [|? [|? [|? [|? pre]]]]; cbn in E; try discriminate E.
  injection E. intros E' _ _ _ _ _. destruct pre; discriminate E'.
Qed.

(** C15: exact behaviour of every history, for every pool behaviour: the results
    and the way the history ends are those of [coded_stack_step], in which Pop on
    [x :: y :: l] answers [y] and leaves [y :: l], and Pop on [[x]] panics. *)
Theorem linked_stack_exact :
  forall (A : Type) (zero : A) (hist : list (nat * sop A)),
    (run (s_step zero) s_new hist).1 = (run coded_stack_step [] hist.*2).1 /\
    ended (run (s_step zero) s_new hist).2 = ended (run coded_stack_step [] hist.*2).2 /\
    (run coded_stack_step [] hist.*2).2 <> Spin.
Proof. exact @stack_exact. Qed.
Print Assumptions linked_stack_exact.

Example linked_stack_exact_case :
  run (s_step 0) s_new [(0,Push 1);(0,Push 2);(0,Push 3);(0,Pop);(0,Push 4);(0,STop);(0,Pop);(0,SLen);(0,Pop);(0,Pop)]
  = ([RBool true; RBool true; RBool true; RVal (Some 2); RBool true; RVal (Some 4);
      RVal (Some 2); RInt 2; RVal (Some 1)], Panic).
Proof. reflexivity. Qed.
