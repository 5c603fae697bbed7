(** Using dsx/linkedx/dequex as a stack or as a queue (C170). *)
From Verif Require Import Base SeqSpec LinkedHeap DequeModel DequeUseSpec DequeUseProofs DequeUseProofs2.

(** As a stack, from one end only, it is right for ever as long as the pool hands out
    new nodes only, to any depth and however often it is emptied. *)
Theorem deque_stack_new_nodes :
  forall (A : Type) (zero : A) (hist : list (nat * dop A)),
  only_new_nodes hist -> Forall at_back hist.*2 \/ Forall at_front hist.*2 ->
  exists s', run (d_step zero) d_new hist = (ideal_results deque_step [] hist.*2, Ret s').
Proof. exact @stack_new_nodes. Qed.
Print Assumptions deque_stack_new_nodes.

(** Whatever the pool hands out, a stack at the back of at most 64 elements is right for
    ever, and a stack at the front of at most one. *)
Theorem deque_stack_small :
  forall (A : Type) (zero : A) (hist : list (nat * dop A)),
  (Forall at_back hist.*2 /\ depth_at_most 64 hist.*2) \/ (Forall at_front hist.*2 /\ depth_at_most 1 hist.*2) ->
  exists s', run (d_step zero) d_new hist = (ideal_results deque_step [] hist.*2, Ret s').
Proof. exact @stack_small. Qed.
Print Assumptions deque_stack_small.

(** Those bounds are the best possible: with 65 at the back, or two at the front, a node
    that comes back from the pool still has its old neighbour.  The pop of an empty stack
    panics, or gives the zero value as an element. *)
Theorem deque_stack_refuted :
  ~ (forall (hist : list (nat * dop nat)),
       Forall at_back hist.*2 /\ depth_at_most 65 hist.*2 ->
       exists s', run (d_step 0) d_new hist = (ideal_results deque_step [] hist.*2, Ret s')) /\
  ~ (forall (hist : list (nat * dop nat)),
       Forall at_front hist.*2 /\ depth_at_most 2 hist.*2 ->
       exists s', run (d_step 0) d_new hist = (ideal_results deque_step [] hist.*2, Ret s')).
Proof.
  assert (HC : forall n (os : list (dop nat)) l, (fix chk (l : list nat) os := match os with [] => Nat.leb (length l) n | o :: os' => Nat.leb (length l) n && chk (deque_step l o).1 os' end) l os = true ->
    forall pre post, os = pre ++ post -> length (ideal_state deque_step l pre) <= n).
  { intros n. induction os as [|o os IH]; intros l H pre post E.
    - destruct pre; [|discriminate]. apply Nat.leb_le. exact H.
    - apply andb_prop in H as [H1 H2]. destruct pre as [|o' pre].
      + apply Nat.leb_le. exact H1.
      + injection E as <- E. specialize (IH _ H2 pre post E). unfold ideal_state in *. cbn [ideal_run]. destruct (deque_step l o) as [l1 r1]. cbn [fst] in IH.
        destruct (ideal_run deque_step l1 pre). exact IH. }
  split.
  - intros H. destruct (H (replicate 65 (0, PushBack 7) ++ replicate 65 (0, PopBack) ++ [(0, PushBack 7); (0, PopBack); (0, PopBack)])) as [s' Hs].
    + split; [repeat constructor|]. intros pre post. apply (HC 65). vm_compute. reflexivity.
    + apply (f_equal snd) in Hs. vm_compute in Hs. discriminate.
  - intros H. destruct (H [(0, PushFront 7); (0, PushFront 7); (0, PopFront); (0, PopFront); (0, PushFront 7); (0, PopFront); (0, PopFront)]) as [s' Hs].
    + split; [repeat constructor|]. intros pre post. apply (HC 2). vm_compute. reflexivity.
    + vm_compute in Hs. discriminate.
Qed.
Print Assumptions deque_stack_refuted.

(** As a queue, in at one end and out at the other, with new nodes only: it is right
    until it is first emptied, and empty for ever after; nothing panics. *)
Theorem deque_queue_once :
  forall (A : Type) (zero : A) (hist : list (nat * dop A)),
  only_new_nodes hist -> Forall back_to_front hist.*2 \/ Forall front_to_back hist.*2 ->
  exists s', run (d_step zero) d_new hist = (ideal_results once_step (Some []) hist.*2, Ret s').
Proof. exact @queue_new_nodes. Qed.
Print Assumptions deque_queue_once.

(** Whatever the pool hands out, when at most 64 go in before it is first emptied. *)
Theorem deque_queue_once_small :
  forall (A : Type) (zero : A) (hist : list (nat * dop A)),
  Forall back_to_front hist.*2 -> first_fill_at_most 64 hist.*2 ->
  exists s', run (d_step zero) d_new hist = (ideal_results once_step (Some []) hist.*2, Ret s').
Proof. exact @queue_small. Qed.
Print Assumptions deque_queue_once_small.

(** In general a queue panics when it is read after it was emptied. *)
Theorem deque_queue_once_refuted :
  ~ (forall (hist : list (nat * dop nat)),
       Forall back_to_front hist.*2 ->
       exists s', run (d_step 0) d_new hist = (ideal_results once_step (Some []) hist.*2, Ret s')).
Proof.
  intros H. destruct (H (replicate 65 (0, PushBack 7) ++ replicate 64 (0, PopFront) ++ replicate 64 (0, PushBack 7) ++ replicate 66 (0, PopFront))) as [s' Hs].
  - repeat constructor.
  - apply (f_equal snd) in Hs. vm_compute in Hs. discriminate.
Qed.
Print Assumptions deque_queue_once_refuted.

(** cases: a stack over two nodes, emptied and used again; a queue that dies *)
Example deque_stack_case :
  let hist := replicate 70 (200, PushBack 1) ++ replicate 71 (200, PopBack) ++ [(200, PushBack 2); (200, PeekBack)] in
  only_new_nodes hist /\ Forall at_back hist.*2 /\ drop 139 (ideal_results deque_step [] hist.*2) = [RVal (Some 1); RVal None; RUnit; RVal (Some 2)].
Proof.
  cbv zeta. split; [|split; [repeat constructor|vm_compute; reflexivity]]. unfold only_new_nodes. rewrite !app_length, !replicate_length. cbn [length].
  apply Forall_app. split; [apply Forall_replicate; cbn; lia|]. apply Forall_app. split; [apply Forall_replicate; cbn; lia|]. repeat constructor; cbn; lia.
Qed.
Example deque_stack_small_case :
  depth_at_most 64 [PushBack 1; PopBack; PopBack; PushBack 2; PeekBack] /\ ideal_results deque_step [] [PushBack 1; PopBack; PopBack; PushBack 2; PeekBack] = [RUnit; RVal (Some 1); RVal None; RUnit; RVal (Some 2)].
Proof.
  split; [|reflexivity]. intros pre post E. repeat (destruct pre as [|? pre]; [cbn; lia|injection E as <- E]). destruct pre; [cbn; lia|discriminate].
Qed.
Example deque_queue_case :
  let os := [PeekFront; PushBack 1; PushBack 2; PopFront; PopFront; PushBack 3; PopFront; PushBack 4; PeekFront] in
  Forall back_to_front os /\ first_fill_at_most 64 os /\
  ideal_results once_step (Some []) os = [RVal None; RUnit; RUnit; RVal (Some 1); RVal (Some 2); RUnit; RVal None; RUnit; RVal None].
Proof.
  cbv zeta. split; [repeat constructor|]. split; [|reflexivity]. intros pre post E _. repeat (destruct pre as [|? pre]; [cbn; lia|injection E as <- E]). destruct pre; [cbn; lia|discriminate].
Qed.
