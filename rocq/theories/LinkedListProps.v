(** Properties of dsx/linkedx/listx (C18, C19, C105). *)
From Verif Require Import Base SeqSpec LinkedHeap LinkedListModel LinkedListSpec LinkedListProofs LinkedListExactSpec LinkedListExact.

(** C18 (natural statement, false): every history behaves as the ideal sequence. *)
Theorem linked_list_seq_refuted :
  ~ (forall (hist : list (nat * lop nat)),
       exists s', run (l_step 0) l_new hist = (ideal_results seq_step [] hist.*2, Ret s')).
Proof.
  intros H. destruct (H [(0, Append 1); (0, Remove 0); (0, Append 2); (0, At 0)]) as [s' Hs].
  vm_compute in Hs. discriminate.
Qed.
Print Assumptions linked_list_seq_refuted.

(** The five independent ways in which it fails, for arbitrary elements:
    removing the last element, inserting at Len, inserting into an empty list,
    a Remove out of range (changes Len), an Insert past the end (panics). *)
Theorem linked_list_seq_defects_refuted :
  forall (A : Type) (zero a b c : A),
  (run (l_step zero) l_new [(0, Append a); (0, Remove 0); (1, Append b); (0, At 0); (0, LLen)]).1
    = [RUnit; RVal (Some a); RUnit; RVal None; RInt 1] /\
  (run (l_step zero) l_new [(0, Append a); (0, Insert 1 b); (0, Append c); (0, At 1); (0, At 2); (0, LLen)]).1
    = [RUnit; RUnit; RUnit; RVal (Some c); RVal None; RInt 3] /\
  (run (l_step zero) l_new [(0, Insert 0 a); (0, Append b); (0, At 0); (0, At 1)]).1
    = [RUnit; RUnit; RVal (Some b); RVal None] /\
  (run (l_step zero) l_new [(0, Append a); (0, Remove 5); (0, LLen)]).1
    = [RUnit; RVal None; RInt 0] /\
  run (l_step zero) l_new [(0, Insert 1 a)] = ([], Panic).
Proof. intros; repeat split. Qed.
Print Assumptions linked_list_seq_defects_refuted.

(** C19: away from the last position the list is an indexed sequence, whatever
    nodes the pool hands out. *)
Theorem linked_list_away_from_last :
  forall (A : Type) (zero : A) (hist : list (nat * lop A)),
  (forall pre o post, hist.*2 = pre ++ o :: post -> safe_list_op (ideal_state seq_step [] pre) o) ->
  exists s', run (l_step zero) l_new hist = (ideal_results seq_step [] hist.*2, Ret s').
Proof. exact @list_refines. Qed.
Print Assumptions linked_list_away_from_last.

(** C18, the part that holds (missing: calls that reach the last position or are
    out of range, where the code is wrong). *)
Theorem linked_list_seq_partial :
  forall (A : Type) (zero : A) (hist : list (nat * lop A)),
  (forall pre o post, hist.*2 = pre ++ o :: post -> safe_list_op (ideal_state seq_step [] pre) o) ->
  exists s', run (l_step zero) l_new hist = (ideal_results seq_step [] hist.*2, Ret s').
Proof. exact @list_refines. Qed.
Print Assumptions linked_list_seq_partial.

Example linked_list_seq_partial_nonvacuous :
  let hist := [(0, Append 1); (0, Append 2); (0, Insert 1 7); (0, Remove 0); (0, Insert 0 9); (0, At 1);
               (0, Iterate (fun x => x <? 8)); (0, LLen); (0, At 5)] in
  (forall pre o post, hist.*2 = pre ++ o :: post -> safe_list_op (ideal_state (@seq_step nat) [] pre) o) /\
  ideal_results seq_step [] hist.*2
  = [RUnit; RUnit; RUnit; RVal (Some 1); RUnit; RVal (Some 7); RSeen [9]; RInt 3; RVal None].
Proof.
  split; [|reflexivity]. apply good_history_forall. vm_compute. repeat split; discriminate.
Qed.

(** C105: on every history, with every behaviour of the pool, the list does what
    LinkedListExactSpec says, for some choice of when the removed last node is used
    again; and every such choice can happen. *)
Theorem linked_list_exact :
  forall (A : Type) (zero : A) (hist : list (nat * lop A)),
  exists reuse : list bool, length reuse = length hist /\
    (run (l_step zero) l_new hist).1 = (run exact_step exact_init (zip reuse hist.*2)).1 /\
    same_outcome (run (l_step zero) l_new hist).2 (run exact_step exact_init (zip reuse hist.*2)).2.
Proof. intros. apply list_exact, xrel_new. Qed.
Print Assumptions linked_list_exact.
Theorem linked_list_exact_complete :
  forall (A : Type) (zero : A) (os : list (lop A)) (reuse : list bool), length reuse = length os ->
  exists hist : list (nat * lop A), hist.*2 = os /\
    (run (l_step zero) l_new hist).1 = (run exact_step exact_init (zip reuse os)).1 /\
    same_outcome (run (l_step zero) l_new hist).2 (run exact_step exact_init (zip reuse os)).2.
Proof. intros. apply list_exact_complete; [apply xrel_new|assumption]. Qed.
Print Assumptions linked_list_exact_complete.
(** Len counts the calls, not the elements. *)
Theorem linked_list_len_counts :
  forall (A : Type) (zero : A) (hist : list (nat * lop A)) l, (run (l_step zero) l_new hist).2 = Ret l ->
  l_len l = (zlen (List.filter (fun o => match o with Append _ | Insert _ _ => true | _ => false end) hist.*2)
             - zlen (List.filter (fun o => match o with Remove _ => true | _ => false end) hist.*2))%Z.
Proof. exact @list_len_counts. Qed.
Print Assumptions linked_list_len_counts.

(** No call ever hangs, and the only call that panics is an Insert at Len+1 (but not at 0)
    before the first Append. *)
Theorem linked_list_panics :
  forall (A : Type) (zero : A) (hist : list (nat * lop A)),
  (run (l_step zero) l_new hist).2 <> Spin /\
  ((run (l_step zero) l_new hist).2 = Panic <->
   exists pre i x post, hist.*2 = pre ++ Insert i x :: post /\ Forall (fun o => match o with Append _ => False | _ => True end) pre /\
     i = (zlen (List.filter (fun o => match o with Append _ | Insert _ _ => true | _ => false end) pre)
          - zlen (List.filter (fun o => match o with Remove _ => true | _ => false end) pre) + 1)%Z /\ i <> 0%Z).
Proof.
  intros A zero hist. destruct (list_panics zero hist l_new exact_init xrel_new) as [H1 H2]. split; [exact H1|]. rewrite H2. cbn [e_tail e_len exact_init].
  split; [intros (_ & H)|intros H; split; [reflexivity|]]; exact H.
Qed.
Print Assumptions linked_list_panics.

(** the same calls with and without reuse of the removed node give different elements *)
Example linked_list_exact_case :
  let os := [Append 1; Append 2; Remove 1; Insert 0 7; Append 8; Iterate (fun _ => true); LLen] in
  (run exact_step exact_init (zip [false; false; false; false; false; false; false] os)).1
  = [RUnit; RUnit; RVal (Some 2); RUnit; RUnit; RSeen [7; 1]; RInt 3] /\
  (run exact_step exact_init (zip [false; false; false; true; false; false; false] os)).1
  = [RUnit; RUnit; RVal (Some 2); RUnit; RUnit; RSeen [7; 8]; RInt 3] /\
  (run (l_step 0) l_new (zip [0; 0; 0; 0; 0; 0; 0] os)).1
  = [RUnit; RUnit; RVal (Some 2); RUnit; RUnit; RSeen [7; 8]; RInt 3].
Proof. repeat split. Qed.
