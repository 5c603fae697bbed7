(** listx.List.Iterate with callbacks that use the list (C118). *)
From Verif Require Import Base SeqSpec LinkedHeap LinkedListModel LinkedListSpec LinkedListProofs LinkedIterModel LinkedIterSpec LinkedIterProofs.

Section props.
Context {A : Type} (zero : A).
(** the list l holds the elements xs: every later history that stays away from the last
    position runs on it as on the sequence xs *)
Definition acts_as (l : llist A) (xs : list A) : Prop :=
  forall hist : list (nat * lop A),
  (forall pre o post, hist.*2 = pre ++ o :: post -> safe_list_op (ideal_state seq_step xs pre) o) ->
  exists l', run (l_step zero) l hist = (ideal_results seq_step xs hist.*2, Ret l').
Lemma lrel_acts l xs : lrel l xs -> acts_as l xs.
Proof.
  intros HL hist HG. destruct (run_refines_oracle (l_step zero) seq_step lrel safe_list_op (lrel_step zero) hist l xs) as (s' & H & _); eauto.
Qed.

(** C118, what holds: after any history that stays away from the last position, Iterate with
    callbacks that do so too, and that change nothing more after they have removed the element
    they were called on, shows them the elements as they are when their turn comes: those put
    in ahead, not those taken out ahead, none twice and none skipped because of a change
    behind.  The list is then the sequence with all the changes.  (Missing: other callbacks,
    for which it is false.)  The number of calls is bounded by fuel on both sides: a callback
    that always appends is called for ever. *)
Theorem linked_list_iterate_live_partial {B} (hist : list (nat * lop A)) fuel (f : B -> A -> lprog A (B * bool)) b :
  (forall pre o post, hist.*2 = pre ++ o :: post -> safe_list_op (ideal_state seq_step [] pre) o) ->
  let xs := ideal_state seq_step [] hist.*2 in
  calm_iter fuel f 0 xs b ->
  exists l, run (l_step zero) l_new hist = (ideal_results seq_step [] hist.*2, Ret l) /\
  match iter_live fuel f 0 xs b with
  | Ret (xs', b') => exists l', l_iterate_prog zero fuel f l b = Ret (l', b') /\ acts_as l' xs'
  | Panic => False
  | Spin => l_iterate_prog zero fuel f l b = Spin
  end.
Proof.
  intros HG xs HC. destruct (run_refines_oracle (l_step zero) seq_step lrel safe_list_op (lrel_step zero) hist l_new []) as (l & H & HL); [apply lrel_new|exact HG|].
  exists l. split; [exact H|]. pose proof (iter_live_start zero fuel f l xs b HL HC) as HI. destruct (iter_live fuel f 0 xs b) as [[xs' b']| |]; [|exact HI|exact HI].
  destruct HI as (l' & E & HL'). exists l'. split; [exact E|]. apply lrel_acts. exact HL'.
Qed.
End props.
Print Assumptions linked_list_iterate_live_partial.

(** a callback that appends something to the list each time is called for ever *)
Theorem linked_list_iterate_append_endless {A B} (zero : A) (g : B -> A -> nat) (y : B -> A -> A) (z : B -> A -> B) (hist : list (nat * lop A)) l b :
  (forall pre o post, hist.*2 = pre ++ o :: post -> safe_list_op (ideal_state seq_step [] pre) o) ->
  ideal_state seq_step [] hist.*2 <> [] ->
  (run (l_step zero) l_new hist).2 = Ret l ->
  forall fuel, l_iterate_prog zero fuel (fun b x => LPCall (g b x, Append (y b x)) (fun _ => LPRet (z b x, true))) l b = Spin.
Proof.
  intros HG HN HR fuel. set (f := fun b x => LPCall (g b x, Append (y b x)) (fun _ => LPRet (z b x, true))).
  assert (HC : forall fuel i xs b, calm_iter fuel f i xs b).
  { intros fu. induction fu as [|fu IH]; intros i xs b'; cbn; destruct (xs !! i); [exact I|exact I| |exact I]. split; [repeat split|]. apply IH. }
  assert (HS : forall fuel i xs b, i < length xs -> iter_live fuel f i xs b = Spin).
  { intros fu. induction fu as [|fu IH]; intros i xs b' Hi; destruct (lookup_lt_is_Some_2 xs i Hi) as [x Hx]; cbn; rewrite Hx; [reflexivity|]. apply IH. rewrite app_length. cbn. lia. }
  destruct (linked_list_iterate_live_partial zero hist fuel f b HG (HC _ _ _ _)) as (l1 & E & HI). rewrite E in HR. injection HR as ->.
  rewrite HS in HI; [exact HI|]. destruct (ideal_state seq_step [] hist.*2); [congruence|cbn; lia].
Qed.
Print Assumptions linked_list_iterate_append_endless.

#[global] Instance ret_eq_dec : EqDecision (ret nat).
Proof. solve_decision. Defined.
(** Natural, and false: a callback may take out the element it was called on and put it in
    again.  To the end: the walk stops at the node if the pool has handed it out again, so that
    what the callback sees depends on the pool.  To the front: the walk goes back to the front
    with the node, here for ever, although going through the sequence takes three calls. *)
Definition three (c : nat) : list (nat * lop nat) := [(c, Append 1); (c, Append 2); (c, Append 3)].
Definition rotate (c : nat) (seen : list nat) (x : nat) : lprog nat (list nat * bool) :=
  if decide (x = 1 /\ seen = []) then LPCall (c, Remove 0) (fun _ => LPCall (c, Append x) (fun _ => LPRet (seen ++ [x], true)))
  else LPRet (seen ++ [x], true).
Definition to_front (n : nat) (x : nat) : lprog nat (nat * bool) :=
  LPCall (0, At 1) (fun r => if decide (r = RVal (Some x)) then LPCall (0, Remove 1) (fun _ => LPCall (0, Insert 0 x) (fun _ => LPRet (S n, true))) else LPRet (S n, true)).
Theorem linked_list_iterate_live_refuted :
  exists l, (run (l_step 0) l_new (three 0)).2 = Ret l /\
  (exists l', l_iterate_prog 0 10 (rotate 0) l [] = Ret (l', [1])) /\
  (exists l', l_iterate_prog 0 10 (rotate 1) l [] = Ret (l', [1; 2; 3; 1])) /\
  iter_live 10 (rotate 0) 0 [1; 2; 3] [] = Ret ([2; 3; 1], [1; 2; 3; 1]) /\
  iter_live 10 to_front 0 [1; 2; 3] 0 = Ret ([2; 1; 3], 3) /\
  forall fuel n, l_iterate_prog 0 fuel to_front l n = Spin.
Proof.
  eexists. split; [reflexivity|]. split; [eexists; reflexivity|]. split; [eexists; reflexivity|]. split; [reflexivity|]. split; [reflexivity|].
  set (l1 := LList [Node 1 (Some 1); Node 2 (Some 2); Node 3 None] [] (Some 0) (Some 2) 3).
  set (l2 := LList [Node 1 (Some 2); Node 2 (Some 0); Node 3 None] [] (Some 1) (Some 2) 3).
  assert (HA : forall fuel n, iter_prog 0 fuel to_front (Some 1) l1 n = Spin /\ iter_prog 0 fuel to_front (Some 0) l2 n = Spin).
  { induction fuel as [|fuel IH]; intros n; [split; reflexivity|]. split.
    - etrans; [|apply (proj2 (IH (S n)))]. reflexivity.
    - etrans; [|apply (proj1 (IH (S n)))]. reflexivity. }
  intros [|fuel] n; [reflexivity|]. etrans; [|apply (proj1 (HA fuel (S n)))]. reflexivity.
Qed.
Print Assumptions linked_list_iterate_live_refuted.

(** a callback that takes out the even elements and puts something in before the threes *)
Definition tidy (seen : list nat) (x : nat) : lprog nat (list nat * bool) :=
  match x with
  | 2 => LPCall (0, Remove 1) (fun _ => LPCall (0, At 1) (fun r => LPRet (seen ++ [x], true)))
  | 3 => LPCall (0, Insert 1 9) (fun _ => LPCall (0, Append 5) (fun _ => LPCall (0, Insert 3 8) (fun _ => LPRet (seen ++ [x], true))))
  | _ => LPRet (seen ++ [x], true)
  end.
Example linked_list_iterate_live_case :
  let hist := [(0, Append 1); (0, Append 2); (0, Append 3); (0, Append 4)] in
  (forall pre o post, hist.*2 = pre ++ o :: post -> safe_list_op (ideal_state (@seq_step nat) [] pre) o) /\
  calm_iter 10 tidy 0 (ideal_state (@seq_step nat) [] hist.*2) [] /\
  iter_live 10 tidy 0 (ideal_state (@seq_step nat) [] hist.*2) [] = Ret ([1; 9; 3; 8; 4; 5], [1; 2; 3; 8; 4; 5]).
Proof.
  split; [apply good_history_forall; vm_compute; repeat split; discriminate|]. split; [|reflexivity]. vm_compute. repeat split; discriminate.
Qed.
