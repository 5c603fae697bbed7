(** Containers declared with var, without New (C169). *)
From Verif Require Import Base SeqSpec LinkedHeap RingSpec SliceStackSpec GoSlice.
From Verif Require Import LinkedStackModel LinkedQueueModel LinkedListModel DequeModel RingModel SliceStackModel RecModel ZeroSpec.
From Verif Require Import SliceProofs SliceStackProofs RecSpec RecProofs RecProps.

Lemma constant_run {S O R} (step : S -> O -> S * res R) (s : S) (answer : O -> res R) :
  (forall o, step s o = (s, answer o)) -> forall os, rec_run step s os = (map answer os, s).
Proof. intros H os. induction os as [|o os IH]; [reflexivity|]. cbn [rec_run map]. rewrite H, IH. reflexivity. Qed.

(** linkedx/stackx *)
Theorem linked_stack_zero :
  forall (A : Type) (zero : A) (hist : list (nat * sop A)),
    (rec_run (sr_step zero false) (Stack [] [] None 0) hist).1 = (rec_run zero_stack_step 0%Z hist.*2).1.
Proof.
  intros A zero hist. apply (rec_run_refines (sr_step zero false) zero_stack_step snd (fun _ s n => s = Stack [] [] None n)); [|reflexivity].
  intros s n [c o] os ->. destruct o; split; reflexivity.
Qed.
Print Assumptions linked_stack_zero.
Example linked_stack_zero_case :
  (rec_run (sr_step 0 false) (Stack [] [] None 0) [(0, Push 7); (0, Push 8); (0, SLen); (0, Pop); (0, SLen)]).1
  = [Panic; Panic; Ret (RInt 2); Ret (RVal None); Ret (RInt 2)].
Proof. reflexivity. Qed.

(** linkedx/listx *)
Theorem linked_list_zero :
  forall (A : Type) (zero : A) (hist : list (nat * lop A)),
    (rec_run (lr_step zero false) (LList [] [] None None 0) hist).1 = (rec_run zero_list_step 0%Z hist.*2).1.
Proof.
  intros A zero hist. apply (rec_run_refines (lr_step zero false) zero_list_step snd (fun _ l n => l = LList [] [] None None n)); [|reflexivity].
  intros l n [c o] os ->. destruct o as [x|i x|i|i|f|]; try (split; reflexivity).
  unfold lr_step. cbn [fst snd zero_list_step]. unfold l_step. cbn [fst snd]. unfold l_remove. cbn. destruct (i =? 0)%Z; cbn; split; reflexivity.
Qed.
Print Assumptions linked_list_zero.
Example linked_list_zero_case :
  (rec_run (lr_step 0 false) (LList [] [] None None 0) [(0, Append 7); (0, Insert 0 8); (0, LLen); (0, Remove 3); (0, LLen); (0, At 0)]).1
  = [Panic; Panic; Ret (RInt 2); Ret (RVal None); Ret (RInt 1); Ret (RVal None)].
Proof. reflexivity. Qed.

(** linkedx/queuex, linkedx/dequex and slicex/queuex never change *)
Theorem linked_queue_zero :
  forall (A : Type) (zero : A) (hist : list (nat * qop A)),
    rec_run (qr_step zero false) (Queue [] [] None None) hist = (map zero_queue_answer hist.*2, Queue [] [] None None).
Proof.
  intros A zero hist. rewrite (constant_run _ _ (fun co => zero_queue_answer co.2)); [|intros [c o]; destruct o; reflexivity].
  f_equal. induction hist; cbn; congruence.
Qed.
Print Assumptions linked_queue_zero.
Theorem deque_zero :
  forall (A : Type) (zero : A) (hist : list (nat * dop A)),
    rec_run (dr_step zero false) (Deque [] [] None None) hist = (map zero_deque_answer hist.*2, Deque [] [] None None).
Proof.
  intros A zero hist. rewrite (constant_run _ _ (fun co => zero_deque_answer co.2)); [|intros [c o]; destruct o; reflexivity].
  f_equal. induction hist; cbn; congruence.
Qed.
Print Assumptions deque_zero.
Theorem ring_zero :
  forall (A : Type) (hist : list (rop A)),
    rec_run rr_step (Ring [] 0 0 0) hist = (map zero_ring_answer hist, Ring [] 0 0 0) /\ r_head (@Ring A [] 0 0 0) = Panic.
Proof. intros A hist. split; [|reflexivity]. apply constant_run. intros o. destruct o; reflexivity. Qed.
Print Assumptions ring_zero.
Example ring_zero_case :
  (rec_run rr_step (Ring [] 0 0 0) [REnqueue 7; RIsEmpty; RIsFull; RDequeue; RCap]).1
  = [Panic; Ret (RBool true); Panic; Ret (RVal None); Ret (RInt (-1))].
Proof. reflexivity. Qed.

(** slicex/stackx and slicex/listx (a nil slice) are as good as new *)
Lemma nil_wf {A} (m : list (list A)) : wf m nil_slice /\ contents m nil_slice = [].
Proof. split; [split; [apply le_n|]; reflexivity|reflexivity]. Qed.
Theorem slice_stack_zero :
  forall (A : Type) (zero : A) m (hist : list (nat * kop A)),
    exists m' s', run (k_step zero) (m, nil_slice) hist = (ideal_results kstack_step [] hist.*2, Ret (m', s')).
Proof.
  intros A zero m hist. destruct (nil_wf m) as [W C]. destruct (k_history zero m nil_slice m nil_slice [] hist) as ([m' s'] & E & _).
  { unfold krel. change (reverse []) with (@nil A). rewrite <- C. apply became_refl, W. }
  exists m', s'. exact E.
Qed.
Print Assumptions slice_stack_zero.
Theorem slice_list_zero :
  forall (A : Type) (zero : A) m (hist : list (nat * lop A)), Forall lop_ints hist.*2 -> (zlen hist < 2^63)%Z ->
    (rec_run (vr_step zero) (m, nil_slice) hist).1 = (rec_run rec_vlist_step [] hist.*2).1.
Proof. intros A zero m hist HF HL. destruct (nil_wf m) as [W C]. apply (slice_list_recovered A zero m nil_slice hist W HF). rewrite C. exact HL. Qed.
Print Assumptions slice_list_zero.
