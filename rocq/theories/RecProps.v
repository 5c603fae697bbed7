(** Containers whose caller recovers their panics (C168): every history, to its end. *)
From Verif Require Import Base SeqSpec LinkedHeap RingSpec BitSetSpec SliceStackSpec LinkedListExactSpec GoSlice.
From Verif Require Import LinkedStackModel LinkedQueueModel LinkedListModel RingModel SliceStackModel BitSetModel RecModel RecSpec.
From Verif Require Import LinkedStackProofs LinkedQueueSpec LinkedQueueProofs LinkedListExact RingProofs SliceProofs SliceStackProofs BitSetProofs RecProofs.

(** linkedx/stackx, whatever the pool does: Pop of the last element panics and has
    removed it; the stack goes on as an empty one, and Len is right throughout. *)
Theorem linked_stack_recovered :
  forall (A : Type) (zero : A) (hist : list (nat * sop A)),
    (rec_run (sr_step zero true) s_new hist).1 = (rec_run rec_stack_step [] hist.*2).1.
Proof.
  intros A zero hist. apply (rec_run_refines (sr_step zero true) rec_stack_step snd (fun _ => srel)).
  - intros s t [c o] _ H. apply rec_stack_step_ok, H.
  - apply srel_new.
Qed.
Print Assumptions linked_stack_recovered.
Example linked_stack_recovered_case :
  (rec_run rec_stack_step [] [Push 1; Push 2; Pop; SLen; Pop; SLen; STop; Push 3; SLen; Pop; Pop]).1
  = [Ret (RBool true); Ret (RBool true); Ret (RVal (Some 1)); Ret (RInt 1); Panic; Ret (RInt 0); Ret (RVal None); Ret (RBool true); Ret (RInt 1); Panic; Ret (RVal None)].
Proof. reflexivity. Qed.

(** linkedx/queuex, while no node is recycled: the same. *)
Theorem linked_queue_recovered_fresh :
  forall (A : Type) (zero : A) (hist : list (nat * qop A)), no_recycling 0 hist ->
    (rec_run (qr_step zero true) q_new hist).1 = (rec_run rec_queue_step [] hist.*2).1.
Proof.
  intros A zero hist HN.
  apply (rec_run_refines (qr_step zero true) rec_queue_step snd (fun os q xs => exists n, no_recycling n os /\ qrel q n xs)).
  - intros q xs [c o] os (n & Hr & HR).
    assert (Hn : match o with Enqueue _ => n <= c | _ => True end) by (destruct o; cbn in Hr; tauto).
    destruct (rec_queue_step_ok zero q n xs c o HR Hn) as [H1 H2]. split; [|exact H2]. exists (qbound n o). split; [|exact H1].
    destruct o; cbn in *; tauto.
  - exists 0. split; [exact HN|apply qrel_new].
Qed.
Print Assumptions linked_queue_recovered_fresh.
Example linked_queue_recovered_case :
  let hist := [(0, Enqueue 1); (0, Enqueue 2); (0, Dequeue); (0, Dequeue); (0, IsEmpty); (2, Enqueue 3); (0, Peek); (0, Dequeue); (0, Dequeue)] in
  no_recycling 0 hist /\
  (rec_run rec_queue_step [] hist.*2).1 =
    [Ret (RBool true); Ret (RBool true); Ret (RVal (Some 2)); Panic; Ret (RBool true); Ret (RBool true); Ret (RVal (Some 3)); Panic; Ret (RVal None)].
Proof. cbn. repeat split; lia. Qed.
(** but when the pool gives a node back, an element that was dequeued comes again *)
Theorem linked_queue_recovered_refuted :
  ~ (forall hist : list (nat * qop nat), (rec_run (qr_step 0 true) q_new hist).1 = (rec_run rec_queue_step [] hist.*2).1).
Proof.
  intros H. specialize (H [(0, Enqueue 1); (0, Enqueue 2); (0, Dequeue); (0, Dequeue); (0, Enqueue 3); (0, Dequeue)]). vm_compute in H. discriminate.
Qed.
Print Assumptions linked_queue_recovered_refuted.
Theorem linked_queue_element_returns :
  (rec_run (qr_step 0 true) q_new [(0, Enqueue 1); (0, Enqueue 2); (0, Dequeue); (0, Dequeue); (0, Enqueue 3); (0, Dequeue)]).1
  = [Ret (RBool true); Ret (RBool true); Ret (RVal (Some 2)); Panic; Ret (RBool true); Ret (RVal (Some 2))].
Proof. reflexivity. Qed.
Print Assumptions linked_queue_element_returns.

(** linkedx/listx, whatever the pool does: the exact list of C105, where an Insert that
    panics leaves the elements and counts. *)
Theorem linked_list_recovered :
  forall (A : Type) (zero : A) (hist : list (nat * lop A)),
    exists rs : list bool, length rs = length hist /\
      (rec_run (lr_step zero true) l_new hist).1 = (rec_run rec_list_step exact_init (zip rs hist.*2)).1.
Proof.
  intros A zero hist. generalize (@xrel_new A). generalize (@l_new A), (@exact_init A). induction hist as [|[c o] hist IH]; intros l s HX; [exists []; auto|].
  destruct (rec_list_step_ok zero l s c o HX) as [H1 H2]. destruct (IH _ _ H1) as (rs & Hl & E). exists (reuses l c :: rs).
  split; [cbn; lia|]. rewrite fmap_cons. cbn [zip_with snd]. rewrite !rec_run_cons. cbn [fst]. rewrite H2. f_equal. exact E.
Qed.
Print Assumptions linked_list_recovered.
Example linked_list_recovered_case :
  (rec_run rec_list_step exact_init (zip (replicate 6 false) [Insert 1 7; LLen; Append 8; LLen; At 0; Insert 1 9])).1
  = [Panic; Ret (RInt 1); Ret RUnit; Ret (RInt 2); Ret (RVal (Some 8)); Ret RUnit].
Proof. reflexivity. Qed.

(** slicex/queuex of any capacity n > 0 *)
Theorem ring_recovered :
  forall (A : Type) (zero : A) (n : nat) (os : list (rop A)) (r : ring A), 0 < n -> r_new zero (Z.of_nat n) = Ret (Some r) ->
    (rec_run rr_step r os).1 = (rec_run (rec_ring_step n) (0, []) os).1.
Proof.
  intros A zero n os r Hn E.
  assert (R : ring_rel zero n 0 r []) by (destruct (ring_init zero n Hn) as (r' & E' & R'); congruence).
  rewrite <- (list_fmap_id os) at 2. apply (rec_run_refines rr_step (rec_ring_step n) id (fun _ r s => ring_rel zero n s.1 r s.2)).
  - intros r' [a l] o _ H. apply rec_ring_step_ok; assumption.
  - exact R.
Qed.
Print Assumptions ring_recovered.
(** it accepts n elements in its whole life, however often it is emptied *)
Definition accepts {A} (o : rop A) (r : res (ret A)) : bool :=
  match o, r with REnqueue _, Ret (RBool true) => true | _, _ => false end.
Theorem ring_accepts_at_most :
  forall (A : Type) (zero : A) (n : nat) (os : list (rop A)) (r : ring A), 0 < n -> r_new zero (Z.of_nat n) = Ret (Some r) ->
    length (List.filter id (zip_with accepts os (rec_run rr_step r os).1)) <= n.
Proof.
  intros A zero n os r Hn E. rewrite (ring_recovered A zero n os r Hn E).
  assert (G : forall os a (l : list A), a <= n -> a + length (List.filter id (zip_with accepts os (rec_run (rec_ring_step n) (a, l) os).1)) <= n).
  { clear. induction os as [|o os IH]; intros a l Ha; [cbn; lia|]. rewrite rec_run_cons. cbn [fst zip_with]. destruct o as [x| | | | |].
    2-6: cbn [accepts]; change (List.filter id (false :: ?l)) with (List.filter id l); cbn [rec_ring_step]; destruct (bounded_step n l _) as [l' b]; cbn [fst]; apply IH, Ha.
    cbn [rec_ring_step]. destruct (length l =? n); [apply (IH a l Ha)|]. destruct (Nat.ltb_spec a n); [|apply (IH a l Ha)].
    cbn [fst snd accepts]. change (List.filter id (true :: ?l)) with (true :: List.filter id l). cbn [length]. specialize (IH (S a) (l ++ [x]) H). lia. }
  apply (G os 0 []). lia.
Qed.
Print Assumptions ring_accepts_at_most.
Example ring_recovered_case :
  (rec_run (rec_ring_step 2) (0, []) [REnqueue 1; REnqueue 2; REnqueue 3; RDequeue; REnqueue 4; RIsFull; RPeek; RDequeue; RDequeue; REnqueue 5; RIsEmpty]).1
  = [Ret (RBool true); Ret (RBool true); Ret (RBool false); Ret (RVal (Some 1)); Panic; Ret (RBool false); Ret (RVal (Some 2)); Ret (RVal (Some 2)); Ret (RVal None); Panic; Ret (RBool true)].
Proof. reflexivity. Qed.

(** slicex/listx *)
Theorem slice_list_recovered :
  forall (A : Type) (zero : A) m s (hist : list (nat * lop A)), wf m s -> Forall lop_ints hist.*2 ->
    (zlen (contents m s) + zlen hist < 2^63)%Z ->
    (rec_run (vr_step zero) (m, s) hist).1 = (rec_run rec_vlist_step (contents m s) hist.*2).1 /\
    let '(m', s') := (rec_run (vr_step zero) (m, s) hist).2 in
    became m s m' s' (rec_run rec_vlist_step (contents m s) hist.*2).2.
Proof.
  intros A zero m s hist W HF HL.
  destruct (rec_run_refines (vr_step zero) rec_vlist_step snd
    (fun os st l => vrel m s st l /\ Forall lop_ints os.*2 /\ (zlen l + zlen os < 2^63)%Z)) with (os := hist) (s := (m, s)) (t := contents m s) as (H1 & H2 & _).
  - intros st l [g o] os (B & F & L). rewrite fmap_cons in F. apply Forall_cons in F as [F1 F2]. cbn [snd] in *.
    assert (L1 : (zlen l + 1 < 2^63)%Z) by (unfold zlen in *; cbn [length] in L; lia).
    destruct (rec_vlist_step_ok zero m s st l g o B (conj F1 L1)) as [H1 H2]. split; [|exact H2]. split; [exact H1|]. split; [exact F2|].
    assert (G : (zlen (rec_vlist_step l o).1 <= zlen l + 1)%Z).
    { unfold zlen. destruct o as [x|i x|i|i|f|]; cbn [rec_vlist_step seq_step fst]; rewrite ?app_length; cbn [length]; try lia.
      - destruct (in_range i 0 (zlen l + 1)) eqn:E; cbn [fst]; rewrite app_length; cbn [length]; [|lia]. rewrite take_length, drop_length. lia.
      - destruct (in_range i 0 (zlen l)); cbn [fst]; [|lia]. rewrite app_length, take_length, drop_length. lia. }
    unfold zlen in *. cbn [length] in L. lia.
  - split; [apply became_refl, W|]. split; assumption.
  - split; [exact H1|]. unfold vrel in H2. destruct (rec_run (vr_step zero) (m, s) hist) as [rs [m' s']]. exact H2.
Qed.
Print Assumptions slice_list_recovered.
Example slice_list_recovered_case :
  rec_run rec_vlist_step [5; 6] [Insert 9 7; LLen; Insert (-1) 8; At 3; Remove 0] =
  ([Panic; Ret (RInt 3); Panic; Ret (RVal (Some 8)); Ret (RVal (Some 5))], [6; 7; 8]).
Proof. reflexivity. Qed.

(** setx/bitsetx, of any width n: the indices before the first negative one count *)
Theorem bitset_recovered :
  forall (n : nat) (hist : list bop),
    let '(rs, d) := rec_run (br_step (Z.of_nat n)) 0%Z hist in
    let '(rs', l) := rec_run rec_bitset_step (replicate n false) hist in
    rs = rs' /\ (0 <= d < 2^Z.of_nat n)%Z /\ length l = n /\ forall i, i < n -> l !! i = Some (Z.testbit d (Z.of_nat i)).
Proof.
  intros n hist. pose proof (rec_run_refines (br_step (Z.of_nat n)) rec_bitset_step id (fun _ => brel n)) as H.
  specialize (H ltac:(intros s t o os R; apply rec_bitset_step_ok, R) hist 0%Z (replicate n false) (zero_rel n)). rewrite list_fmap_id in H.
  destruct (rec_run (br_step (Z.of_nat n)) 0%Z hist) as [rs d], (rec_run rec_bitset_step (replicate n false) hist) as [rs' l].
  destruct H as [H1 (B & L & T)]. cbn [fst snd] in *. split; [exact H1|]. split; [exact B|]. split; [exact L|exact T].
Qed.
Print Assumptions bitset_recovered.
Example bitset_recovered_case :
  rec_run (br_step 8) 0%Z [BSet [1; 3; -1; 5]; BTest [5]; BTest [3]; BToggle [3; -2]; BTest [3; -1]; BIsEmpty]%Z
  = ([Panic; Ret (RBool false); Ret (RBool true); Panic; Panic; Ret (RBool false)], 2%Z).
Proof. reflexivity. Qed.
