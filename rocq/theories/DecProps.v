(** Properties of iox/decouplex (C66-C68, C92). *)
From Verif Require Import Base Conc DecModel DecProofs DecProofs2 DecProofs3.
Local Open Scope Z.

(** *** one goroutine *)
(** C67: as long as no Write meets a full buffer, and fewer than 2^64 - 1 messages are
    written in all, the decoupler is a FIFO queue *)
Theorem decoupler_fifo size os fuel : 0 < size < 2^64 -> writes os <= 2^64 - 2 ->
  good_history (dq_step size) (dq_fits size) [] os ->
  exists d, run (dec_step (S fuel)) (new_decoupler size) os = (ideal_results (dq_step size) [] os, Ret d).
Proof.
  intros Hs Hw G. destruct (seq_fifo fuel os (new_decoupler size) [] 0 (drel_new size Hs) ltac:(cbn; lia) G) as (d & R & E & _). exists d. exact E.
Qed.
Print Assumptions decoupler_fifo.
Definition fifo_ops : list dop := [OWrite [1]; OWrite [2; 3]; ONext; OWrite []; OWrite [4]; ONext; ONext; ONext; OWrite [5]; ONext].
Example fifo_ex : good_history (dq_step 2) (dq_fits 2) [] fifo_ops /\
  ideal_results (dq_step 2) [] fifo_ops = [DStored 1; DStored 2; DNext (Some [1]); DDropped []; DStored 1; DNext (Some [2; 3]); DNext (Some [4]); DNext None; DStored 1; DNext (Some [5])].
Proof. split; [|reflexivity]. cbn. repeat split; lia. Qed.
(** an empty message is dropped and changes nothing *)
Theorem decoupler_empty_write fuel d : dec_write fuel d [] = Ret (d, DDropped []).
Proof. reflexivity. Qed.
Print Assumptions decoupler_empty_write.
(** a Write that meets a full buffer is given to drop, and stores nothing *)
Theorem decoupler_full_drops fuel d b : b <> [] -> 0 < d_size d -> d_len d = d_size d ->
  (forall i, 0 <= i < d_size d -> d_lock d i <> lock_empty /\ d_lock d i <> lock_busy) ->
  exists d', dec_write (S fuel) d b = Ret (d', DDropped b) /\ d_lock d' = d_lock d /\ d_buf d' = d_buf d /\ d_len d' = d_len d /\ d_read d' = d_read d.
Proof.
  intros Hb Hs Hl F. unfold dec_write. destruct b as [|x b]; [congruence|]. cbn [write_loop d_size d_read d_write d_len d_lock d_buf].
  destruct (Z.eqb_spec (d_size d) 0); [lia|]. destruct (F (u64 (d_write d + 1) mod d_size d)) as [F1 F2]; [apply Z.mod_pos_bound; lia|].
  apply Z.eqb_neq in F1, F2. rewrite F1, F2, Hl, Z.eqb_refl. cbn [negb andb]. eexists. repeat split; reflexivity.
Qed.
Print Assumptions decoupler_full_drops.
(** C66: but the dropped Write has used up a slot number, so the next one goes into the
    wrong slot, and Next waits for ever for a message that is there *)
Definition hang_ops : list dop := [OWrite [1]; OWrite [2]; OWrite [3]; ONext; ONext; OWrite [4]; ONext].
Theorem decoupler_bounded_fifo_refuted : forall fuel,
  run (dec_step (S fuel)) (new_decoupler 2) hang_ops =
    ([DStored 1; DStored 1; DDropped [3]; DNext (Some [1]); DNext (Some [2]); DStored 1], Spin) /\
  ideal_results (dq_step 2) [] hang_ops =
    [DStored 1; DStored 1; DDropped [3]; DNext (Some [1]); DNext (Some [2]); DStored 1; DNext (Some [4])].
Proof.
  intros fuel. split; [|reflexivity].
  assert (E : exists d, run (dec_step (S fuel)) (new_decoupler 2) [OWrite [1]; OWrite [2]; OWrite [3]; ONext; ONext; OWrite [4]] =
    ([DStored 1; DStored 1; DDropped [3]; DNext (Some [1]); DNext (Some [2]); DStored 1], Ret d) /\
    d_lock d 0 = lock_empty /\ d_len d = 1 /\ d_read d = 2 /\ d_size d = 2).
  { eexists. split; [lazy; reflexivity|]. split; [reflexivity|]. repeat split. }
  destruct E as (d & E & L & L1 & L2 & L3).
  change hang_ops with ([OWrite [1]; OWrite [2]; OWrite [3]; ONext; ONext; OWrite [4]] ++ [ONext]).
  rewrite run_app, E. cbn [run dec_step]. unfold dec_next. rewrite L1, L2, L3. change (1 =? 0) with false. change (2 =? 0) with false. change (2 mod 2) with 0.
  cbv zeta. rewrite wait_empty by exact L. reflexivity.
Qed.
Print Assumptions decoupler_bounded_fifo_refuted.
(** the limit on the number of messages is needed: the slot number of message 2^64 - 2
    says "empty", and Next waits for ever for it *)
Theorem decoupler_fifo_for_ever_refuted : forall size b fuel, 0 < size < 2^64 -> b <> [] ->
  exists rs, run (dec_step (S fuel)) (new_decoupler size) (pingpong b (Z.to_nat (2^64 - 2)) ++ [OWrite b; ONext]) = (rs, Spin).
Proof. exact pingpong_hangs. Qed.
Print Assumptions decoupler_fifo_for_ever_refuted.
(** C92: a decoupler of size 0 panics at the first message; Next says there is none *)
Theorem decoupler_size_zero b fuel : b <> [] ->
  dec_write (S fuel) (new_decoupler 0) b = Panic /\ forall f, dec_next f (new_decoupler 0) = Ret (new_decoupler 0, DNext None).
Proof. intros H. destruct b; [congruence|]. split; reflexivity. Qed.
Print Assumptions decoupler_size_zero.

(** *** many writers, one reader *)
Section conc.
Context (msg : nat -> list Z) (size : Z) (tr : list dlab) (s : cdec).
Context (Hsize : 0 < size < 2^64) (Htr : steps (d_step msg) (d_init size) tr s) (Hadd : num (adders tr) <= 2^64 - 2).
Local Notation inv := (cinv_steps msg size tr s Hsize Htr Hadd).
(** C68: what was stored is what was delivered and what is in the buffer *)
Theorem decoupler_conserves_partial : published msg tr ≡ₚ viewed tr ++ contents s.
Proof. exact (v_perm _ _ _ _ inv). Qed.
(** every call publishes its own message, once at most, and never if it was dropped *)
Theorem decoupler_call_once :
  published msg tr = map msg (publishers tr) /\ NoDup (publishers tr) /\ NoDup (droppers tr) /\
  (forall t, t ∈ publishers tr -> t ∉ droppers tr) /\ (forall t, t ∈ storers tr -> t ∈ publishers tr).
Proof.
  pose proof (finv_steps msg size tr s Htr) as [F1 F2 F3 F4 F5]. split; [apply published_publishers|]. split; [exact F4|]. split; [exact F5|]. split.
  - intros t. rewrite F1, F3. intuition congruence.
  - intros t. rewrite F1, F2. tauto.
Qed.
(** nothing is delivered that was not written, byte for byte *)
Theorem decoupler_delivers_written_partial b : b ∈ viewed tr -> exists t, t ∈ publishers tr /\ b = msg t.
Proof.
  intros H. assert (H' : b ∈ published msg tr) by (rewrite (v_perm _ _ _ _ inv); apply elem_of_app; left; exact H).
  rewrite published_publishers in H'. apply elem_of_list_fmap in H' as (t & E & Ht). exists t. split; [exact Ht|exact E].
Qed.
(** at most [size] messages are in the buffer *)
Theorem decoupler_bounded_partial : num (contents s) <= size.
Proof.
  unfold contents, num. rewrite (v_size _ _ _ _ inv).
  assert (L : forall (f : Z -> option (list Z)) l, (length (omap f l) <= length l)%nat) by (intros f l; induction l as [|x l IH]; cbn; [lia|destruct (f x); cbn; lia]).
  match goal with |- Z.of_nat (length (omap ?f ?l)) <= _ => specialize (L f l) end.
  assert (Hl : length (slots size) = Z.to_nat size) by (unfold slots; rewrite ?map_length, ?fmap_length, ?seq_length; try reflexivity). lia.
Qed.
(** no writer copies into a slot another writer or the reader is using *)
Theorem decoupler_slot_exclusive_partial t ts : c_w s t = WCopy ts \/ c_w s t = WStore ts ->
  (forall t' ts', c_w s t' = WCopy ts' \/ c_w s t' = WStore ts' -> slot (c_d s) ts = slot (c_d s) ts' -> t = t') /\
  (c_r s = RView \/ c_r s = REmpty -> slot (c_d s) ts <> slot (c_d s) (d_read (c_d s))).
Proof.
  intros H. assert (H1 : holder (c_w s t) = Some ts) by (destruct H as [-> | ->]; reflexivity). split.
  - intros t' ts' H' E. eapply (v_one _ _ _ _ inv); [exact H1| |exact E]. destruct H' as [-> | ->]; reflexivity.
  - intros R E. destruct (v_view _ _ _ _ inv R) as [_ B]. apply B. rewrite <- E. apply (v_busy _ _ _ _ inv t). exact H1.
Qed.
(** Next answers false only if as many messages were delivered as Writes have returned
    (not always theirs: [decoupler_none_refuted] in DecRoomProps.v) *)
Theorem decoupler_none_partial s' : d_step msg s (LNext false) s' -> num (viewed tr) = num (storers tr).
Proof.
  intros H. pose proof (v_len _ _ _ _ inv) as L. pose proof (v_viewed _ _ _ _ inv) as V. inversion H; subst; cbn [c_d c_r] in *. lia.
Qed.
(** C66, C68: a Write drops its message only if it is empty or the decoupler is full: at
    that moment [size] more Writes have counted their message than Next calls have counted
    theirs off, and the slots hold [size] messages, or one fewer if the reader has shown one
    and not yet counted it off *)
Theorem decoupler_drop_full_partial t s' : d_step msg s (LDrop t) s' -> msg t <> [] ->
  num (storers tr) - num (taken tr) = size /\ num (contents s) = num (publishers tr) - num (viewed tr) /\
  size - (match c_r s with REmpty | RDec => 1 | _ => 0 end) <= num (contents s) <= size.
Proof.
  intros H HM. pose proof (v_len _ _ _ _ inv) as L. pose proof (v_viewed _ _ _ _ inv) as V. pose proof (v_perm _ _ _ _ inv) as P. pose proof decoupler_bounded_partial as B.
  destruct decoupler_call_once as (C1 & _ & _ & _ & C2). apply Permutation_length in P. rewrite C1, app_length, map_length in P.
  assert (S : (length (storers tr) <= length (publishers tr))%nat).
  { apply submseteq_length, NoDup_submseteq; [exact (v_nodup _ _ _ _ inv)|exact C2]. }
  pose proof (v_size _ _ _ _ inv) as Z0. unfold num in *. inversion H; subst; cbn [c_d c_r] in *; [contradiction|]. lia.
Qed.
End conc.
Print Assumptions decoupler_drop_full_partial.
Print Assumptions decoupler_conserves_partial.
Print Assumptions decoupler_call_once.
Print Assumptions decoupler_delivers_written_partial.
Print Assumptions decoupler_bounded_partial.
Print Assumptions decoupler_slot_exclusive_partial.
Print Assumptions decoupler_none_partial.

(** C93: order.  Even with one reader, and although nothing is dropped, a Write that
    meets a full slot and finds room on its second try leaves a hole; Next waits at it,
    for ever if nobody writes again, and otherwise delivers out of order *)
Definition omsg (t : nat) : list Z := [Z.of_nat t].
Definition write_one (t : nat) : list dmove := repeat (MW t) 7.
Definition read_one : list dmove := repeat MR 5.
Definition hole_moves : list dmove := write_one 0 ++ write_one 1 ++ [MW 2; MW 2; MW 2]%nat ++ read_one ++ read_one ++ repeat (MW 2%nat) 7.
(** both messages still there; and the first shown but not yet counted off *)
Example decoupler_drop_full_case : forall more, more = [] \/ more = repeat MR 3 ->
  exists tr s s', steps (d_step omsg) (d_init 2) tr s /\ d_step omsg s (LDrop 2) s' /\ num (adders tr) = 3 /\ num (contents s) + num (viewed tr) = 2.
Proof.
  intros more Hm. set (mv := write_one 0 ++ write_one 1 ++ [MW 2; MW 2; MW 2]%nat ++ more).
  destruct (dexecs omsg (d_init 2) mv) as [[tr1 s1]|] eqn:E1; [|destruct Hm as [-> | ->]; vm_compute in E1; discriminate].
  pose proof (dexecs_steps _ _ _ _ _ E1) as St. exists tr1, s1.
  destruct Hm as [-> | ->]; vm_compute in E1; injection E1 as <- <-; (eexists; split; [exact St|]); (split; [apply ds_drop; vm_compute; reflexivity|]); (split; vm_compute; reflexivity).
Qed.
Theorem decoupler_order_refuted :
  exists tr s, steps (d_step omsg) (d_init 2) tr s /\
    publishers tr = [0; 1; 2; 3]%nat /\ droppers tr = [] /\ viewed tr = [omsg 0; omsg 1; omsg 3; omsg 2].
Proof.
  destruct (dexecs omsg (d_init 2) (hole_moves ++ write_one 3 ++ read_one ++ read_one)) as [[tr s]|] eqn:E; [|vm_compute in E; discriminate].
  exists tr, s. split; [exact (dexecs_steps _ _ _ _ _ E)|]. vm_compute in E. injection E as <- _. repeat split; reflexivity.
Qed.
Print Assumptions decoupler_order_refuted.
Theorem decoupler_next_returns_refuted :
  exists tr s, steps (d_step omsg) (d_init 2) tr s /\ num (storers tr) = 3 /\ num (viewed tr) = 2 /\ c_r s = RWait /\
    (* all the writers are done, and Next cannot go on *)
    (forall t, (t < 3)%nat -> c_w s t = WStored) /\
    forall l s', d_step omsg s l s' -> c_r s' = RWait.
Proof.
  destruct (dexecs omsg (d_init 2) (hole_moves ++ [MR])) as [[tr s]|] eqn:E; [|vm_compute in E; discriminate].
  exists tr, s. pose proof (dexecs_steps _ _ _ _ _ E) as St. 
  assert (C : num (storers tr) = 3 /\ num (viewed tr) = 2 /\ c_r s = RWait /\ c_w s 0%nat = WStored /\ c_w s 1%nat = WStored /\ c_w s 2%nat = WStored /\ d_lock (c_d s) (slot (c_d s) (d_read (c_d s))) = lock_empty).
  { vm_compute in E. injection E as <- <-. repeat split; reflexivity. }
  destruct C as (C1 & C2 & C3 & C4 & C5 & C6 & C7). clear E.
  split; [exact St|]. split; [exact C1|]. split; [exact C2|]. split; [exact C3|]. split.
  - intros t Ht. do 3 (destruct t; [assumption|]). lia.
  - intros l s' H. inversion H; subst; cbn [c_d c_r] in *; congruence.
Qed.
Print Assumptions decoupler_next_returns_refuted.
(** a run that meets the hypotheses of the theorems about many writers *)
Example conc_ex : exists tr s, steps (d_step omsg) (d_init 2) tr s /\ num (adders tr) <= 2^64 - 2 /\ publishers tr = [0; 1; 2; 3]%nat /\ num (contents s) = 0.
Proof.
  destruct (dexecs omsg (d_init 2) (hole_moves ++ write_one 3 ++ read_one ++ read_one)) as [[tr s]|] eqn:E; [|vm_compute in E; discriminate].
  exists tr, s. split; [exact (dexecs_steps _ _ _ _ _ E)|].
  assert (num (adders tr) = 5 /\ publishers tr = [0; 1; 2; 3]%nat /\ num (contents s) = 0) as (A & B & C); [|rewrite A; repeat split; [lia|exact B|exact C]].
  vm_compute in E. injection E as <- <-. repeat split; reflexivity.
Qed.
