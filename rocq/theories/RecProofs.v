From Verif Require Import Base SeqSpec LinkedHeap LinkedChain RingSpec BitSetSpec SliceStackSpec LinkedListExactSpec GoSlice SliceProofs.
From Verif Require Import LinkedStackModel LinkedQueueModel LinkedListModel RingModel SliceStackModel BitSetModel RecModel RecSpec.
From Verif Require Import LinkedStackSpec LinkedStackProofs LinkedQueueSpec LinkedQueueProofs LinkedListProofs LinkedListExact RingProofs SliceStackProofs BitSetProofs.

Lemma rec_run_app {S O R} (step : S -> O -> S * res R) s os1 os2 :
  rec_run step s (os1 ++ os2) =
  ((rec_run step s os1).1 ++ (rec_run step (rec_run step s os1).2 os2).1, (rec_run step (rec_run step s os1).2 os2).2).
Proof.
  revert s. induction os1 as [|o os1 IH]; intros s; cbn [app rec_run].
  - cbn. destruct (rec_run step s os2). reflexivity.
  - destruct (step s o) as [s1 r]. rewrite IH. destruct (rec_run step s1 os1). reflexivity.
Qed.
Lemma rec_run_length {S O R} (step : S -> O -> S * res R) s os : length (rec_run step s os).1 = length os.
Proof.
  revert s. induction os as [|o os IH]; intros s; [reflexivity|]. cbn [rec_run]. destruct (step s o) as [s1 r]. specialize (IH s1).
  destruct (rec_run step s1 os). cbn in *. congruence.
Qed.
Lemma rec_run_cons {S O R} (step : S -> O -> S * res R) s o os :
  rec_run step s (o :: os) = ((step s o).2 :: (rec_run step (step s o).1 os).1, (rec_run step (step s o).1 os).2).
Proof. cbn [rec_run]. destruct (step s o) as [s1 r]. cbn. destruct (rec_run step s1 os). reflexivity. Qed.
(** while no call panics, it is [run] *)
Lemma rec_run_refines {S T O P R} (step : S -> O -> S * res R) (step' : T -> P -> T * res R) (g : O -> P)
  (Rel : list O -> S -> T -> Prop) :
  (forall s t o os, Rel (o :: os) s t -> Rel os (step s o).1 (step' t (g o)).1 /\ (step s o).2 = (step' t (g o)).2) ->
  forall os s t, Rel os s t -> (rec_run step s os).1 = (rec_run step' t (g <$> os)).1 /\
    Rel [] (rec_run step s os).2 (rec_run step' t (g <$> os)).2.
Proof.
  intros H os. induction os as [|o os IH]; intros s t HR; [split; [reflexivity|exact HR]|].
  rewrite fmap_cons, !rec_run_cons. destruct (H s t o os HR) as [H1 H2]. destruct (IH _ _ H1) as [I1 I2]. cbn [fst snd].
  split; [rewrite H2, I1; reflexivity|exact I2].
Qed.

Section P.
Context {A : Type} (zero : A).

Lemma rec_stack_step_ok s xs c o : srel s xs ->
  srel (sr_step zero true s (c, o)).1 (rec_stack_step xs o).1 /\ (sr_step zero true s (c, o)).2 = (rec_stack_step xs o).2.
Proof.
  intros HR. pose proof (srel_step zero s xs c o HR) as H. unfold sr_step, sr_push. cbn [fst snd]. destruct o as [x| | |]; cbn [coded_stack_step lifo_step fst snd] in H.
  - destruct H as (s' & -> & H'). cbn. auto.
  - destruct xs as [|x [|y xs]].
    + destruct H as (s' & -> & H'). cbn. auto.
    + destruct HR as (ls & Hc & Ho & Hl). destruct s as [h pool hd len]. cbn [s_heap s_pool s_head s_length] in *.
      destruct ls as [|l [|? ?]]; cbn in Hc; try tauto; [|destruct Hc as (_ & nx & _ & [])].
      destruct Hc as (-> & nx & Hl1 & ->). rewrite H. cbn [recovered fst snd rec_stack_step]. rewrite Hl1. cbn [nnext].
      split; [|reflexivity]. exists []. cbn. split; [reflexivity|]. split; [apply own_release; exact Ho|cbn in Hl; lia].
    + destruct H as (s' & -> & H'). cbn. auto.
  - destruct H as (s' & -> & H'). cbn. auto.
  - destruct H as (s' & -> & H'). cbn. auto.
Qed.

Lemma rec_queue_step_ok q n xs c o : qrel q n xs -> match o with Enqueue _ => n <= c | _ => True end ->
  qrel (qr_step zero true q (c, o)).1 (qbound n o) (rec_queue_step xs o).1 /\
  (qr_step zero true q (c, o)).2 = (rec_queue_step xs o).2.
Proof.
  intros HR Hn. pose proof (qrel_step zero q n xs c o HR Hn) as H. unfold qr_step. cbn [fst snd orb]. destruct o as [x| | |]; cbn [coded_queue_step fifo_step fst snd] in H.
  - destruct H as (s' & -> & H'). cbn. auto.
  - destruct xs as [|x [|y xs]].
    + destruct H as (s' & -> & H'). cbn. auto.
    + destruct HR as (ls & Hc & HN & Hp & Ht). destruct q as [h pool hd tl]. cbn [q_heap q_pool q_head q_tail] in *.
      destruct ls as [|l [|? ?]]; cbn in Hc; try tauto; [|destruct Hc as (_ & nx & _ & [])].
      destruct Hc as (-> & nx & Hl1 & ->). rewrite H. cbn [recovered fst snd rec_queue_step]. rewrite Hl1. cbn [nnext qbound].
      split; [|reflexivity]. exists []. cbn. split; [reflexivity|]. split; [constructor|]. split; [rewrite app_length; cbn; lia|congruence].
    + destruct H as (s' & -> & H'). cbn. auto.
  - destruct H as (s' & -> & H'). cbn. auto.
  - destruct H as (s' & -> & H'). cbn. auto.
Qed.

Lemma rec_list_step_ok l s c o : xrel l s ->
  xrel (lr_step zero true l (c, o)).1 (rec_list_step s (reuses l c, o)).1 /\
  (lr_step zero true l (c, o)).2 = (rec_list_step s (reuses l c, o)).2.
Proof.
  intros HX. pose proof (xrel_step zero l s c o HX) as H. unfold lr_step, rec_list_step. cbn [fst snd].
  destruct (exact_step s (reuses l c, o)) as [[s' r]| |] eqn:E.
  - destruct H as (l' & -> & H'). destruct o; cbn; auto.
  - assert (exists i x, o = Insert i x /\ e_tail s = TNil) as (i & x & -> & Et).
    { unfold exact_step in E. cbn [fst snd] in E. destruct o as [x|i x|i|i|f|].
      - destruct (hang _ _ x); discriminate.
      - exists i, x. split; [reflexivity|]. destruct (i =? 0)%Z; [discriminate|]. destruct (i =? e_len s + 1)%Z.
        + destruct (e_tail s); [reflexivity|..]; destruct (hang _ _ x); discriminate.
        + destruct (in_range i 1 (zlen (e_seq s) + 1)); discriminate.
      - destruct (in_range i 0 (zlen (e_seq s))); discriminate.
      - discriminate.
      - discriminate.
      - discriminate. }
    rewrite H. cbn [recovered fst snd]. split; [|reflexivity].
    destruct HX as (ls & Hc & Ho & Ht & Hl). destruct l as [h pool hd tl len]. unfold l_taken. cbn [l_heap l_pool l_head l_tail l_length] in *.
    destruct (pool_get (Node zero None) c pool h) as [[n pool'] h'] eqn:G.
    destruct (pool_get_own _ _ _ _ _ _ _ _ G Ho) as (Hn & Hlt & Ho' & Hseg).
    exists ls. cbn. split; [|split; [|split]].
    + apply seg_insert; [exact Hn|]. apply Hseg, Hc.
    + eapply own_resize with (h := h'); [rewrite insert_length; reflexivity|]. exact (own_take' _ _ _ _ Ho').
    + rewrite Et in *. cbn in *. exact Ht.
    + rewrite Hl. reflexivity.
  - contradiction.
Qed.

Lemma rec_ring_step_ok n r a l o : 0 < n -> ring_rel zero n a r l ->
  let s' := (rec_ring_step n (a, l) o).1 in
  ring_rel zero n s'.1 (rr_step r o).1 s'.2 /\ (rr_step r o).2 = (rec_ring_step n (a, l) o).2.
Proof.
  intros Hn HR. cbn zeta.
  assert (Hc : (rg_cap r =? 0)%Z = false).
  { destruct HR as (_ & _ & _ & Ec & _). rewrite Ec. apply Z.eqb_neq. lia. }
  assert (G : a + inc n l o <= n -> exists r', r_step (Some r) o = Ret (Some r', (bounded_step n l o).2) /\ ring_rel zero n (a + inc n l o) r' (bounded_step n l o).1)
    by (apply ring_step; assumption).
  destruct o as [x| | | | |].
  2-6: cbn [inc] in G; rewrite Nat.add_0_r in G; destruct G as (r' & E & HR'); [apply HR|]; unfold rr_step; rewrite ?Hc, E; cbn [fst snd rec_ring_step];
       destruct (bounded_step n l _) as [l' b]; cbn [fst snd] in *; auto.
  unfold rr_step. rewrite Hc. cbn [rec_ring_step inc bounded_step] in *. pose proof HR as (Ha & Hl & _).
  destruct (Nat.eqb_spec (length l) n) as [El|El].
  - assert (length l <? n = false) as F by (apply Nat.ltb_ge; lia). rewrite F in G. rewrite Nat.add_0_r in G. destruct G as (r' & -> & HR'); [lia|].
    cbn [fst snd] in *. auto.
  - assert (length l <? n = true) as F by (apply Nat.ltb_lt; lia). rewrite F in G. destruct (Nat.ltb_spec a n) as [La|La].
    + destruct G as (r' & -> & HR'); [lia|]. cbn [fst snd] in *. rewrite Nat.add_1_r in HR'. auto.
    + assert (r_step (Some r) (REnqueue x) = Panic) as ->.
      { cbn [r_step deref rbind]. unfold r_enqueue. rewrite (ring_full zero n a r l Hn HR).
        destruct (Nat.eqb_spec (length l) n); [lia|]. destruct HR as (_ & _ & Ed & _ & Et & _ & _ & _). unfold put_, in_range, zlen.
        rewrite Et, Ed. destruct (Z.ltb_spec (Z.of_nat a) (Z.of_nat n)); [lia|]. rewrite andb_false_r. reflexivity. }
      cbn [fst snd]. auto.
Qed.

Lemma rec_vlist_step_ok m0 s0 st l g o : vrel m0 s0 st l -> lop_ints o /\ (zlen l + 1 < 2^63)%Z ->
  vrel m0 s0 (vr_step zero st (g, o)).1 (rec_vlist_step l o).1 /\ (vr_step zero st (g, o)).2 = (rec_vlist_step l o).2.
Proof.
  intros B H. pose proof (v_step_ok zero m0 s0 st l g o B H) as V. unfold vr_step. cbn [fst snd].
  assert (E : forall l' r, vlist_step l o = Ret (l', r) -> rec_vlist_step l o = (l', Ret r)).
  { intros l' r. destruct o as [x|i x|i|i|f|]; cbn [vlist_step rec_vlist_step]; intros E;
      try (destruct (in_range i 0 (zlen l + 1)); [|discriminate]); destruct (seq_step l _); injection E as <- <-; reflexivity. }
  destruct (vlist_step l o) as [[l' r]| |] eqn:F.
  - destruct V as (st' & -> & B'). rewrite (E l' r eq_refl). cbn. auto.
  - destruct o as [x|i x|i|i|f|]; cbn [vlist_step] in F; try discriminate. cbn [rec_vlist_step].
    destruct (in_range i 0 (zlen l + 1)); [discriminate|]. rewrite V. cbn [recovered fst snd]. split; [|reflexivity].
    destruct st as [m s]. unfold vrel in *. cbn [fst snd] in *.
    pose proof B as (W & C & L). rewrite <- C. eapply became_trans; [exact B|]. apply append_became, W.
  - exfalso. destruct o as [x|i x|i|i|f|]; cbn [vlist_step] in F; try discriminate. destruct (in_range i 0 (zlen l + 1)); discriminate.
Qed.
End P.

Section B.
Context (n : nat).
Local Notation w := (Z.of_nat n).
Lemma b_left_ok (f : bool -> bool) (op : Z -> Z -> Z) :
  (forall d l i, brel n d l -> (0 <= i)%Z -> brel n (op d (word w (Z.shiftl 1 i))) (upd f l i)) ->
  forall is d l, brel n d l -> brel n (b_left w op d is) (fold_left (upd f) (before_negative is) l).
Proof.
  intros H is. induction is as [|i is IH]; intros d l R; [exact R|]. cbn [b_left before_negative]. unfold shl1.
  destruct (Z.ltb_spec i 0); [exact R|]. cbn [fold_left]. apply IH, H; assumption.
Qed.
Lemma rec_bitset_step_ok d l o : brel n d l ->
  brel n (br_step w d o).1 (rec_bitset_step l o).1 /\ (br_step w d o).2 = (rec_bitset_step l o).2.
Proof.
  intros R. pose proof (b_step_ok n d l o R) as H. unfold br_step, rec_bitset_step. destruct (bitset_spec l o) as [[l' r]| |] eqn:E.
  - destruct H as (d' & -> & R'). cbn. auto.
  - rewrite H. cbn [recovered fst snd]. split; [|reflexivity]. destruct o; try exact R.
    + apply b_left_ok; [|exact R]. intros. apply lor_ok; assumption.
    + apply b_left_ok; [|exact R]. intros. apply land_ok; assumption.
    + apply b_left_ok; [|exact R]. intros. apply lxor_ok; assumption.
  - exfalso. destruct o as [is|is|is|is| | | | |]; cbn [bitset_spec] in E; try discriminate;
      try (destruct (existsb _ is); discriminate).
    clear H. induction is as [|i is IH]; cbn in E; [discriminate|]. destruct (i <? 0)%Z; [discriminate|]. destruct (member l i); [discriminate|auto].
Qed.
End B.
