(** The linked queue with recycled nodes, up to the Dequeue of its last element. *)
From Verif Require Import Base SeqSpec LinkedHeap LinkedChain LinkedQueueModel LinkedQueueSpec LinkedQueueProofs.

Section P.
Context {A : Type} (zero : A).

(** the chain up to the tail, whose own link may be stale *)
Definition qown (q : queue A) (xs : list A) : Prop :=
  exists ls e, seg (q_heap q) (q_head q) ls xs e /\ own (q_heap q) ls (q_pool q)
             /\ (ls <> [] -> q_tail q = last ls) /\ (ls = [] -> q_head q = None).

Lemma seg_head (h : list (node A)) p ls xs e : seg h p ls xs e -> ls <> [] -> exists l ls', ls = l :: ls' /\ p = Some l.
Proof. destruct ls as [|l ls], xs; cbn; try tauto. intros (-> & _) _. eauto. Qed.

Lemma qown_enqueue q xs c x : qown q xs -> exists q', q_enqueue zero c q x = Ret (q', true) /\ qown q' (xs ++ [x]).
Proof.
  intros (ls & e & HS & HO & HT & HE). destruct q as [h pool hd tl]. cbn [q_heap q_pool q_head q_tail] in *.
  unfold q_enqueue. cbn [q_heap q_pool q_head q_tail].
  destruct (pool_get (Node zero None) c pool h) as [[n pool'] h'] eqn:G.
  destruct (pool_get_own _ _ _ _ ls _ _ _ G HO) as (Hn & Hlt & HO' & Hseg).
  apply Hseg in HS. destruct (lookup_lt_is_Some_2 h' n Hlt) as [nd Hnd]. rewrite Hnd. cbn [deref rbind].
  assert (Hh : <[n:=Node x (nnext nd)]> h' !! n = Some (Node x (nnext nd))) by (apply list_lookup_insert; exact Hlt).
  destruct ls as [|l0 ls0] eqn:El.
  - rewrite (HE eq_refl). cbn in HS. destruct xs as [|]; [|tauto]. eexists. split; [reflexivity|].
    exists [n], (nnext nd). cbn [q_heap q_pool q_head q_tail app]. split; [|split; [|split]].
    + cbn. split; [reflexivity|]. exists (nnext nd). rewrite Hh. auto.
    + eapply own_resize; [|exact HO']. rewrite insert_length. lia.
    + reflexivity.
    + discriminate.
  - rewrite <- El in *. assert (Hne : ls <> []) by (rewrite El; discriminate).
    destruct (seg_head _ _ _ _ _ HS Hne) as (l & ls' & _ & ->). rewrite (HT Hne).
    destruct (exists_last (l := xs)) as (xs1 & z & Ex).
    { intros ->. apply seg_length in HS. destruct ls; [congruence|discriminate]. }
    subst xs. pose proof HS as HS1. apply seg_snoc_inv in HS1 as (ls1 & t & Els & H1 & H2).
    rewrite Els, last_snoc. cbn [deref rbind].
    assert (Hnt : n <> t) by (intros ->; apply Hn; rewrite Els; set_solver).
    rewrite list_lookup_insert_ne by exact Hnt. rewrite H2. cbn [deref rbind ndata].
    eexists. split; [reflexivity|]. rewrite Els in *.
    pose proof HO as [HND _]. apply NoDup_app in HND as (HND & _ & _). apply NoDup_app in HND as (HND1 & HND2 & _).
    assert (Ht1 : t ∉ ls1) by (intros Hin; apply (HND2 t Hin); set_solver).
    assert (Htlt : t < length h') by (eapply lookup_lt_Some; exact H2).
    exists ((ls1 ++ [t]) ++ [n]), (nnext nd). cbn [q_heap q_pool q_head q_tail]. split; [|split; [|split]].
    + eapply seg_app; [eapply seg_app|].
      * apply seg_insert; [exact Ht1|]. apply seg_insert; [set_solver|]. exact H1.
      * cbn. split; [reflexivity|]. exists (Some n). rewrite list_lookup_insert by (rewrite insert_length; exact Htlt). split; reflexivity.
      * cbn. split; [reflexivity|]. exists (nnext nd). rewrite list_lookup_insert_ne by congruence. rewrite Hh. auto.
    + eapply own_resize; [|eapply own_perm; [|exact HO']].
      * rewrite !insert_length. lia.
      * rewrite <- (Permutation_cons_append (ls1 ++ [t]) n). reflexivity.
    + intros _. rewrite last_snoc. reflexivity.
    + intros E. destruct ls1; discriminate E.
Qed.

Lemma qown_step q xs c o xs' r : qown q xs -> coded_queue_step xs o = Ret (xs', r) ->
  exists q', q_step zero q (c, o) = Ret (q', r) /\ qown q' xs'.
Proof.
  intros HQ E. destruct o as [x| | |]; cbn in E.
  - injection E as <- <-. destruct (qown_enqueue q xs c x HQ) as (q' & Eq & HQ'). exists q'.
    unfold q_step. cbn [fst snd]. rewrite Eq. cbn. auto.
  - pose proof HQ as (ls & e & HS & HO & HT & HE). destruct q as [h pool hd tl]. cbn [q_heap q_pool q_head q_tail] in *.
    unfold q_step, q_dequeue. cbn [q_heap q_pool q_head q_tail fst snd].
    destruct xs as [|x [|y xs]]; try discriminate E; injection E as <- <-.
    + destruct ls; [|contradiction]. specialize (HE eq_refl). subst hd. cbn. eexists. split; [reflexivity|exact HQ].
    + destruct ls as [|l [|l2 ls]]; cbn in HS; try tauto. { destruct HS as (_ & nx & _ & []). }
      destruct HS as (-> & nx & Hl & -> & nx2 & Hl2 & HS). rewrite Hl. cbn. rewrite Hl2. cbn.
      eexists. split; [reflexivity|]. exists (l2 :: ls), e. cbn. split; [|split; [|split]].
      * split; [reflexivity|]. eauto.
      * apply own_release, HO.
      * intros _. apply (HT ltac:(discriminate)).
      * discriminate.
  - injection E as <- <-. pose proof HQ as (ls & e & HS & HO & HT & HE).
    unfold q_step, q_peek. cbn [fst snd]. destruct xs as [|x xs].
    + destruct ls; [|contradiction]. rewrite (HE eq_refl). cbn. eauto.
    + destruct ls as [|l ls]; [contradiction|]. destruct HS as (-> & nx & -> & HS). cbn. eauto.
  - injection E as <- <-. pose proof HQ as (ls & e & HS & HO & HT & HE).
    unfold q_step, q_isempty. cbn [fst snd]. destruct xs as [|x xs].
    + destruct ls; [|contradiction]. rewrite (HE eq_refl). eauto.
    + destruct ls as [|l ls]; [contradiction|]. destruct HS as (-> & nx & Hl & HS). eauto.
Qed.

Lemma qown_run q xs hist xs' : qown q xs -> (run coded_queue_step xs hist.*2).2 = Ret xs' ->
  exists q', run (q_step zero) q hist = ((run coded_queue_step xs hist.*2).1, Ret q') /\ qown q' xs'.
Proof.
  revert q xs. induction hist as [|[c o] hist IH]; intros q xs HQ E.
  - cbn in *. injection E as <-. eauto.
  - rewrite fmap_cons in *. cbn [run fst snd] in *.
    destruct (coded_queue_step xs o) as [[xs1 r]| |] eqn:Es; [|discriminate E|discriminate E].
    destruct (qown_step q xs c o xs1 r HQ Es) as (q1 & -> & HQ1).
    destruct (run coded_queue_step xs1 hist.*2) as [rs e] eqn:Er. cbn [fst snd] in *. subst e.
    destruct (IH q1 xs1 HQ1) as (q' & Eq & HQ'); [rewrite Er; reflexivity|]. rewrite Eq, Er. cbn. eauto.
Qed.

Lemma qown_new : qown q_new [].
Proof. exists [], None. cbn. split; [reflexivity|]. split; [split; constructor|]. split; [congruence|reflexivity]. Qed.

(** the Dequeue of the last element, when its node was not a recycled one *)
Lemma qown_last q x c : qown q [x] ->
  exists hd nx, q_head q = Some hd /\ q_heap q !! hd = Some (Node x nx) /\
    (nx = None -> q_step zero q (c, Dequeue) = Panic).
Proof.
  intros (ls & e & HS & HO & HT & HE). destruct ls as [|l [|? ?]]; cbn in HS; try tauto.
  - destruct HS as (Hh & nx & Hl & ->). exists l, e. split; [exact Hh|]. split; [exact Hl|]. intros ->.
    unfold q_step, q_dequeue. cbn [fst snd]. rewrite Hh, Hl. reflexivity.
  - destruct HS as (_ & nx & _ & []).
Qed.
End P.
