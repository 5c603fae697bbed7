From Verif Require Import Base SeqSpec LinkedHeap LinkedChain LinkedQueueModel LinkedQueueSpec.

Section P.
Context {A : Type} (zero : A).

Definition qrel (q : queue A) (n : nat) (xs : list A) : Prop :=
  exists ls, chain (q_heap q) (q_head q) ls xs /\ NoDup ls
             /\ length (q_pool q) <= n
             /\ (ls <> [] -> q_tail q = last ls).

Definition qbound (n : nat) (o : qop A) : nat := match o with Dequeue => S n | _ => n end.

Lemma qrel_step q n xs c o :
  qrel q n xs ->
  match o with Enqueue _ => n <= c | _ => True end ->
  match coded_queue_step xs o with
  | Ret (xs', r) => exists q', q_step zero q (c, o) = Ret (q', r) /\ qrel q' (qbound n o) xs'
  | Panic => q_step zero q (c, o) = Panic
  | Spin => False
  end.
Proof.
  intros (ls & Hc & HN & Hp & Ht) Hcn. destruct q as [h pool hd tl].
  cbn [q_heap q_pool q_head q_tail] in *.
  destruct o as [x| | |]; cbn [qbound].
  - unfold q_step, q_enqueue, rbind; cbn [coded_queue_step fifo_step fst snd q_heap q_pool q_head q_tail].
    unfold pool_get. assert (pool !! c = None) as -> by (apply lookup_ge_None; lia).
    rewrite lookup_app_r by lia. rewrite Nat.sub_diag. cbn [lookup list_lookup deref nnext].
    rewrite insert_app_r_alt by lia. rewrite Nat.sub_diag. cbn [insert list_insert].
    pose proof (seg_bound _ _ _ _ _ Hc) as HB.
    destruct hd as [l|].
    + pose proof Hc as Hc0.
      apply chain_cons in Hc0 as (y & nx & ls' & xs' & Els & Exs & Hlk & _).
      rewrite Ht by (rewrite Els; discriminate).
      destruct (exists_last (l := xs)) as (xs1 & z & Exl); [rewrite Exs; discriminate|].
      rewrite Exl in Hc. pose proof Hc as Hc1. apply seg_snoc_inv in Hc1 as (ls1 & t & -> & H1 & H2).
      rewrite last_snoc. cbn [deref].
      assert (Htl : t < length h) by (apply lookup_lt_Some in H2; exact H2).
      rewrite lookup_app_l by exact Htl. rewrite H2. cbn [deref ndata].
      rewrite insert_app_l by exact Htl.
      eexists; split; [reflexivity|].
      exists ((ls1 ++ [t]) ++ [length h]). cbn. rewrite Exl.
      apply NoDup_app in HN as (HN1 & HN2 & _).
      assert (Hnt : t ∉ ls1).
      { intros Hin. apply (HN2 t Hin). set_solver. }
      assert (Hlen : length h ∉ ls1 ++ [t]).
      { intros Hin. rewrite Forall_forall in HB. specialize (HB _ Hin). cbn in HB. lia. }
      split; [|split; [|split]].
      * eapply seg_app; [eapply seg_app|].
        -- apply seg_grow. apply seg_insert; [exact Hnt|]. exact H1.
        -- cbn. split; [reflexivity|]. exists (Some (length h)).
           rewrite lookup_app_l by (rewrite insert_length; exact Htl).
           rewrite list_lookup_insert by exact Htl. split; reflexivity.
        -- cbn. split; [reflexivity|]. exists None.
           rewrite lookup_app_r by (rewrite insert_length; lia).
           rewrite insert_length, Nat.sub_diag. cbn. split; reflexivity.
      * apply NoDup_app. split; [|split].
        -- apply NoDup_app. split; [exact HN1|split]; [|apply NoDup_singleton]. exact HN2.
        -- intros y' Hy' Hy2. apply elem_of_list_singleton in Hy2 as ->. tauto.
        -- apply NoDup_singleton.
      * exact Hp.
      * intros _. rewrite last_snoc. reflexivity.
    + apply chain_nil in Hc as [-> ->].
      eexists; split; [reflexivity|]. exists [length h]. cbn. split; [|split; [|split]].
      * split; [reflexivity|]. exists None. rewrite lookup_app_r by lia. rewrite Nat.sub_diag.
        cbn. auto.
      * apply NoDup_singleton.
      * exact Hp.
      * reflexivity.
  - unfold q_step, q_dequeue, rbind; cbn [coded_queue_step fifo_step fst snd q_heap q_pool q_head q_tail].
    destruct hd as [l|].
    + apply chain_cons in Hc as (x & nx & ls' & xs' & -> & -> & Hlk & Hc).
      rewrite Hlk; cbn [deref nnext q_head q_heap].
      destruct nx as [l'|].
      * apply chain_cons in Hc as (y & ny & ls2 & xs2 & -> & -> & Hlk2 & Hc).
        cbn [deref]. rewrite Hlk2; cbn [deref ndata].
        eexists; split; [reflexivity|]. exists (l' :: ls2). cbn. split; [|split; [|split]].
        -- split; [reflexivity|]. exists ny; auto.
        -- apply NoDup_cons in HN; tauto.
        -- rewrite app_length; cbn; lia.
        -- intros _. rewrite Ht by discriminate. reflexivity.
      * apply chain_nil in Hc as [-> ->]. reflexivity.
    + apply chain_nil in Hc as [-> ->]. eexists; split; [reflexivity|]. exists []. cbn. repeat split; auto; lia.
  - unfold q_step, q_peek, rbind; cbn [coded_queue_step fifo_step fst snd q_heap q_pool q_head q_tail].
    destruct hd as [l|].
    + pose proof Hc as Hc0.
      apply chain_cons in Hc as (x & nx & ls' & xs' & -> & -> & Hlk & Hc).
      rewrite Hlk; cbn [deref].
      eexists; split; [reflexivity|]. exists (l :: ls'). auto.
    + apply chain_nil in Hc as [-> ->]. eexists; split; [reflexivity|]. exists []. cbn. auto.
  - unfold q_step, q_isempty; cbn. destruct hd as [l|].
    + pose proof Hc as Hc0.
      apply chain_cons in Hc0 as (x & nx & ls' & xs' & -> & -> & Hlk & _).
      eexists; split; [reflexivity|]. exists (l :: ls'). auto.
    + apply chain_nil in Hc as [-> ->]. eexists; split; [reflexivity|]. exists []. cbn. auto.
Qed.

Lemma queue_run q n xs hist :
  qrel q n xs -> no_recycling n hist ->
  (run (q_step zero) q hist).1 = (run coded_queue_step xs hist.*2).1 /\
  ended (run (q_step zero) q hist).2 = ended (run coded_queue_step xs hist.*2).2 /\
  (run coded_queue_step xs hist.*2).2 <> Spin.
Proof.
  revert q n xs; induction hist as [|[c o] hist IH]; intros q n xs HR HG.
  - cbn. repeat split; auto; discriminate.
  - rewrite fmap_cons. cbn [run fst snd].
    assert (Hg1 : match o with Enqueue _ => n <= c | _ => True end) by (destruct o; cbn in HG; tauto).
    assert (Hg2 : no_recycling (qbound n o) hist) by (destruct o; cbn in *; tauto).
    pose proof (qrel_step q n xs c o HR Hg1) as H.
    destruct (coded_queue_step xs o) as [[xs' r]| |].
    + destruct H as (q' & -> & HR'). destruct (IH q' _ xs' HR' Hg2) as (IH1 & IH2 & IH3).
      destruct (run (q_step zero) q' hist), (run coded_queue_step xs' (hist.*2)); cbn in *.
      repeat split; congruence.
    + rewrite H. cbn. repeat split; auto; discriminate.
    + contradiction.
Qed.

Lemma qrel_new n : qrel q_new n [].
Proof. exists []. cbn. repeat split; try constructor; try lia. Qed.

Lemma queue_exact (hist : list (nat * qop A)) :
  no_recycling 0 hist ->
  (run (q_step zero) q_new hist).1 = (run coded_queue_step [] hist.*2).1 /\
  ended (run (q_step zero) q_new hist).2 = ended (run coded_queue_step [] hist.*2).2 /\
  (run coded_queue_step [] hist.*2).2 <> Spin.
Proof. apply queue_run. apply qrel_new. Qed.

(** Enqueues first, then [k] dequeues. *)
Definition enqs (cxs : list (nat * A)) : list (nat * qop A) :=
  (fun cx => (cx.1, Enqueue cx.2)) <$> cxs.
Definition deqs (cs : list nat) : list (nat * qop A) := (fun c => (c, Dequeue)) <$> cs.

Lemma deqs_no_recycling n cs : no_recycling n (deqs cs).
Proof. revert n; induction cs as [|c cs IH]; intros n; cbn; auto. Qed.
Lemma enqs_deqs_no_recycling cxs cs : no_recycling 0 (enqs cxs ++ deqs cs).
Proof.
  induction cxs as [|[c x] cxs IH]; cbn.
  - apply deqs_no_recycling.
  - split; [lia|exact IH].
Qed.

Lemma coded_enqs cxs l :
  run coded_queue_step l (enqs cxs).*2
  = (replicate (length cxs) (RBool true), Ret (l ++ cxs.*2)).
Proof.
  revert l; induction cxs as [|[c x] cxs IH]; intros l; cbn.
  - rewrite app_nil_r. reflexivity.
  - unfold enqs in IH. rewrite IH. rewrite <- app_assoc. reflexivity.
Qed.

Lemma coded_deqs_short cs x l :
  length cs <= length l ->
  run coded_queue_step (x :: l) (deqs cs).*2
  = ((fun y => RVal (Some y)) <$> take (length cs) l, Ret (drop (length cs) (x :: l))).
Proof.
  revert x l; induction cs as [|c cs IH]; intros x l Hl; cbn; [reflexivity|].
  destruct l as [|y l]; cbn in Hl; [lia|]. unfold deqs in IH. cbn. rewrite IH by lia.
  reflexivity.
Qed.

Lemma coded_deqs_panic cs x l :
  length cs = S (length l) ->
  run coded_queue_step (x :: l) (deqs cs).*2 = ((fun y => RVal (Some y)) <$> l, Panic).
Proof.
  revert x l; induction cs as [|c cs IH]; intros x l Hl; cbn; [discriminate|].
  destruct l as [|y l]; cbn in Hl; [reflexivity|]. unfold deqs in IH. cbn.
  rewrite IH by (cbn; lia). reflexivity.
Qed.

Lemma queue_dequeues (x : A) (cxs : list (nat * A)) (c0 : nat) (cs : list nat) :
  let xs := x :: cxs.*2 in
  let r := run (q_step zero) q_new (enqs ((c0, x) :: cxs) ++ deqs cs) in
  (length cs < length xs ->
     r.1 = replicate (length xs) (RBool true) ++ ((fun y => RVal (Some y)) <$> take (length cs) (tail xs))
     /\ ended r.2 = Ret tt)
  /\ (length cs = length xs ->
     r.1 = replicate (length xs) (RBool true) ++ ((fun y => RVal (Some y)) <$> tail xs)
     /\ r.2 = Panic).
Proof.
  cbn zeta. destruct (queue_exact (enqs ((c0, x) :: cxs) ++ deqs cs)) as (H1 & H2 & _).
  { apply enqs_deqs_no_recycling. }
  generalize dependent (run (q_step zero) q_new (enqs ((c0, x) :: cxs) ++ deqs cs)).
  intros r H1 H2.
  rewrite fmap_app, (run_app coded_queue_step), coded_enqs in H1, H2. cbn [app] in H1, H2.
  rewrite fmap_cons in H1, H2. cbn [fst snd] in H1, H2.
  assert (Hlen : length ((c0, x) :: cxs) = length (x :: cxs.*2)) by (cbn; rewrite fmap_length; reflexivity).
  split; intros Hl.
  - rewrite coded_deqs_short in H1, H2 by (cbn in Hl; lia). cbn in H1, H2.
    cbn in Hlen. injection Hlen as Hlen. rewrite H1, H2.
    split; [|reflexivity]. cbn. rewrite Hlen. reflexivity.
  - rewrite coded_deqs_panic in H1, H2 by (cbn in Hl; lia). cbn in H1, H2.
    cbn in Hlen. injection Hlen as Hlen. rewrite H1.
    split; [cbn; rewrite Hlen; reflexivity|].
    destruct r.2; [discriminate H2|reflexivity|discriminate H2].
Qed.

(** Restriction on which the queue is FIFO: no Dequeue on a non-empty queue. *)
Lemma queue_no_dequeue (hist : list (nat * qop A)) :
  (forall pre post, hist.*2 = pre ++ Dequeue :: post -> ideal_state fifo_step [] pre = []) ->
  exists s', run (q_step zero) q_new hist = (ideal_results fifo_step [] hist.*2, Ret s').
Proof.
  intros HG.
  destruct (run_refines_oracle (q_step zero) fifo_step (fun q xs => qrel q 0 xs)
              (fun a o => match o with Dequeue => a = [] | _ => True end)) with
    (hist := hist) (s := @q_new A) (a := @nil A) as (s' & H & _).
  - intros s a c o HR Hg.
    assert (Hd : o = Dequeue \/ o <> Dequeue) by (destruct o; auto; right; discriminate).
    destruct Hd as [-> | Hd].
    + subst a. destruct HR as (ls & Hc & HN & Hp & Ht). destruct s as [h pool hd tl].
      cbn [q_heap q_pool q_head q_tail] in *.
      destruct hd as [l|]; [apply chain_cons in Hc as (? & ? & ? & ? & _ & Hx & _); discriminate|].
      eexists; split; [reflexivity|]. exists ls. auto.
    + pose proof (qrel_step s 0 a c o HR) as H.
      destruct o; cbn [coded_queue_step qbound] in H; try congruence; apply H; auto; lia.
  - apply qrel_new.
  - intros pre o post E. destruct o; try exact I. eapply HG; exact E.
  - eauto.
Qed.
End P.

(** With a recycled node the chain becomes a ring: endless supply of elements. *)
Section Ring.
Context {A : Type} (zero a b c d : A).
Definition ring_heap : list (node A) := [Node d (Some 1); Node b (Some 2); Node c (Some 0)].

Lemma ring_dequeues n pool k tl :
  k < 3 ->
  ended (run (q_step zero) (Queue ring_heap pool (Some k) tl) (replicate n (0, Dequeue))).2 = Ret tt.
Proof.
  revert pool k; induction n as [|n IH]; intros pool k Hk; [reflexivity|].
  cbn [replicate run].
  destruct k as [|[|[|k]]]; [| | |lia]; cbn [q_step q_dequeue q_head q_heap ring_heap fst snd deref nnext lookup list_lookup rbind ndata].
  - match goal with |- ended (let '(_,_) := run _ ?q _ in _).2 = _ => specialize (IH (pool ++ [0]) 1 ltac:(lia)) end.
    unfold ring_heap in IH. cbn [q_pool q_tail]. destruct (run _ _ _) in IH |- *. exact IH.
  - specialize (IH (pool ++ [1]) 2 ltac:(lia)).
    unfold ring_heap in IH. cbn [q_pool q_tail]. destruct (run _ _ _) in IH |- *. exact IH.
  - specialize (IH (pool ++ [2]) 0 ltac:(lia)).
    unfold ring_heap in IH. cbn [q_pool q_tail]. destruct (run _ _ _) in IH |- *. exact IH.
Qed.

Lemma queue_endless n :
  ended (run (q_step zero) q_new
     ([(0, Enqueue a); (0, Enqueue b); (0, Enqueue c); (0, Dequeue); (0, Enqueue d)]
      ++ replicate n (0, Dequeue))).2 = Ret tt.
Proof.
  rewrite run_app. cbn -[replicate run]. 
  pose proof (ring_dequeues n [] 1 (Some 0) ltac:(lia)) as H.
  match goal with |- context [run (q_step zero) q_new ?l] =>
    assert (E : run (q_step zero) q_new l =
            ([RBool true; RBool true; RBool true; RVal (Some b); RBool true],
             Ret (Queue ring_heap [] (Some 1) (Some 0)))) by reflexivity; rewrite E end.
  destruct (run _ _ _) in H |- *. exact H.
Qed.
End Ring.
