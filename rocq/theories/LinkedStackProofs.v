From Verif Require Import Base SeqSpec LinkedHeap LinkedChain LinkedStackModel LinkedStackSpec.

Section P.
Context {A : Type} (zero : A).

Definition srel (s : stack A) (xs : list A) : Prop :=
  exists ls, chain (s_heap s) (s_head s) ls xs /\ own (s_heap s) ls (s_pool s)
             /\ s_length s = Z.of_nat (length xs).

Lemma srel_step s xs c o :
  srel s xs ->
  match coded_stack_step xs o with
  | Ret (xs', r) => exists s', s_step zero s (c, o) = Ret (s', r) /\ srel s' xs'
  | Panic => s_step zero s (c, o) = Panic
  | Spin => False
  end.
Proof.
  intros (ls & Hc & Ho & Hl). destruct s as [h pool hd len]. cbn [s_heap s_pool s_head s_length] in *.
  destruct o as [x| | |].
  - unfold s_step, s_push, rbind; cbn [coded_stack_step lifo_step fst snd].
    cbn [s_heap s_pool s_head s_length].
    destruct (pool_get (Node zero None) c pool h) as [[n pool'] h'] eqn:E.
    destruct (pool_get_own _ _ _ _ _ _ _ _ E Ho) as (Hn & Hlt & Ho' & Hseg).
    eexists; split; [reflexivity|]. exists (n :: ls). cbn. split; [|split].
    + split; [reflexivity|]. exists hd. rewrite list_lookup_insert by exact Hlt.
      split; [reflexivity|]. apply seg_insert; [exact Hn|]. apply Hseg. exact Hc.
    + eapply own_resize; [|exact Ho']. rewrite insert_length; lia.
    + rewrite Hl. lia.
  - unfold s_step, s_pop, rbind; cbn [coded_stack_step lifo_step fst snd].
    cbn [s_heap s_pool s_head s_length].
    destruct hd as [l|].
    + apply chain_cons in Hc as (x & nx & ls' & xs' & -> & -> & Hlk & Hc).
      rewrite Hlk; cbn [deref nnext s_head s_heap].
      destruct nx as [l'|].
      * apply chain_cons in Hc as (y & ny & ls2 & xs2 & -> & -> & Hlk2 & Hc).
        cbn [deref]. rewrite Hlk2; cbn [deref ndata].
        eexists; split; [reflexivity|]. exists (l' :: ls2). cbn. split; [|split].
        -- split; [reflexivity|]. exists ny; auto.
        -- apply own_release. exact Ho.
        -- rewrite Hl. cbn. lia.
      * apply chain_nil in Hc as [-> ->]. reflexivity.
    + apply chain_nil in Hc as [-> ->]. eexists; split; [reflexivity|]. exists []. cbn. auto.
  - unfold s_step, s_peek, rbind; cbn [coded_stack_step lifo_step fst snd].
    cbn [s_heap s_pool s_head s_length].
    destruct hd as [l|].
    + pose proof Hc as Hc0.
      apply chain_cons in Hc as (x & nx & ls' & xs' & -> & -> & Hlk & Hc).
      rewrite Hlk; cbn [deref nnext s_head s_heap].
      eexists; split; [reflexivity|]. exists (l :: ls'). auto.
    + apply chain_nil in Hc as [-> ->]. eexists; split; [reflexivity|]. exists []. cbn. auto.
  - unfold s_step, s_len; cbn. eexists; split; [rewrite Hl; reflexivity|]. exists ls. auto.
Qed.

Lemma stack_run s xs hist :
  srel s xs ->
  (run (s_step zero) s hist).1 = (run coded_stack_step xs hist.*2).1 /\
  match (run (s_step zero) s hist).2, (run coded_stack_step xs hist.*2).2 with
  | Ret s', Ret xs' => srel s' xs'
  | Panic, Panic => True
  | _, _ => False
  end.
Proof.
  revert s xs; induction hist as [|[c o] hist IH]; intros s xs HR.
  - cbn. auto.
  - cbn [run fmap list_fmap fst snd]. pose proof (srel_step s xs c o HR) as H.
    destruct (coded_stack_step xs o) as [[xs' r]| |].
    + destruct H as (s' & -> & HR'). specialize (IH s' xs' HR') as [IH1 IH2].
      change (list_fmap (nat * sop A)%type (sop A) snd hist) with (hist.*2).
      destruct (run (s_step zero) s' hist), (run coded_stack_step xs' (hist.*2)); cbn in *.
      split; [congruence|exact IH2].
    + rewrite H. cbn. auto.
    + contradiction.
Qed.

Lemma srel_new : srel s_new [].
Proof. exists []. cbn. repeat split; constructor. Qed.
End P.

Section Corollaries.
Context {A : Type} (zero : A).

Lemma stack_exact (hist : list (nat * sop A)) :
  (run (s_step zero) s_new hist).1 = (run coded_stack_step [] hist.*2).1 /\
  ended (run (s_step zero) s_new hist).2 = ended (run coded_stack_step [] hist.*2).2 /\
  (run coded_stack_step [] hist.*2).2 <> Spin.
Proof.
  destruct (stack_run zero s_new [] hist srel_new) as [H1 H2]. split; [exact H1|].
  destruct ((run (s_step zero) s_new hist).2), ((run coded_stack_step [] hist.*2).2);
    try contradiction; split; cbn; congruence.
Qed.

Lemma stack_no_pop (hist : list (nat * sop A)) :
  (forall pre post, hist.*2 = pre ++ Pop :: post -> ideal_state lifo_step [] pre = []) ->
  exists s', run (s_step zero) s_new hist = (ideal_results lifo_step [] hist.*2, Ret s').
Proof.
  intros HG.
  destruct (run_refines_oracle (s_step zero) lifo_step srel
              (fun a o => match o with Pop => a = [] | _ => True end)) with
    (hist := hist) (s := @s_new A) (a := @nil A) as (s' & H & _).
  - intros s a c o HR Hg. pose proof (srel_step zero s a c o HR) as H.
    destruct o; cbn [coded_stack_step] in H; try exact H.
    subst a. exact H.
  - apply srel_new.
  - intros pre o post E. destruct o; try exact I. eapply HG; exact E.
  - eauto.
Qed.
End Corollaries.
