From Verif Require Import Base SeqSpec LinkedHeap LinkedChain LinkedListModel LinkedListSpec LinkedListProofs LinkedIterModel LinkedIterSpec.

Section P.
Context {A : Type} (zero : A).
Implicit Types (xs : list A) (l : llist A).

(** the node n is where the cursor is *)
Definition at_cursor l (ls : list nat) (c : cursor) (n : nat) : Prop :=
  match c with
  | CAt i => ls !! i = Some n
  | CGap i => exists x, l_heap l !! n = Some (Node x (ls !! i))
  end.

Lemma chain_next h p ls xs i n : chain h p ls xs -> ls !! i = Some n -> exists x, xs !! i = Some x /\ h !! n = Some (Node x (ls !! S i)).
Proof.
  unfold chain. revert p xs i. induction ls as [|m ls IH]; intros p xs i; [discriminate|]. destruct xs as [|x xs]; cbn; [tauto|].
  intros (-> & nx & H1 & H2). destruct i as [|i]; cbn.
  - intros [= <-]. exists x. split; [reflexivity|]. rewrite H1. do 2 f_equal. destruct ls, xs; cbn in H2; tauto.
  - intros Hi. apply (IH _ _ _ H2 Hi).
Qed.
Lemma chain_at h p ls xs i x : chain h p ls xs -> xs !! i = Some x -> exists n, ls !! i = Some n /\ h !! n = Some (Node x (ls !! S i)).
Proof.
  intros Hc Hx. destruct (lookup_lt_is_Some_2 ls i) as [n Hn]; [rewrite (seg_length _ _ _ _ _ Hc); eapply lookup_lt_Some; eauto|].
  destruct (chain_next _ _ _ _ _ _ Hc Hn) as (y & Hy & E). exists n. split; [exact Hn|]. congruence.
Qed.

Lemma cursor_moves l xs ls l' xs' ls' c n o :
  lrel_at l xs ls -> lrel_at l' xs' ls' -> cells o (l_heap l) (l_heap l') ls ls' -> calm xs c o -> at_cursor l ls c n -> at_cursor l' ls' (cursor_step c o) n.
Proof.
  intros (HC & _ & _ & _) (HC' & _ & _ & _) Hcell (Hs & Hcalm) Hat.
  pose proof (seg_length _ _ _ _ _ HC) as HL.
  destruct c as [i|i].
  - cbn [at_cursor] in Hat. pose proof (lookup_lt_Some _ _ _ Hat) as Hlt. destruct o as [x|j x|j|j|f|]; cbn [cells cursor_step safe_list_op] in *.
    + destruct Hcell as [m ->]. cbn. apply lookup_app_l_Some. exact Hat.
    + destruct Hcell as [m ->]. destruct (Z.leb_spec j (Z.of_nat i)); cbn.
      * rewrite lookup_app_r by (rewrite take_length; lia). rewrite take_length, min_l by lia. replace (S i - Z.to_nat j) with (S (i - Z.to_nat j)) by lia. etrans; [apply (lookup_drop ls (Z.to_nat j) (i - Z.to_nat j))|]. rewrite <- Hat. f_equal. lia.
      * rewrite lookup_app_l by (rewrite take_length; lia). rewrite lookup_take by lia. exact Hat.
    + destruct Hcell as [-> Hq]. destruct (Z.eqb_spec j (Z.of_nat i)) as [->|Hne]; cbn.
      * rewrite Nat2Z.id in *. destruct (chain_next _ _ _ _ _ _ HC Hat) as (x & _ & E). exists x. rewrite (Hq _ Hat), E. do 2 f_equal.
        rewrite lookup_app_r by (rewrite take_length; lia). rewrite take_length, min_l by lia. rewrite lookup_drop. f_equal. lia.
      * destruct (Z.ltb_spec j (Z.of_nat i)).
        -- rewrite lookup_app_r by (rewrite take_length; lia). rewrite take_length, min_l by lia. rewrite lookup_drop. rewrite <- Hat. f_equal. lia.
        -- rewrite lookup_app_l by (rewrite take_length; lia). rewrite lookup_take by lia. exact Hat.
    + destruct Hcell as [-> _]. exact Hat.
    + destruct Hcell as [-> _]. exact Hat.
    + destruct Hcell as [-> _]. exact Hat.
  - destruct o as [x|j x|j|j|f|]; try contradiction Hcalm; cbn [cells cursor_step] in *; destruct Hcell as [-> E]; cbn in *; rewrite E; exact Hat.
Qed.

Lemma run_ideal_ok {R} (p : lprog A R) l xs ls c n :
  lrel_at l xs ls -> at_cursor l ls c n -> calm_prog p xs c ->
  exists l' ls', run_lprog zero p l = Ret (l', (run_ideal p xs c).2) /\ lrel_at l' (run_ideal p xs c).1.1 ls' /\ at_cursor l' ls' (run_ideal p xs c).1.2 n.
Proof.
  revert l xs ls c. induction p as [r|[g o] k IH]; intros l xs ls c HL HA HC; [exists l, ls; auto|].
  cbn [calm_prog snd] in HC. destruct HC as [HC1 HC2]. destruct (lrel_step_at zero l xs ls g o HL (proj1 HC1)) as (l1 & E1 & ls1 & HL1 & Hcell).
  pose proof (cursor_moves _ _ _ _ _ _ _ _ _ HL HL1 Hcell HC1 HA) as HA1.
  cbn [run_lprog run_ideal snd]. rewrite E1. cbn [rbind]. destruct (seq_step xs o) as [xs1 r1] eqn:Es. cbn [fst snd] in *.
  apply (IH r1 l1 xs1 ls1 (cursor_step c o) HL1 HA1 HC2).
Qed.

Lemma next_node l xs ls c n : lrel_at l xs ls -> at_cursor l ls c n -> exists x, l_heap l !! n = Some (Node x (ls !! next_at c)).
Proof.
  intros (HC & _) HA. destruct c as [i|i]; [|exact HA]. destruct (chain_next _ _ _ _ _ _ HC HA) as (x & _ & E). exists x. exact E.
Qed.

Lemma iter_live_ok {B} fuel (f : B -> A -> lprog A (B * bool)) l xs ls i b :
  lrel_at l xs ls -> calm_iter fuel f i xs b ->
  match iter_live fuel f i xs b with
  | Ret (xs', b') => exists l', iter_prog zero fuel f (ls !! i) l b = Ret (l', b') /\ lrel l' xs'
  | Panic => False
  | Spin => iter_prog zero fuel f (ls !! i) l b = Spin
  end.
Proof.
  revert l xs ls i b. induction fuel as [|fuel IH]; intros l xs ls i b HL HC; pose proof HL as (HCh & _); pose proof (seg_length _ _ _ _ _ HCh) as HLen; cbn [iter_live calm_iter] in *.
  - destruct (xs !! i) as [x|] eqn:Ex.
    + destruct (chain_at _ _ _ _ _ _ HCh Ex) as (n & -> & _). reflexivity.
    + rewrite (lookup_ge_None_2 ls i) by (rewrite HLen; apply lookup_ge_None_1; exact Ex). exists l. split; [reflexivity|]. exists ls. exact HL.
  - destruct (xs !! i) as [x|] eqn:Ex.
    + destruct (chain_at _ _ _ _ _ _ HCh Ex) as (n & Hn & Hh). destruct HC as [HC1 HC2].
      destruct (run_ideal_ok (f b x) l xs ls (CAt i) n HL Hn HC1) as (l1 & ls1 & E1 & HL1 & HA1).
      rewrite Hn. cbn [iter_prog]. rewrite Hh. cbn [deref rbind ndata]. rewrite E1. cbn [rbind].
      destruct (run_ideal (f b x) xs (CAt i)) as [[xs1 c1] [b1 go]]. cbn [fst snd] in *.
      destruct go; [|exists l1; split; [reflexivity|exists ls1; exact HL1]].
      destruct (next_node _ _ _ _ _ HL1 HA1) as (y & Ey). rewrite Ey. cbn [deref rbind nnext].
      apply (IH l1 xs1 ls1 (next_at c1) b1 HL1 HC2).
    + rewrite (lookup_ge_None_2 ls i) by (rewrite HLen; apply lookup_ge_None_1; exact Ex). exists l. split; [reflexivity|]. exists ls. exact HL.
Qed.
Lemma iter_live_start {B} fuel (f : B -> A -> lprog A (B * bool)) l xs b :
  lrel l xs -> calm_iter fuel f 0 xs b ->
  match iter_live fuel f 0 xs b with
  | Ret (xs', b') => exists l', l_iterate_prog zero fuel f l b = Ret (l', b') /\ lrel l' xs'
  | Panic => False
  | Spin => l_iterate_prog zero fuel f l b = Spin
  end.
Proof.
  intros [ls HL] HC. unfold l_iterate_prog. replace (l_head l) with (ls !! 0); [apply (iter_live_ok _ _ _ _ _ _ _ HL HC)|].
  destruct HL as (HCh & _). destruct ls, xs; cbn in HCh; try tauto; [rewrite HCh; reflexivity|]. destruct HCh as [-> _]. reflexivity.
Qed.
End P.
