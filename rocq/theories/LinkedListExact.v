(** The linked list refines LinkedListExactSpec. *)
From Verif Require Import Base SeqSpec LinkedHeap LinkedChain LinkedListModel LinkedListSpec LinkedListProofs LinkedListExactSpec.

Section P.
Context {A : Type} (zero : A).
Implicit Types (h : list (node A)).

Definition tailrel h (ls pool : list nat) (tl : tailpos) (p : option nat) : Prop :=
  match tl with
  | TNil => p = None
  | TAt k => exists t, ls !! k = Some t /\ p = Some t
  | TPool => exists t, p = Some t /\ t ∈ pool
  | TGone => exists t, p = Some t /\ t ∉ ls /\ t ∉ pool /\ t < length h
  end.
Definition xrel (l : llist A) (s : lstate A) : Prop :=
  exists ls, chain (l_heap l) (l_head l) ls (e_seq s) /\ own (l_heap l) ls (l_pool l) /\
    tailrel (l_heap l) ls (l_pool l) (e_tail s) (l_tail l) /\ l_length l = e_len s.
(** does this Get return the node of the tail? *)
Definition reuses (l : llist A) (c : nat) : bool :=
  match l_tail l with Some t => bool_decide (l_pool l !! c = Some t) | None => false end.

(** the location of the tail after a Get, before anything is written *)
Lemma get_tail h ls pool tl p c n pool' h' :
  pool_get (Node zero None) c pool h = (n, pool', h') -> own h ls pool -> tailrel h ls pool tl p ->
  match tl with
  | TNil => p = None
  | TAt k => exists t, ls !! k = Some t /\ p = Some t
  | TPool => exists t, p = Some t /\ if bool_decide (pool !! c = Some t) then n = t else n <> t /\ t ∈ pool'
  | TGone => exists t, p = Some t /\ n <> t /\ t ∉ ls /\ t ∉ pool'
  end /\ length h <= length h'.
Proof.
  intros E [ND HF] Ht. unfold pool_get in E. split.
  2: { destruct (pool !! c); injection E as <- <- <-; [lia|rewrite app_length; lia]. }
  destruct tl; cbn in Ht; [exact Ht|exact Ht| |].
  - destruct Ht as (t & -> & Hin). exists t. split; [reflexivity|]. case_bool_decide as D.
    + rewrite D in E. injection E as <- _ _. reflexivity.
    + destruct (pool !! c) as [m|] eqn:Em; injection E as <- <- <-.
      * split; [congruence|]. apply delete_Permutation in Em. rewrite Em in Hin. apply elem_of_cons in Hin as [->|Hin]; [congruence|exact Hin].
      * split; [|exact Hin]. intros <-. apply Forall_app in HF as [_ HF]. rewrite Forall_forall in HF. specialize (HF _ Hin). lia.
  - destruct Ht as (t & -> & H1 & H2 & H3). exists t. split; [reflexivity|].
    destruct (pool !! c) as [m|] eqn:Em; injection E as <- <- <-.
    + assert (m ∈ pool) by (eapply elem_of_list_lookup_2; eauto). split; [congruence|]. split; [exact H1|]. intros H4. apply H2.
      apply delete_Permutation in Em. rewrite Em. right. exact H4.
    + split; [lia|]. auto.
Qed.

Lemma own_take h (ls pool : list nat) k n : own h (n :: ls) pool -> own h (take k ls ++ [n]) pool.
Proof.
  intros [ND HF]. assert (S : take k ls ++ [n] ++ pool ⊆+ n :: ls ++ pool).
  { cbn. rewrite <- Permutation_middle. constructor. rewrite <- (take_drop k ls) at 2. rewrite <- app_assoc.
    apply submseteq_skips_l, submseteq_inserts_l. reflexivity. }
  split.
  - rewrite <- app_assoc. apply submseteq_Permutation in S as [k' S]. cbn [app] in *. rewrite S in ND. apply NoDup_app in ND. tauto.
  - rewrite <- app_assoc. apply Forall_forall. intros x Hx. rewrite Forall_forall in HF. apply HF. eapply elem_of_submseteq; eauto.
Qed.
Lemma own_take' h (ls pool : list nat) n : own h (n :: ls) pool -> own h ls pool.
Proof. intros [ND HF]. cbn in *. apply NoDup_cons in ND as [_ ND]. apply Forall_cons in HF as [_ HF]. split; assumption. Qed.

(** hanging node n behind element k *)
Lemma chain_hang h hd ls xs k t n x d nx :
  chain h hd ls xs -> NoDup ls -> ls !! k = Some t -> n ∉ ls -> n < length h -> h !! t = Some (Node d nx) ->
  chain (<[t := Node d (Some n)]> (<[n := Node x None]> h)) hd (take (S k) ls ++ [n]) (take (S k) xs ++ [x]).
Proof.
  intros Hc ND Hk Hn Hlt Ht. pose proof (seg_length _ _ _ _ _ Hc) as Hlen.
  assert (Hkx : k < length xs) by (rewrite <- Hlen; eapply lookup_lt_Some; eauto).
  destruct (chain_split _ _ _ _ k Hc Hkx) as (p & y & nx' & ls1 & ls2 & -> & Hlk1 & Hxk & S1 & Hp & S2).
  rewrite lookup_app_r in Hk by lia. rewrite Hlk1, Nat.sub_diag in Hk. injection Hk as ->.
  rewrite Ht in Hp. injection Hp as -> ->.
  apply NoDup_app in ND as (_ & ND1 & ND2). apply NoDup_cons in ND2 as [Hp2 _].
  assert (Hp1 : t ∉ ls1) by (intros HH; apply (ND1 t HH); elem_tac).
  assert (n <> t) by (intros ->; apply Hn; elem_tac).
  rewrite (take_S_r _ _ _ Hxk). replace (take (S k) (ls1 ++ t :: ls2)) with (ls1 ++ [t]).
  2: { rewrite take_app_ge by lia. replace (S k - length ls1) with 1 by lia. reflexivity. }
  rewrite <- !app_assoc. unfold chain. eapply seg_app.
  - apply seg_insert; [exact Hp1|]. apply seg_insert; [elem_tac|]. exact S1.
  - cbn. split; [reflexivity|]. exists (Some n). rewrite list_lookup_insert by (rewrite insert_length; eapply lookup_lt_Some; eauto).
    split; [reflexivity|]. split; [reflexivity|]. exists None. rewrite list_lookup_insert_ne by congruence.
    rewrite list_lookup_insert by exact Hlt. auto.
Qed.

(** l.tail.next = n; l.tail = n with the tail [t] *)
Lemma hang_tail h hd ls xs pool len tl t c n pool' h' x :
  pool_get (Node zero None) c pool h = (n, pool', h') ->
  chain h hd ls xs -> own h ls pool -> tailrel h ls pool tl (Some t) ->
  exists tn, (<[n := Node x None]> h') !! t = Some tn /\
    xrel (LList (<[t := Node (ndata tn) (Some n)]> (<[n := Node x None]> h')) pool' hd (Some n) len)
         (LState (hang xs tl x).1 (hang xs tl x).2 len).
Proof.
  intros E Hc Ho Ht. destruct (pool_get_own _ _ _ _ _ _ _ _ E Ho) as (Hn & Hlt & Ho' & Hseg).
  destruct (get_tail _ _ _ _ _ _ _ _ _ E Ho Ht) as [Ht' Hle].
  assert (Hb : t < length h').
  { destruct Ho as [_ HF]. rewrite Forall_forall in HF. destruct tl; cbn in Ht; [discriminate| | |].
    - destruct Ht as (t' & Hk & [= <-]). apply elem_of_list_lookup_2 in Hk. specialize (HF t ltac:(elem_tac)). lia.
    - destruct Ht as (t' & [= <-] & Hk). specialize (HF t ltac:(elem_tac)). lia.
    - destruct Ht as (t' & [= <-] & _ & _ & Hk). lia. }
  assert (NDl : NoDup ls) by (destruct Ho as [ND _]; apply NoDup_app in ND; tauto).
  assert (tl = TPool \/ tl = TGone \/ ~ (tl = TPool \/ tl = TGone)) as Dt by (destruct tl; intuition discriminate).
  apply or_assoc in Dt as [Dt|Dt].
  - (* the tail is not in the list *)
    assert (Htl : t ∉ ls).
    { destruct Ho as [ND _]. apply NoDup_app in ND as (_ & ND & _). destruct Dt as [-> | ->]; cbn in Ht.
      - destruct Ht as (t' & [= <-] & Hk). intros H. exact (ND t H Hk).
      - destruct Ht as (t' & [= <-] & Hk & _). exact Hk. }
    assert (Eh : hang xs tl x = (xs, TGone)) by (destruct Dt as [-> | ->]; reflexivity). rewrite Eh. cbn [fst snd].
    destruct (lookup_lt_is_Some_2 (<[n := Node x None]> h') t ltac:(rewrite insert_length; exact Hb)) as [tn Htn].
    exists tn. split; [exact Htn|]. exists ls. cbn. split; [|split; [|split]].
    + apply seg_insert; [exact Htl|]. apply seg_insert; [exact Hn|]. apply Hseg, Hc.
    + eapply own_resize with (h := h'); [rewrite !insert_length; reflexivity|]. exact (own_take' _ _ _ _ Ho').
    + exists n. split; [reflexivity|]. split; [exact Hn|]. destruct Ho' as [ND _]. cbn in ND. apply NoDup_cons in ND as [ND _].
      rewrite !insert_length. split; [elem_tac|exact Hlt].
    + reflexivity.
  - destruct tl as [|k| |]; [cbn in Ht; discriminate| |tauto|tauto]. destruct Ht as (t' & Hk & [= <-]). cbn [hang fst snd].
    assert (n <> t) by (intros ->; apply Hn; eapply elem_of_list_lookup_2; eauto).
    destruct (lookup_lt_is_Some_2 h' t Hb) as [[d nx] Htn].
    exists (Node d nx). split; [rewrite list_lookup_insert_ne by congruence; exact Htn|].
    exists (take (S k) ls ++ [n]). cbn. split; [|split; [|split]].
    + eapply chain_hang; eauto. apply Hseg, Hc.
    + eapply own_resize with (h := h'); [rewrite !insert_length; reflexivity|]. apply own_take; exact Ho'.
    + exists n. split; [|reflexivity]. rewrite lookup_app_r by (rewrite take_length; lia).
      pose proof (lookup_lt_Some _ _ _ Hk). rewrite take_length, Nat.min_l by lia. rewrite Nat.sub_diag. reflexivity.
    + reflexivity.
Qed.


Lemma xrel_step l s c o :
  xrel l s ->
  match exact_step s (reuses l c, o) with
  | Ret (s', r) => exists l', l_step zero l (c, o) = Ret (l', r) /\ xrel l' s'
  | Panic => l_step zero l (c, o) = Panic
  | Spin => False
  end.
Proof.
  intros (ls & Hc & Ho & Ht & Hl). destruct l as [h pool hd tlp len], s as [xs tl len'].
  cbn [l_heap l_pool l_head l_tail l_length e_seq e_tail e_len] in *. subst len'.
  pose proof (seg_length _ _ _ _ _ Hc) as Hlen.
  pose proof (own_bound_length _ _ _ Ho) as Hbl.
  assert (NDl : NoDup ls) by (destruct Ho as [ND _]; apply NoDup_app in ND; tauto).
  destruct o as [x|i x|i|i|f|].
  - (* Append *)
    unfold exact_step, l_step, l_append; cbn [fst snd l_heap l_pool l_head l_tail l_length e_seq e_tail e_len].
    destruct (pool_get (Node zero None) c pool h) as [[n pool'] h'] eqn:E.
    destruct tlp as [t|].
    + destruct (hang_tail h hd ls xs pool (len + 1) tl t c n pool' h' x E Hc Ho Ht) as (tn & Htn & HX).
      rewrite Htn. cbn [deref rbind]. destruct (hang xs tl x) as [xs' tl']. cbn [fst snd] in *. eexists; split; [reflexivity|exact HX].
    + assert (tl = TNil) as -> by (destruct tl; cbn in Ht; [reflexivity|destruct Ht as (? & ? & ?); discriminate|destruct Ht as (? & ? & ?); discriminate|destruct Ht as (? & ? & ?); discriminate]).
      cbn [hang rbind]. eexists; split; [reflexivity|].
      destruct (pool_get_own _ _ _ _ _ _ _ _ E Ho) as (Hn & Hlt & Ho' & Hseg).
      exists [n]. cbn. split; [|split; [|split]].
      * split; [reflexivity|]. exists None. rewrite list_lookup_insert by exact Hlt. auto.
      * eapply own_resize with (h := h'); [rewrite insert_length; reflexivity|]. exact (own_take _ _ _ 0 _ Ho').
      * exists n. auto.
      * reflexivity.
  - (* Insert *)
    unfold exact_step, l_step, l_insert, reuses; cbn [fst snd l_heap l_pool l_head l_tail l_length e_seq e_tail e_len].
    destruct (pool_get (Node zero None) c pool h) as [[n pool'] h'] eqn:E.
    destruct (pool_get_own _ _ _ _ _ _ _ _ E Ho) as (Hn & Hlt & Ho' & Hseg).
    destruct (get_tail _ _ _ _ _ _ _ _ _ E Ho Ht) as [Ht' Hle].
    destruct (Z.eqb_spec i 0) as [->|Hi0]; [|destruct (Z.eqb_spec i (len + 1)) as [->|Hi1]].
    + cbn [rbind]. eexists; split; [reflexivity|]. exists (n :: ls). cbn. split; [|split; [|split]].
      * split; [reflexivity|]. exists hd.
        rewrite list_lookup_insert by (rewrite insert_length; exact Hlt).
        split; [reflexivity|]. apply seg_insert; [exact Hn|]. apply seg_insert; [exact Hn|]. apply Hseg, Hc.
      * eapply own_resize; [|exact Ho']. rewrite !insert_length. lia.
      * destruct tl as [|k| |]; cbn in Ht' |- *.
        -- exact Ht'.
        -- destruct Ht' as (t & H1 & H2). exists t. auto.
        -- destruct Ht' as (t & -> & H1). case_bool_decide; cbn.
           ++ exists n. split; [reflexivity|]. congruence.
           ++ destruct H1. exists t. auto.
        -- destruct Ht' as (t & -> & H1 & H2 & H3). exists t. split; [reflexivity|]. rewrite !insert_length.
           assert (t <> n) by congruence. split; [elem_tac|]. split; [exact H3|]. destruct Ht as (t' & [= <-] & _ & _ & ?). lia.
      * reflexivity.
    + (* at len + 1 *)
      destruct tlp as [t|].
      * destruct (hang_tail h hd ls xs pool (len + 1) tl t c n pool' h' x E Hc Ho Ht) as (tn & Htn & HX).
        cbn [deref rbind]. rewrite Htn. cbn [deref rbind].
        assert (tl <> TNil) by (intros ->; cbn in Ht; discriminate).
        destruct (hang xs tl x) as [xs' tl'] eqn:Eh. cbn [fst snd] in *.
        destruct tl; [contradiction| | |]; (eexists; split; [reflexivity|exact HX]).
      * assert (tl = TNil) as -> by (destruct tl; cbn in Ht; [reflexivity|destruct Ht as (? & ? & ?); discriminate|destruct Ht as (? & ? & ?); discriminate|destruct Ht as (? & ? & ?); discriminate]).
        reflexivity.
    + assert (Hc1 : chain (<[n:=Node x None]> h') hd ls xs) by (apply seg_insert; [assumption|]; apply Hseg, Hc).
      assert (Hlen' : length ls <= length (<[n:=Node x None]> h')).
      { destruct Ho' as [HNN HFF]. pose proof (own_bound_length _ (n :: ls) pool' (conj HNN HFF)) as Hb.
        rewrite insert_length. cbn in Hb. lia. }
      rewrite (walk_spec _ _ _ _ _ 0 (i-1) Hc1 Hlen'). rewrite Z.sub_0_r. cbn [rbind].
      unfold in_range. destruct (Z.leb_spec 0 (i - 1)) as [Hp0|Hp0]; [destruct (Z.ltb_spec i (zlen xs + 1)) as [Hp1|Hp1]|].
      2, 3: rewrite ?andb_false_r; try (replace (1 <=? i)%Z with false by (symmetry; apply Z.leb_gt; lia)); cbn [andb];
        rewrite ?(lookup_ge_None_2 ls (Z.to_nat (i - 1))) by (unfold zlen in *; lia);
        (eexists; split; [reflexivity|]); exists ls; cbn;
        (split; [exact Hc1|]); (split; [eapply own_resize with (h := h'); [rewrite insert_length; reflexivity|]; exact (own_take' _ _ _ _ Ho')|]);
        (split; [|reflexivity]);
        (destruct tl as [|k| |]; cbn in Ht' |- *; [exact Ht'|exact Ht'| |]);
        [destruct Ht' as (t & -> & H1); case_bool_decide; cbn;
           [exists n; split; [congruence|]; split; [exact Hn|]; rewrite insert_length; split; [|exact Hlt];
            destruct Ho' as [ND _]; cbn in ND; apply NoDup_cons in ND as [ND _]; elem_tac
           |destruct H1; exists t; auto]
        |destruct Ht' as (t & -> & H1 & H2 & H3); exists t; split; [reflexivity|]; rewrite insert_length;
           split; [exact H2|]; split; [exact H3|]; destruct Ht as (t' & [= <-] & _ & _ & ?); lia].
      replace (1 <=? i)%Z with true by (symmetry; apply Z.leb_le; lia). cbn [andb].
      set (k := Z.to_nat (i - 1)).
      assert (Hk : k < length xs) by (unfold zlen in *; subst k; lia).
      destruct (chain_split _ _ _ _ k Hc1 Hk) as (p & y & nx & ls1 & ls2 & -> & Hlk1 & Hxk & S1 & Hp & S2).
      rewrite lookup_app_r by lia. rewrite Hlk1, Nat.sub_diag. cbn [lookup list_lookup].
      rewrite Hp. cbn [deref nnext rbind].
      assert (Hpn : n <> p) by (intros ->; apply Hn; elem_tac).
      rewrite list_lookup_insert_ne by congruence. rewrite Hp. cbn [deref ndata rbind].
      replace (Z.to_nat i) with (S k) by (subst k; lia).
      eexists; split; [reflexivity|].
      exists (ls1 ++ p :: n :: ls2). cbn [l_heap l_pool l_head l_tail l_length e_seq e_tail e_len].
      apply NoDup_app in NDl as (_ & HND & HND2). apply NoDup_cons in HND2 as [Hp2 _].
      assert (Hp1' : p ∉ ls1) by (intros HH; apply (HND p HH); elem_tac).
      assert (Hplt : p < length h').
      { apply lookup_lt_Some in Hp. rewrite insert_length in Hp. exact Hp. }
      split; [|split; [|split]].
      * rewrite (take_S_r _ _ _ Hxk). rewrite <- app_assoc. unfold chain.
        eapply seg_app.
        -- apply seg_insert; [exact Hp1'|]. apply seg_insert; [elem_tac|]. exact S1.
        -- cbn. split; [reflexivity|]. exists (Some n).
           rewrite list_lookup_insert by (rewrite !insert_length; exact Hplt).
           split; [reflexivity|]. split; [reflexivity|]. exists nx.
           rewrite list_lookup_insert_ne by congruence.
           rewrite list_lookup_insert by (rewrite insert_length; exact Hlt).
           split; [reflexivity|]. apply seg_insert; [exact Hp2|]. apply seg_insert; [elem_tac|].
           exact S2.
      * eapply own_resize with (h := h'); [rewrite !insert_length; reflexivity|].
        eapply own_perm; [|exact Ho']. apply Permutation_app_tail.
        cbn. rewrite (Permutation_middle ls1 (p :: ls2) n). apply Permutation_app_head. constructor.
      * destruct tl as [|j| |]; cbn [tailrel shift_in]; [exact Ht'| | |].
        -- destruct Ht' as (t & H1 & ->). exists t. split; [|reflexivity].
           destruct (Nat.leb_spec (S k) j).
           ++ rewrite lookup_app_r in H1 by lia. rewrite lookup_app_r by lia.
              replace (j - length ls1) with (S (j - S k)) in H1 by lia. replace (S j - length ls1) with (S (S (j - S k))) by lia. exact H1.
           ++ destruct (decide (j < k)).
              ** rewrite lookup_app_l in H1 by lia. rewrite lookup_app_l by lia. exact H1.
              ** replace j with k in * by lia. rewrite lookup_app_r in H1 by lia. rewrite lookup_app_r by lia.
                 rewrite Hlk1, Nat.sub_diag in *. exact H1.
        -- destruct Ht' as (t & -> & H1). case_bool_decide; cbn.
           ++ exists n. split; [|congruence]. rewrite lookup_app_r by lia. replace (S k - length ls1) with 1 by lia. reflexivity.
           ++ destruct H1. exists t. auto.
        -- destruct Ht' as (t & -> & H1 & H2 & H3). exists t. split; [reflexivity|]. rewrite !insert_length.
           assert (t <> n) by congruence. split; [elem_tac|]. split; [exact H3|]. destruct Ht as (t' & [= <-] & _ & _ & ?). lia.
      * reflexivity.
  - (* Remove *)
    unfold exact_step, l_step, l_remove; cbn [fst snd l_heap l_pool l_head l_tail l_length e_seq e_tail e_len].
    assert (HP : forall ls1 q ls2, ls = ls1 ++ q :: ls2 -> own h (ls1 ++ ls2) (pool ++ [q]) /\
       tailrel h (ls1 ++ ls2) (pool ++ [q]) (shift_out (length ls1) tl) tlp).
    { intros ls1 q ls2 ->. split.
      - apply own_release. eapply own_perm; [|exact Ho]. apply Permutation_app_tail. symmetry. apply Permutation_middle.
      - destruct tl as [|j| |]; cbn [tailrel shift_out] in Ht |- *; [exact Ht| | |].
        + destruct Ht as (t & H1 & ->). destruct (Nat.eqb_spec j (length ls1)) as [->|Hj]; cbn [tailrel].
          * rewrite lookup_app_r, Nat.sub_diag in H1 by lia. injection H1 as ->. exists t. split; [reflexivity|elem_tac].
          * exists t. split; [|reflexivity]. destruct (Nat.ltb_spec (length ls1) j).
            -- rewrite lookup_app_r in H1 by lia. rewrite lookup_app_r by lia. replace (j - length ls1) with (S (j - 1 - length ls1)) in H1 by lia. exact H1.
            -- rewrite lookup_app_l in H1 by lia. rewrite lookup_app_l by lia. exact H1.
        + destruct Ht as (t & -> & H1). exists t. split; [reflexivity|elem_tac].
        + destruct Ht as (t & -> & H1 & H2 & H3). exists t. split; [reflexivity|].
          assert (t <> q) by (intros ->; apply H1; elem_tac). split; [elem_tac|]. split; [elem_tac|exact H3]. }
    destruct (Z.eqb_spec i 0) as [->|Hi0].
    + destruct hd as [l0|].
      * pose proof Hc as Hc'. apply chain_cons in Hc' as (x & nx & ls' & xs' & -> & -> & Hlk & Hc'). rewrite Hlk. cbn [deref rbind ndata nnext].
        unfold in_range. replace (0 <? zlen (x :: xs'))%Z with true by (symmetry; apply Z.ltb_lt; unfold zlen; cbn; lia). cbn [andb Z.leb Z.compare].
        change (Z.to_nat 0) with 0. cbn [take drop app lookup list_lookup].
        eexists; split; [reflexivity|]. destruct (HP [] l0 ls' eq_refl) as [H1 H2]. exists ls'. cbn. split; [|split; [|split]]; [exact Hc'|exact H1|exact H2|reflexivity].
      * apply chain_nil in Hc as Hn. destruct Hn as [-> ->]. cbn [rbind]. eexists; split; [reflexivity|]. exists []. cbn. auto.
    + rewrite (walk_spec _ _ _ _ _ 0 (i-1) Hc Hbl). rewrite Z.sub_0_r. cbn [rbind]. unfold in_range.
      destruct (Z.leb_spec 0 (i-1)) as [Hp0|Hp0].
      2: { replace (0 <=? i)%Z with false by (symmetry; apply Z.leb_gt; lia). cbn [andb rbind]. eexists; split; [reflexivity|]. exists ls. cbn. auto. }
      replace (0 <=? i)%Z with true by (symmetry; apply Z.leb_le; lia). cbn [andb].
      set (k := Z.to_nat (i - 1)). destruct (decide (k < length xs)) as [Hk|Hk].
      2: { rewrite (lookup_ge_None_2 ls k) by lia. replace (i <? zlen xs)%Z with false by (symmetry; apply Z.ltb_ge; unfold zlen; subst k; lia).
           cbn [rbind]. eexists; split; [reflexivity|]. exists ls. cbn. auto. }
      destruct (chain_split _ _ _ _ k Hc Hk) as (p & y & nx & ls1 & ls2 & Els & Hlk1 & Hxk & S1 & Hp & S2).
      replace (ls !! k) with (Some p) by (rewrite Els, lookup_app_r by lia; rewrite Hlk1, Nat.sub_diag; reflexivity).
      rewrite Hp. cbn [deref rbind nnext ndata].
      destruct (drop (S k) xs) as [|z rest] eqn:Ed.
      { destruct ls2; [|cbn in S2; tauto]. cbn in S2. subst nx.
        assert (length xs = S k). { apply (f_equal length) in Ed. rewrite drop_length in Ed. cbn in Ed. lia. }
        replace (i <? zlen xs)%Z with false by (symmetry; apply Z.ltb_ge; unfold zlen; subst k; lia).
        cbn [rbind]. eexists; split; [reflexivity|]. exists ls. cbn. auto. }
      assert (Hk2 : S k < length xs). { apply (f_equal length) in Ed. rewrite drop_length in Ed. cbn in Ed. lia. }
      replace (i <? zlen xs)%Z with true by (symmetry; apply Z.ltb_lt; unfold zlen; subst k; lia).
      destruct ls2 as [|q ls2]; [cbn in S2; tauto|]. cbn in S2. destruct S2 as (-> & nq & Hq & S2).
      rewrite Hq. cbn [deref rbind ndata nnext].
      replace (Z.to_nat i) with (S k) by (subst k; lia).
      assert (Hz : xs !! S k = Some z).
      { rewrite <- (Nat.add_0_r (S k)), <- lookup_drop, Ed. reflexivity. }
      rewrite Hz.
      eexists; split; [reflexivity|].
      destruct (HP (ls1 ++ [p]) q ls2) as [H1 H2]; [rewrite <- app_assoc; exact Els|]. rewrite app_length, Hlk1 in H2. cbn [length] in H2. rewrite Nat.add_1_r in H2.
      rewrite <- app_assoc in H1, H2. cbn [app] in H1, H2.
      exists (ls1 ++ p :: ls2). cbn [l_heap l_pool l_head l_tail l_length e_seq e_tail e_len].
      subst ls. apply NoDup_app in NDl as (_ & HND & HND2). apply NoDup_cons in HND2 as [Hp2 _].
      assert (Hp1 : p ∉ ls1) by (intros HH; apply (HND p HH); elem_tac).
      assert (Hrest : drop (S (S k)) xs = rest).
      { replace (S (S k)) with (S k + 1) by lia. rewrite <- drop_drop, Ed. reflexivity. }
      split; [|split; [|split]].
      * rewrite (take_S_r _ _ _ Hxk). rewrite <- app_assoc. rewrite Hrest. unfold chain.
        eapply seg_app.
        -- apply seg_insert; [exact Hp1|]. exact S1.
        -- cbn. split; [reflexivity|]. exists nq.
           rewrite list_lookup_insert by (apply lookup_lt_Some in Hp; exact Hp).
           split; [reflexivity|]. apply seg_insert; [elem_tac|]. exact S2.
      * eapply own_resize with (h := h); [rewrite insert_length; reflexivity|]. exact H1.
      * destruct (shift_out (S k) tl); cbn in H2 |- *; rewrite ?insert_length; exact H2.
      * reflexivity.
  - (* At *)
    unfold exact_step, l_step, l_at; cbn [fst snd l_heap l_pool l_head l_tail l_length e_seq e_tail e_len].
    rewrite (walk_spec _ _ _ _ _ 0 i Hc Hbl). cbn [rbind].
    exists (LList h pool hd tlp len). split; [|exists ls; auto].
    unfold in_range. destruct (Z.leb_spec 0 i); cbn [andb]; [|reflexivity].
    rewrite Z.sub_0_r.
    destruct (Z.ltb_spec i (zlen xs)) as [Hlt|Hge].
    + assert (Hk : Z.to_nat i < length xs) by (unfold zlen in Hlt; lia).
      destruct (chain_split _ _ _ _ _ Hc Hk) as (p & y & nx & ls1 & ls2 & -> & Hlk1 & Hxk & S1 & Hp & S2).
      rewrite lookup_app_r by lia. rewrite Hlk1, Nat.sub_diag. cbn [lookup list_lookup].
      rewrite Hp. cbn [deref rbind ndata]. rewrite Hxk. reflexivity.
    + rewrite lookup_ge_None_2; [reflexivity|]. unfold zlen in Hge. lia.
  - (* Iterate *)
    unfold exact_step, l_step, l_iterate; cbn [fst snd l_heap l_pool l_head l_tail l_length e_seq e_tail e_len].
    rewrite (iter_spec _ _ _ _ _ f Hc Hbl). eexists; split; [reflexivity|]. exists ls; auto.
  - (* Len *)
    eexists; split; [reflexivity|]. exists ls; auto.
Qed.
Lemma xrel_new : xrel l_new exact_init.
Proof. exists []. cbn. repeat split; constructor. Qed.

(** any choice of reuse is possible *)
Lemma reuse_choice l s r : xrel l s -> e_tail s = TPool -> exists c, reuses l c = r.
Proof.
  intros (ls & _ & _ & Ht & _) E. rewrite E in Ht. destruct Ht as (t & E1 & Hin). unfold reuses. rewrite E1. destruct r.
  - apply elem_of_list_lookup_1 in Hin as [c Hc]. exists c. case_bool_decide; congruence.
  - exists (length (l_pool l)). case_bool_decide as D; [|reflexivity]. rewrite lookup_ge_None_2 in D by lia. discriminate.
Qed.
Lemma exact_step_irrelevant (s : lstate A) r r' o : e_tail s <> TPool -> exact_step s (r, o) = exact_step s (r', o).
Proof. intros H. unfold exact_step. cbn [fst snd]. destruct s as [xs tl n]. cbn in *. destruct o, tl; cbn; try reflexivity; contradiction. Qed.

(** both return, or both panic *)
Definition same_outcome {S T} (a : res S) (b : res T) : Prop :=
  match a, b with Ret _, Ret _ | Panic, Panic => True | _, _ => False end.

Lemma list_exact : forall (hist : list (nat * lop A)) l s, xrel l s ->
  exists rs : list bool, length rs = length hist /\
    (run (l_step zero) l hist).1 = (run exact_step s (zip rs hist.*2)).1 /\
    same_outcome (run (l_step zero) l hist).2 (run exact_step s (zip rs hist.*2)).2.
Proof.
  induction hist as [|[c o] hist IH]; intros l s HX; [exists []; repeat split|].
  pose proof (xrel_step l s c o HX) as H. destruct (exact_step s (reuses l c, o)) as [[s' r]| |] eqn:E.
  - destruct H as (l' & E1 & HX'). destruct (IH l' s' HX') as (rs & L & R1 & R2). exists (reuses l c :: rs). split; [cbn; lia|].
    change (zip (reuses l c :: rs) ((c, o) :: hist).*2) with ((reuses l c, o) :: zip rs hist.*2). cbn [run]. rewrite E1, E.
    destruct (run (l_step zero) l' hist) as [r1 e1], (run exact_step s' (zip rs hist.*2)) as [r2 e2].
    cbn [fst snd] in *. split; [congruence|exact R2].
  - exists (replicate (S (length hist)) (reuses l c)). split; [rewrite replicate_length; reflexivity|].
    cbn [replicate]. change (zip (reuses l c :: replicate (length hist) (reuses l c)) ((c, o) :: hist).*2) with ((reuses l c, o) :: zip (replicate (length hist) (reuses l c)) hist.*2).
    cbn [run]. rewrite H, E. split; [reflexivity|exact I].
  - destruct H.
Qed.
Lemma list_exact_complete : forall (os : list (lop A)) (rs : list bool) l s, xrel l s -> length rs = length os ->
  exists hist : list (nat * lop A), hist.*2 = os /\
    (run (l_step zero) l hist).1 = (run exact_step s (zip rs os)).1 /\
    same_outcome (run (l_step zero) l hist).2 (run exact_step s (zip rs os)).2.
Proof.
  induction os as [|o os IH]; intros rs l s HX L; [exists []; destruct rs; [|discriminate]; repeat split|].
  destruct rs as [|r rs]; [discriminate|]. injection L as L.
  assert (exists c, exact_step s (reuses l c, o) = exact_step s (r, o)) as [c Ec].
  { assert (e_tail s = TPool \/ e_tail s <> TPool) as [D|D] by (destruct (e_tail s); intuition discriminate).
    - destruct (reuse_choice l s r HX D) as [c <-]. eauto.
    - exists 0. apply exact_step_irrelevant, D. }
  pose proof (xrel_step l s c o HX) as H. rewrite Ec in H. destruct (exact_step s (r, o)) as [[s' v]| |] eqn:E.
  - destruct H as (l' & E1 & HX'). destruct (IH rs l' s' HX' L) as (hist & R0 & R1 & R2). exists ((c, o) :: hist). split; [cbn; congruence|].
    change (zip (r :: rs) (o :: os)) with ((r, o) :: zip rs os). cbn [run]. rewrite E1, E. destruct (run (l_step zero) l' hist) as [r1 e1], (run exact_step s' (zip rs os)) as [r2 e2].
    cbn [fst snd] in *. split; [congruence|exact R2].
  - exists ((c, o) :: map (fun o => (0, o)) os). split.
    + cbn. f_equal. clear. induction os; cbn; congruence.
    + change (zip (r :: rs) (o :: os)) with ((r, o) :: zip rs os). cbn [run]. rewrite H, E. split; [reflexivity|exact I].
  - destruct H.
Qed.

(** Len *)
Lemma list_len_counts (hist : list (nat * lop A)) l : (run (l_step zero) l_new hist).2 = Ret l ->
  l_len l = (zlen (List.filter (fun o => match o with Append _ | Insert _ _ => true | _ => false end) hist.*2)
             - zlen (List.filter (fun o => match o with Remove _ => true | _ => false end) hist.*2))%Z.
Proof.
  enough (G : forall l0, (run (l_step zero) l0 hist).2 = Ret l -> l_len l = (l_len l0 + (zlen (List.filter (fun o => match o with Append _ | Insert _ _ => true | _ => false end) hist.*2)
             - zlen (List.filter (fun o => match o with Remove _ => true | _ => false end) hist.*2)))%Z).
  { intros H. rewrite (G _ H). cbn. reflexivity. }
  induction hist as [|[c o] hist IH]; intros l0 H.
  - cbn in H. injection H as <-. cbn. lia.
  - cbn [run] in H. rewrite fmap_cons. cbn [snd List.filter].
    destruct (l_step zero l0 (c, o)) as [[l1 r]| |] eqn:E; [|discriminate|discriminate].
    specialize (IH l1). destruct (run (l_step zero) l1 hist) as [rs e]. cbn [snd] in *. rewrite (IH H).
    unfold l_step in E. cbn [fst snd] in E. destruct o as [x|i x|i|i|f|].
    all: unfold l_append, l_insert, l_remove, l_at, l_len, rbind, deref in *; cbn in E.
    all: destruct l0 as [h0 p0 hd0 tl0 len0]; cbn in *.
    all: repeat (case_match; simplify_eq/=).
    all: simplify_eq/=; unfold zlen in *; cbn [length]; lia.
Qed.

(** when it panics *)
Definition delta (os : list (lop A)) : Z :=
  (zlen (List.filter (fun o => match o with Append _ | Insert _ _ => true | _ => false end) os)
   - zlen (List.filter (fun o => match o with Remove _ => true | _ => false end) os))%Z.
Definition no_append (o : lop A) : Prop := match o with Append _ => False | _ => True end.

Lemma delta_cons o os : delta (o :: os) = (delta os + match o with Append _ | Insert _ _ => 1 | Remove _ => -1 | _ => 0 end)%Z.
Proof. unfold delta, zlen. destruct o; cbn [List.filter length]; lia. Qed.

Lemma exact_step_shape (s : lstate A) r o :
  match exact_step s (r, o) with
  | Ret (s', _) =>
      e_len s' = (e_len s + match o with Append _ | Insert _ _ => 1 | Remove _ => -1 | _ => 0 end)%Z /\
      (e_tail s' = TNil <-> e_tail s = TNil /\ no_append o)
  | Panic => e_tail s = TNil /\ exists x, o = Insert (e_len s + 1) x /\ (e_len s + 1 <> 0)%Z
  | Spin => False
  end.
Proof.
  destruct s as [xs tl n]. unfold exact_step. cbn [fst snd e_seq e_tail e_len].
  destruct o as [x|i x|i|i|f|]; cbn [no_append].
  - destruct tl; cbn; (split; [lia|]); intuition discriminate.
  - destruct (Z.eqb_spec i 0) as [->|H0]; [cbn; split; [lia|]; destruct tl, r; cbn; intuition discriminate|].
    destruct (Z.eqb_spec i (n + 1)) as [->|H1].
    + destruct tl; cbn; [split; [reflexivity|]; exists x; auto|..]; (split; [lia|]); intuition discriminate.
    + destruct (in_range i 1 (zlen xs + 1)); cbn; (split; [lia|]); destruct tl, r; cbn; intuition discriminate.
  - destruct (in_range i 0 (zlen xs)); cbn; (split; [lia|]); destruct tl as [|k| |]; cbn; try (intuition discriminate).
    destruct (k =? Z.to_nat i); intuition discriminate.
  - cbn. split; [lia|tauto].
  - cbn. split; [lia|tauto].
  - cbn. split; [lia|tauto].
Qed.

Lemma list_panics : forall (hist : list (nat * lop A)) l s, xrel l s ->
  (run (l_step zero) l hist).2 <> Spin /\
  ((run (l_step zero) l hist).2 = Panic <->
   e_tail s = TNil /\ exists pre i x post, hist.*2 = pre ++ Insert i x :: post /\ Forall no_append pre /\
     i = (e_len s + delta pre + 1)%Z /\ i <> 0%Z).
Proof.
  induction hist as [|[c o] hist IH]; intros l s HX.
  - cbn. split; [discriminate|]. split; [discriminate|]. intros (_ & pre & i & x & post & E & _). destruct pre; discriminate.
  - pose proof (xrel_step l s c o HX) as H. pose proof (exact_step_shape s (reuses l c) o) as HS. cbn [run].
    destruct (exact_step s (reuses l c, o)) as [[s' r]| |] eqn:E; [| |destruct H].
    + destruct H as (l' & E1 & HX'). rewrite E1. destruct (IH l' s' HX') as [I1 I2].
      destruct (run (l_step zero) l' hist) as [rs e]. cbn [snd] in *. split; [exact I1|]. rewrite I2. destruct HS as [HS1 HS2]. rewrite HS2. rewrite fmap_cons. cbn [snd]. split.
      * intros ((Ht & Hn) & pre & i & x & post & E2 & F & E3 & N). split; [exact Ht|]. exists (o :: pre), i, x, post. split; [cbn; congruence|].
        split; [constructor; assumption|]. rewrite delta_cons. split; [lia|exact N].
      * intros (Ht & pre & i & x & post & E2 & F & E3 & N). destruct pre as [|o' pre]; cbn in E2.
        -- exfalso. injection E2 as -> _. cbn in E3. unfold exact_step in E. cbn [fst snd] in E. rewrite Ht in E.
           unfold delta, zlen in E3. cbn in E3. replace (i =? 0)%Z with false in E by (symmetry; apply Z.eqb_neq; exact N).
           replace (i =? e_len s + 1)%Z with true in E by (symmetry; apply Z.eqb_eq; lia). discriminate.
        -- injection E2 as -> E2. apply Forall_cons in F as [F1 F2]. split; [auto|]. exists pre, i, x, post. split; [exact E2|]. split; [exact F2|].
           rewrite delta_cons in E3. split; [lia|exact N].
    + rewrite H. cbn [snd]. split; [discriminate|]. split; [|auto]. intros _. destruct HS as (Ht & x & -> & N). split; [exact Ht|].
      exists [], (e_len s + 1)%Z, x, hist.*2. split; [reflexivity|]. split; [constructor|]. unfold delta, zlen. cbn. split; [lia|exact N].
Qed.
End P.
