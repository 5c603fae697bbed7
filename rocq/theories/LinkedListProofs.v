From Verif Require Import Base SeqSpec LinkedHeap LinkedChain LinkedListModel LinkedListSpec.

Ltac elem_tac := rewrite ?elem_of_app, ?elem_of_cons, ?elem_of_nil in *; tauto.

Section P.
Context {A : Type} (zero : A).
Implicit Types (h : list (node A)).

Lemma walk_spec h fuel p ls xs i t :
  chain h p ls xs -> length ls <= fuel ->
  l_walk fuel h p i t = Ret (if (i <=? t)%Z then ls !! Z.to_nat (t - i) else None).
Proof.
  revert p ls xs i; induction fuel as [|fuel IH]; intros p ls xs i Hc Hf.
  - destruct ls; cbn in Hf; [|lia]. destruct xs; cbn in Hc; [|tauto]. subst p. cbn.
    destruct (i <=? t)%Z; reflexivity.
  - destruct p as [l|].
    + apply chain_cons in Hc as (x & nx & ls' & xs' & -> & -> & Hlk & Hc).
      cbn [l_walk]. destruct (Z.eqb_spec i t) as [->|Hne].
      * rewrite Z.leb_refl, Z.sub_diag. reflexivity.
      * rewrite Hlk. cbn [deref rbind nnext]. rewrite (IH _ _ _ _ Hc) by (cbn in Hf; lia).
        f_equal. destruct (Z.leb_spec (i+1) t), (Z.leb_spec i t); try lia; try reflexivity.
        replace (Z.to_nat (t - i)) with (S (Z.to_nat (t - (i+1)))) by lia. reflexivity.
    + apply chain_nil in Hc as [-> ->]. cbn. destruct (i <=? t)%Z; reflexivity.
Qed.

Lemma iter_spec h fuel p ls xs f :
  chain h p ls xs -> length ls <= fuel ->
  l_iter fuel h p f = Ret (seen_until_false f xs).
Proof.
  revert p ls xs; induction fuel as [|fuel IH]; intros p ls xs Hc Hf.
  - destruct ls; cbn in Hf; [|lia]. destruct xs; cbn in Hc; [|tauto]. subst p. reflexivity.
  - destruct p as [l|].
    + apply chain_cons in Hc as (x & nx & ls' & xs' & -> & -> & Hlk & Hc).
      cbn [l_iter]. rewrite Hlk. cbn [deref rbind ndata nnext seen_until_false].
      destruct (f x); [|reflexivity].
      rewrite (IH _ _ _ Hc) by (cbn in Hf; lia). reflexivity.
    + apply chain_nil in Hc as [-> ->]. reflexivity.
Qed.

(** the list holds the elements xs, in the cells ls *)
Definition lrel_at (l : llist A) (xs : list A) (ls : list nat) : Prop :=
  chain (l_heap l) (l_head l) ls xs /\ own (l_heap l) ls (l_pool l)
             /\ l_tail l = last ls /\ l_length l = zlen xs.
Definition lrel (l : llist A) (xs : list A) : Prop := exists ls, lrel_at l xs ls.
(** what a call does to the cells, and to a cell that it removes *)
Definition cells (o : lop A) (h h' : list (node A)) (ls ls' : list nat) : Prop :=
  match o with
  | Append _ => exists n, ls' = ls ++ [n]
  | Insert i _ => exists n, ls' = take (Z.to_nat i) ls ++ n :: drop (Z.to_nat i) ls
  | Remove i => ls' = take (Z.to_nat i) ls ++ drop (S (Z.to_nat i)) ls /\ forall q, ls !! Z.to_nat i = Some q -> h' !! q = h !! q
  | _ => ls' = ls /\ h' = h
  end.

(** splitting a chain at position i *)
Lemma chain_split h p ls xs i :
  chain h p ls xs -> i < length xs ->
  exists l x nx ls1 ls2, ls = ls1 ++ l :: ls2 /\ length ls1 = i /\ xs !! i = Some x /\
    seg h p ls1 (take i xs) (Some l) /\ h !! l = Some (Node x nx) /\
    chain h nx ls2 (drop (S i) xs).
Proof.
  intros Hc Hi.
  destruct (lookup_lt_is_Some_2 xs i Hi) as [x Hx].
  rewrite <- (take_drop_middle xs i x Hx) in Hc.
  unfold chain in Hc. apply seg_app_inv in Hc as (m & ls1 & ls2 & -> & H1 & H2).
  destruct ls2 as [|l ls2]; cbn in H2; [tauto|]. destruct H2 as (-> & nx & Hlk & H2).
  exists l, x, nx, ls1, ls2. repeat split; auto.
  apply seg_length in H1. rewrite H1, take_length. lia.
Qed.

Lemma zlen_app (a b : list A) : zlen (a ++ b) = (zlen a + zlen b)%Z.
Proof. unfold zlen. rewrite app_length. lia. Qed.
Lemma zlen_cons (a : A) (b : list A) : zlen (a :: b) = (zlen b + 1)%Z.
Proof. unfold zlen. cbn. lia. Qed.

Lemma take_S_app {B} (l1 l2 : list B) y : take (S (length l1)) (l1 ++ y :: l2) = l1 ++ [y].
Proof. induction l1; cbn; [destruct l2; reflexivity|]. f_equal. exact IHl1. Qed.
Lemma drop_S_app {B} (l1 l2 : list B) y : drop (S (length l1)) (l1 ++ y :: l2) = l2.
Proof. induction l1; cbn; [reflexivity|exact IHl1]. Qed.
Lemma lrel_step_at l xs ls c o :
  lrel_at l xs ls -> safe_list_op xs o ->
  exists l', l_step zero l (c, o) = Ret (l', (seq_step xs o).2) /\
    exists ls', lrel_at l' (seq_step xs o).1 ls' /\ cells o (l_heap l) (l_heap l') ls ls'.
Proof.
  intros (Hc & Ho & Ht & Hl) Hg. destruct l as [h pool hd tl len].
  cbn [l_heap l_pool l_head l_tail l_length] in *. subst tl len.
  pose proof (seg_length _ _ _ _ _ Hc) as Hlen.
  pose proof (own_bound_length _ _ _ Ho) as Hbl.
  destruct o as [x|i x|i|i|f|]; cbn [safe_list_op] in Hg.
  - (* Append *)
    unfold l_step, l_append, rbind; cbn [seq_step fst snd l_heap l_pool l_head l_tail l_length].
    destruct (pool_get (Node zero None) c pool h) as [[n pool'] h'] eqn:E.
    destruct (pool_get_own _ _ _ _ _ _ _ _ E Ho) as (Hn & Hlt & Ho' & Hseg).
    apply Hseg in Hc.
    destruct (last ls) as [t|] eqn:El.
    + apply last_Some in El as [ls1 ->].
      destruct (exists_last (l := xs)) as (xs1 & z & ->).
      { intros ->. rewrite app_length in Hlen. cbn in Hlen. lia. }
      pose proof Hc as Hc'. apply seg_snoc_inv in Hc' as (ls1' & t' & Eq & H1 & H2).
      apply app_inj_tail in Eq as [<- <-].
      assert (Hnt : n <> t) by (intros ->; apply Hn; elem_tac).
      rewrite list_lookup_insert_ne by congruence. rewrite H2. cbn [deref ndata].
      eexists; split; [reflexivity|]. exists ((ls1 ++ [t]) ++ [n]). unfold lrel_at. cbn. split; [split; [|split; [|split]]|exists n; reflexivity].
      * destruct Ho' as [HN _]. cbn in HN. apply NoDup_cons in HN as [_ HN].
        rewrite <- app_assoc in HN. apply NoDup_app in HN as (_ & HN & _).
        assert (t ∉ ls1) by (intros Hin; apply (HN t Hin); elem_tac).
        assert (n ∉ ls1) by elem_tac.
        eapply seg_app; [eapply seg_app|].
        -- apply seg_insert; [assumption|]. apply seg_insert; [assumption|]. exact H1.
        -- cbn. split; [reflexivity|]. exists (Some n). rewrite list_lookup_insert; [auto|].
           rewrite insert_length. apply lookup_lt_Some in H2; exact H2.
        -- cbn. split; [reflexivity|]. exists None. rewrite list_lookup_insert_ne by congruence.
           rewrite list_lookup_insert by exact Hlt. auto.
      * eapply own_resize with (h := h'); [rewrite !insert_length; reflexivity|].
        eapply own_perm; [|exact Ho']. rewrite (Permutation_app_comm (ls1 ++ [t]) [n]). reflexivity.
      * rewrite last_snoc. reflexivity.
      * rewrite !zlen_app. cbn. unfold zlen; cbn; lia.
    + apply last_None in El as ->. destruct xs as [|? ?]; cbn in Hlen; [|discriminate].
      eexists; split; [reflexivity|]. exists [n]. unfold lrel_at. cbn. split; [split; [|split; [|split]]|exists n; reflexivity].
      * split; [reflexivity|]. exists None. rewrite list_lookup_insert by exact Hlt. auto.
      * eapply own_resize; [|exact Ho']. rewrite insert_length. lia.
      * reflexivity.
      * reflexivity.
  - (* Insert *)
    assert (Hin : in_range i 0 (zlen xs + 1) = true).
    { unfold in_range. apply andb_true_iff. split; [apply Z.leb_le|apply Z.ltb_lt]; lia. }
    unfold l_step, l_insert, rbind; cbn [seq_step fst snd l_heap l_pool l_head l_tail l_length].
    rewrite Hin. cbn [fst snd].
    destruct (pool_get (Node zero None) c pool h) as [[n pool'] h'] eqn:E.
    destruct (pool_get_own _ _ _ _ _ _ _ _ E Ho) as (Hn & Hlt & Ho' & Hseg).
    pose proof Hc as Hc0. apply Hseg in Hc. clear Hseg.
    destruct (Z.eqb_spec i 0) as [->|Hi0].
    + eexists; split; [reflexivity|]. exists (n :: ls). unfold lrel_at. cbn. split; [split; [|split; [|split]]|exists n; reflexivity].
      * split; [reflexivity|]. exists hd.
        rewrite list_lookup_insert by (rewrite insert_length; exact Hlt).
        split; [reflexivity|]. apply seg_insert; [exact Hn|]. apply seg_insert; [exact Hn|]. exact Hc.
      * eapply own_resize; [|exact Ho']. rewrite !insert_length. lia.
      * destruct ls; [|reflexivity]. unfold zlen in Hg. destruct xs; cbn in *; [lia|discriminate].
      * unfold zlen. rewrite app_length, take_length. cbn [length]. rewrite drop_length. lia.
    + destruct (Z.eqb_spec i (zlen xs + 1)) as [Hbad|Hne]; [lia|].
      assert (Hc1 : chain (<[n:=Node x None]> h') hd ls xs) by (apply seg_insert; assumption).
      assert (Hlen' : length ls <= length (<[n:=Node x None]> h')).
      { destruct Ho' as [HNN HFF]. pose proof (own_bound_length _ (n :: ls) pool' (conj HNN HFF)) as Hb.
        rewrite insert_length. cbn in Hb. lia. }
      rewrite (walk_spec _ _ _ _ _ 0 (i-1) Hc1 Hlen').
      destruct (Z.leb_spec 0 (i-1)); [|lia].
      set (k := Z.to_nat (i - 1 - 0)).
      assert (Hk : k < length xs) by (unfold zlen in Hg; subst k; lia).
      destruct (chain_split _ _ _ _ k Hc1 Hk) as (p & y & nx & ls1 & ls2 & -> & Hlk1 & Hxk & S1 & Hp & S2).
      rewrite lookup_app_r by lia. rewrite Hlk1, Nat.sub_diag. cbn [lookup list_lookup].
      rewrite Hp. cbn [deref nnext].
      assert (Hpn : n <> p) by (intros ->; apply Hn; elem_tac).
      rewrite list_lookup_insert_ne by congruence. rewrite Hp. cbn [deref ndata].
      replace (Z.to_nat i) with (S k) by (subst k; lia).
      eexists; split; [reflexivity|].
      exists (ls1 ++ p :: n :: ls2). cbn [l_heap l_pool l_head l_tail l_length].
      assert (HND : NoDup (ls1 ++ p :: ls2)).
      { destruct Ho as [HN _]. apply NoDup_app in HN; tauto. }
      apply NoDup_app in HND as (_ & HND & HND2). apply NoDup_cons in HND2 as [Hp2 _].
      assert (Hp1 : p ∉ ls1) by (intros HH; apply (HND p HH); elem_tac).
      assert (Hplt : p < length h').
      { apply lookup_lt_Some in Hp. rewrite insert_length in Hp. exact Hp. }
      unfold lrel_at. cbn [l_heap l_pool l_head l_tail l_length cells].
      split; [split; [|split; [|split]]|exists n; replace (Z.to_nat i) with (S (length ls1)) by (subst k; lia); rewrite take_S_app, drop_S_app, <- app_assoc; reflexivity].
      * rewrite (take_S_r _ _ _ Hxk). rewrite <- app_assoc. unfold chain.
        eapply seg_app.
        -- apply seg_insert; [exact Hp1|]. apply seg_insert; [elem_tac|]. exact S1.
        -- cbn. split; [reflexivity|]. exists (Some n).
           rewrite list_lookup_insert by (rewrite !insert_length; exact Hplt).
           split; [reflexivity|]. split; [reflexivity|]. exists nx.
           rewrite list_lookup_insert_ne by congruence.
           rewrite list_lookup_insert by (rewrite insert_length; exact Hlt).
           split; [reflexivity|]. apply seg_insert; [exact Hp2|]. apply seg_insert; [elem_tac|].
           exact S2.
      * eapply own_resize with (h := h'); [rewrite !insert_length; reflexivity|].
        eapply own_perm; [|exact Ho']. apply Permutation_app_tail.
        cbn. rewrite (Permutation_middle ls1 (p :: ls2) n). apply Permutation_app_head. constructor.
      * destruct ls2 as [|z ls2 _] using rev_ind.
        -- exfalso. apply seg_length in S2. cbn in S2. rewrite drop_length in S2.
           unfold zlen in Hg. subst k. lia.
        -- rewrite app_comm_cons, app_assoc, last_snoc.
           rewrite app_comm_cons, app_comm_cons, app_assoc, last_snoc. reflexivity.
      * unfold zlen. rewrite app_length, take_length. cbn [length]. rewrite drop_length. lia.
  - (* Remove *)
    assert (Hin : in_range i 0 (zlen xs) = true).
    { unfold in_range. apply andb_true_iff. split; [apply Z.leb_le|apply Z.ltb_lt]; lia. }
    unfold l_step, l_remove, rbind; cbn [seq_step fst snd l_heap l_pool l_head l_tail l_length].
    rewrite Hin. cbn [fst snd].
    destruct (Z.eqb_spec i 0) as [->|Hi0].
    + destruct xs as [|x xs]; [unfold zlen in Hg; cbn in Hg; lia|].
      destruct ls as [|l0 ls]; [discriminate|]. pose proof Hc as Hc0.
      cbn in Hc0. destruct Hc0 as (-> & nx & Hlk & Hc').
      rewrite Hlk. cbn [deref ndata nnext].
      eexists; split; [reflexivity|]. exists ls. unfold lrel_at. cbn. split; [split; [|split; [|split]]|split; [reflexivity|intros; reflexivity]].
      * exact Hc'.
      * apply own_release; exact Ho.
      * destruct ls; [|reflexivity]. rewrite zlen_cons in Hg. destruct xs; cbn in *; [unfold zlen in Hg; cbn in Hg; lia|discriminate].
      * unfold zlen. rewrite app_length, take_length, drop_length. cbn [length]. lia.
    + rewrite (walk_spec _ _ _ _ _ 0 (i-1) Hc Hbl).
      destruct (Z.leb_spec 0 (i-1)); [|lia].
      set (k := Z.to_nat (i - 1 - 0)).
      assert (Hk : k < length xs) by (unfold zlen in Hg; subst k; lia).
      assert (Hk2 : S k < length xs) by (unfold zlen in Hg; subst k; lia).
      destruct (chain_split _ _ _ _ k Hc Hk) as (p & y & nx & ls1 & ls2 & -> & Hlk1 & Hxk & S1 & Hp & S2).
      rewrite lookup_app_r by lia. rewrite Hlk1, Nat.sub_diag. cbn [lookup list_lookup].
      rewrite Hp. cbn [deref nnext ndata].
      destruct (drop (S k) xs) as [|z rest] eqn:Ed.
      { apply (f_equal length) in Ed. rewrite drop_length in Ed. cbn in Ed. lia. }
      destruct ls2 as [|q ls2]; [cbn in S2; tauto|]. cbn in S2. destruct S2 as (-> & nq & Hq & S2).
      rewrite Hq. cbn [deref ndata nnext].
      replace (Z.to_nat i) with (S k) by (subst k; lia).
      assert (Hz : xs !! S k = Some z).
      { rewrite <- (Nat.add_0_r (S k)), <- lookup_drop, Ed. reflexivity. }
      rewrite Hz.
      eexists; split; [reflexivity|].
      exists (ls1 ++ p :: ls2). cbn [l_heap l_pool l_head l_tail l_length].
      assert (HND : NoDup (ls1 ++ p :: q :: ls2)).
      { destruct Ho as [HN _]. apply NoDup_app in HN; tauto. }
      apply NoDup_app in HND as (_ & HND & HND2). apply NoDup_cons in HND2 as [Hp2 _].
      assert (Hp1 : p ∉ ls1) by (intros HH; apply (HND p HH); elem_tac).
      assert (Hrest : drop (S (S k)) xs = rest).
      { replace (S (S k)) with (S k + 1) by lia. rewrite <- drop_drop, Ed. reflexivity. }
      unfold lrel_at. cbn [l_heap l_pool l_head l_tail l_length cells].
      assert (Hpq : p <> q) by (intros ->; apply Hp2; elem_tac).
      split; [split; [|split; [|split]]|].
      5: { replace (Z.to_nat i) with (S (length ls1)) by (subst k; lia). split.
           - rewrite take_S_app. replace (S (S (length ls1))) with (length ls1 + 2) by lia. rewrite drop_app_ge by lia.
             replace (length ls1 + 2 - length ls1) with 2 by lia. cbn. rewrite <- app_assoc. reflexivity.
           - rewrite lookup_app_r by lia. replace (S (length ls1) - length ls1) with 1 by lia. intros q' [= <-]. apply list_lookup_insert_ne. exact Hpq. }
      * rewrite (take_S_r _ _ _ Hxk). rewrite <- app_assoc. rewrite Hrest. unfold chain.
        eapply seg_app.
        -- apply seg_insert; [exact Hp1|]. exact S1.
        -- cbn. split; [reflexivity|]. exists nq.
           rewrite list_lookup_insert by (apply lookup_lt_Some in Hp; exact Hp).
           split; [reflexivity|]. apply seg_insert; [elem_tac|]. exact S2.
      * eapply own_resize with (h := h); [rewrite insert_length; reflexivity|].
        apply own_release. eapply own_perm; [|exact Ho]. apply Permutation_app_tail.
        cbn. rewrite (Permutation_middle ls1 (p :: ls2) q). apply Permutation_app_head. constructor.
      * destruct ls2 as [|z2 ls2 _] using rev_ind.
        -- exfalso. apply seg_length in S2. cbn in S2.
           apply (f_equal length) in Ed. rewrite drop_length in Ed. cbn in Ed.
           unfold zlen in Hg. subst k. lia.
        -- rewrite !app_comm_cons, app_assoc, last_snoc.
           rewrite app_assoc, last_snoc. reflexivity.
      * rewrite zlen_app. unfold zlen. rewrite take_length, drop_length. lia.
  - (* At *)
    unfold l_step, l_at, rbind; cbn [seq_step fst snd l_heap l_pool l_head l_tail l_length].
    rewrite (walk_spec _ _ _ _ _ 0 i Hc Hbl).
    exists (LList h pool hd (last ls) (zlen xs)). split; [|exists ls; repeat split; auto; apply Ho].
    unfold in_range. destruct (Z.leb_spec 0 i); cbn [andb]; [|reflexivity].
    rewrite Z.sub_0_r.
    destruct (Z.ltb_spec i (zlen xs)) as [Hlt|Hge].
    + assert (Hk : Z.to_nat i < length xs) by (unfold zlen in Hlt; lia).
      destruct (chain_split _ _ _ _ _ Hc Hk) as (p & y & nx & ls1 & ls2 & -> & Hlk1 & Hxk & S1 & Hp & S2).
      rewrite lookup_app_r by lia. rewrite Hlk1, Nat.sub_diag. cbn [lookup list_lookup].
      rewrite Hp, Hxk. reflexivity.
    + rewrite lookup_ge_None_2; [reflexivity|]. unfold zlen in Hge. lia.
  - (* Iterate *)
    unfold l_step, l_iterate, rbind; cbn [seq_step fst snd l_heap l_pool l_head l_tail l_length].
    rewrite (iter_spec _ _ _ _ _ f Hc Hbl). eexists; split; [reflexivity|]. exists ls. repeat split; auto; apply Ho.
  - (* Len *)
    eexists; split; [reflexivity|]. exists ls. repeat split; auto; apply Ho.
Qed.

Lemma lrel_step l xs c o :
  lrel l xs -> safe_list_op xs o ->
  exists l', l_step zero l (c, o) = Ret (l', (seq_step xs o).2) /\ lrel l' (seq_step xs o).1.
Proof.
  intros [ls H] Hg. destruct (lrel_step_at l xs ls c o H Hg) as (l' & E & ls' & H' & _). exists l'. split; [exact E|]. exists ls'. exact H'.
Qed.

Lemma lrel_new : lrel l_new [].
Proof. exists []. unfold lrel_at. cbn. repeat split; constructor. Qed.

Lemma list_refines (hist : list (nat * lop A)) :
  (forall pre o post, hist.*2 = pre ++ o :: post -> safe_list_op (ideal_state seq_step [] pre) o) ->
  exists s', run (l_step zero) l_new hist = (ideal_results seq_step [] hist.*2, Ret s').
Proof.
  intros HG.
  destruct (run_refines_oracle (l_step zero) seq_step lrel safe_list_op lrel_step hist l_new [])
    as (s' & H & _); eauto using lrel_new.
Qed.
End P.
