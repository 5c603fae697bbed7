From Verif Require Import Base SeqSpec LinkedHeap LinkedChain DequeModel DequeSpec.

(** *** list facts *)
Section L.
Context {A : Type}.
Implicit Types (l d : list A).

Lemma tail_drop_S l n : tail (drop n l) = drop (S n) l.
Proof. revert l; induction n; intros [|y l]; cbn; auto. Qed.
Lemma head_drop l n : head (drop n l) = l !! n.
Proof. revert l; induction n; intros [|y l]; cbn; auto. Qed.

Lemma aget_Some l i x : (0 <= i)%Z -> l !! Z.to_nat i = Some x -> aget l i = Ret x.
Proof. intros Hi E. unfold aget. destruct (Z.leb_spec 0 i); [|lia]. rewrite E. reflexivity. Qed.
Lemma aset_ok l i x : (0 <= i < zlen l)%Z -> aset l i x = Ret (<[Z.to_nat i := x]> l).
Proof.
  intros Hi. unfold aset. destruct (Z.leb_spec 0 i), (Z.ltb_spec i (zlen l)); try lia. reflexivity.
Qed.

Lemma content_push_front d s e x :
  S s < e -> e <= length d -> drop s (take e (<[s := x]> d)) = x :: drop (S s) (take e d).
Proof.
  intros H1 H2.
  rewrite <- (take_drop_middle (take e (<[s:=x]> d)) s x).
  2:{ rewrite lookup_take by lia. apply list_lookup_insert. lia. }
  rewrite drop_app_alt by (rewrite take_length, take_length, insert_length; lia).
  f_equal. rewrite !skipn_firstn_comm. rewrite drop_insert_gt by lia. reflexivity.
Qed.
Lemma content_one d s x : s < length d -> drop s (take (S s) (<[s := x]> d)) = [x].
Proof.
  intros H. rewrite (take_S_r _ _ x) by (apply list_lookup_insert; lia).
  rewrite drop_app_alt; [reflexivity|]. rewrite take_length, insert_length. lia.
Qed.
Lemma content_push_back d s e x :
  s <= e -> e < length d -> drop s (take (S e) (<[e := x]> d)) = drop s (take e d) ++ [x].
Proof.
  intros H1 H2. rewrite (take_S_r _ _ x) by (apply list_lookup_insert; lia).
  rewrite take_insert by lia. rewrite drop_app_le; [reflexivity|]. rewrite take_length. lia.
Qed.
Lemma content_pop_back d s e :
  s <= e -> e < length d ->
  exists x, d !! e = Some x /\ drop s (take (S e) d) = drop s (take e d) ++ [x].
Proof.
  intros H1 H2. destruct (lookup_lt_is_Some_2 d e H2) as [x Hx]. exists x. split; [exact Hx|].
  rewrite (take_S_r _ _ x Hx). rewrite drop_app_le; [reflexivity|]. rewrite take_length; lia.
Qed.
Lemma content_pop_front d s e :
  s < e -> e <= length d ->
  exists x, d !! s = Some x /\ drop s (take e d) = x :: drop (S s) (take e d).
Proof.
  intros H1 H2. destruct (lookup_lt_is_Some_2 d s ltac:(lia)) as [x Hx]. exists x. split; [exact Hx|].
  assert (Ht : take e d !! s = Some x) by (rewrite lookup_take by lia; exact Hx).
  rewrite <- (take_drop_middle _ _ _ Ht) at 1.
  rewrite drop_app_alt; [reflexivity|]. rewrite !take_length. lia.
Qed.
Lemma take_len_pred l x : take (length (l ++ [x]) - 1) (l ++ [x]) = l.
Proof. rewrite app_length. cbn. replace (length l + 1 - 1) with (length l) by lia. apply take_app. Qed.
End L.

Section P.
Context {A : Type} (zero : A).
Notation dnode := (dnode A).
Implicit Types (h : list dnode) (p q : nat * dnode) (ps : list (nat * dnode)).

Definition content (nd : dnode) : list A :=
  drop (Z.to_nat (dstart nd)) (take (Z.to_nat (dend nd)) (ddata nd)).
Definition wf_node (nd : dnode) : Prop := (0 <= dstart nd < dend nd /\ dend nd <= chunk)%Z.

Fixpoint links ps : Prop :=
  match ps with
  | p :: ((q :: _) as ps') => dnext p.2 = Some q.1 /\ dprev q.2 = Some p.1 /\ links ps'
  | _ => True
  end.
Lemma links_head p p' ps :
  p.1 = p'.1 -> dnext p.2 = dnext p'.2 -> links (p :: ps) -> links (p' :: ps).
Proof. destruct ps; cbn; [tauto|]. intros -> ->. tauto. Qed.
Lemma links_snoc ps p q :
  links (ps ++ [p; q]) <-> links (ps ++ [p]) /\ dnext p.2 = Some q.1 /\ dprev q.2 = Some p.1.
Proof.
  induction ps as [|r [|r' ps] IH]; cbn in *; [tauto|tauto|tauto].
Qed.
Lemma links_tail p p' ps :
  p.1 = p'.1 -> dprev p.2 = dprev p'.2 -> links (ps ++ [p]) -> links (ps ++ [p']).
Proof.
  intros H1 H2. destruct ps as [|q ps _] using rev_ind; [auto|].
  rewrite <- !app_assoc. cbn. rewrite !links_snoc, H1, H2. tauto.
Qed.

(** every node ever allocated: a full array, links that point to allocated nodes *)
Definition alloc h (m : option nat) : Prop := match m with None => True | Some m => m < length h end.
Definition wf_heap h : Prop :=
  forall i nd, h !! i = Some nd ->
  length (ddata nd) = 64 /\ alloc h (dnext nd) /\ alloc h (dprev nd).
Lemma wf_heap_insert h i nd :
  wf_heap h -> length (ddata nd) = 64 -> alloc h (dnext nd) -> alloc h (dprev nd) ->
  wf_heap (<[i := nd]> h).
Proof.
  intros Hw H1 H2 H3 j nd' E. unfold alloc. rewrite insert_length.
  destruct (decide (i = j)) as [->|Hne].
  - apply list_lookup_insert_Some in E as [(_ & -> & _)|(? & _)]; [tauto|congruence].
  - rewrite list_lookup_insert_ne in E by congruence. apply (Hw _ _ E).
Qed.

Definition at_heap h ps : Prop := Forall (fun p => h !! p.1 = Some p.2) ps.
Lemma at_heap_insert h ps k nd : k ∉ ps.*1 -> at_heap h ps -> at_heap (<[k := nd]> h) ps.
Proof.
  intros Hk H. induction ps as [|p ps IH]; [constructor|].
  rewrite fmap_cons in Hk. apply not_elem_of_cons in Hk as [Hp Hk].
  apply Forall_cons in H as [H1 H]. constructor; [|apply IH; assumption].
  rewrite list_lookup_insert_ne by congruence. exact H1.
Qed.

Lemma pool_get_d c pool h ls n pool' h' :
  pool_get (dzero zero) c pool h = (n, pool', h') ->
  own h ls pool -> wf_heap h ->
  n ∉ ls /\ own h' (n :: ls) pool' /\ wf_heap h' /\ length h <= length h' /\ is_Some (h' !! n) /\
  (forall i nd, h !! i = Some nd -> h' !! i = Some nd).
Proof.
  intros E [HN HF] Hw. unfold pool_get in E.
  destruct (pool !! c) as [l|] eqn:Ep; injection E as <- <- <-.
  - assert (HP : pool ≡ₚ l :: delete c pool) by (apply delete_Permutation; exact Ep).
    rewrite HP in HN. rewrite HP in HF.
    rewrite <- Permutation_middle in HN. rewrite <- Permutation_middle in HF.
    apply NoDup_cons in HN as [H1 H2].
    split; [rewrite elem_of_app in H1; tauto|]. split; [split; [constructor; assumption|exact HF]|].
    split; [exact Hw|]. split; [lia|]. split; [|auto].
    apply Forall_cons in HF as [HF _]. apply lookup_lt_is_Some_2. exact HF.
  - split; [|split; [split|split; [|split; [|split]]]].
    + intros Hc. rewrite Forall_forall in HF. specialize (HF (length h) ltac:(apply elem_of_app; auto)). lia.
    + cbn. constructor; [|exact HN]. intros Hc. rewrite Forall_forall in HF. specialize (HF _ Hc). lia.
    + cbn. constructor; [rewrite app_length; cbn; lia|].
      eapply Forall_impl; [exact HF|]. intros y Hy; cbn in Hy. rewrite app_length; cbn; lia.
    + intros i nd Ei. unfold alloc. rewrite app_length; cbn [length].
      apply lookup_app_Some in Ei as [Ei|[_ Ei]].
      * destruct (Hw _ _ Ei) as (? & H1 & H2). unfold alloc in *.
        destruct (dnext nd), (dprev nd); repeat split; auto; lia.
      * apply list_lookup_singleton_Some in Ei as [_ <-]. cbn. rewrite ?replicate_length. auto.
    + rewrite app_length; lia.
    + rewrite lookup_app_r, Nat.sub_diag by lia. cbn. eauto.
    + intros i nd Ei. rewrite lookup_app_l by eauto using lookup_lt_Some. exact Ei.
Qed.

Definition drel (d : deque A) (xs : list A) : Prop :=
  exists ps, ps <> [] /\ at_heap (d_heap d) ps /\ own (d_heap d) ps.*1 (d_pool d) /\ links ps /\
             Forall (fun p => wf_node p.2) ps /\ wf_heap (d_heap d) /\
             d_head d = head ps.*1 /\ d_tail d = last ps.*1 /\
             xs = concat ((fun p => content p.2) <$> ps).

Lemma drel_first c (x : A) : exists d', d_first zero c d_new x = Ret d' /\ drel d' [x].
Proof.
  unfold d_first, pool_get. cbn.
  eexists; split; [reflexivity|].
  eexists [(0, _)]. cbn. repeat split; auto.
  - constructor; [reflexivity|constructor].
  - constructor; [apply not_elem_of_nil|constructor].
  - constructor; [cbn; lia|constructor].
  - constructor; [|constructor]. unfold wf_node; cbn. unfold chunk; lia.
  - cbn. apply list_lookup_singleton_Some in H as [_ <-]. reflexivity.
  - cbn. apply list_lookup_singleton_Some in H as [_ <-]. exact I.
  - cbn. apply list_lookup_singleton_Some in H as [_ <-]. exact I.
  - reflexivity.
Qed.

Ltac bounds := unfold wf_node, chunk in *; cbn in *; lia.

(** Everything about the front of the deque. *)
Lemma push_front_rel c d xs x : drel d xs ->
  exists d', d_push_front zero c d x = Ret d' /\ drel d' (x :: xs).
Proof.
  intros (ps & Hne & Hat & Ho & Hlk & Hwf & Hh & Hhd & Htl & ->).
  destruct d as [h pool hd tl]; cbn [d_heap d_pool d_head d_tail] in *. subst hd tl.
  destruct ps as [|[p nd] ps]; [congruence|]. cbn [fmap list_fmap head fst].
  unfold d_push_front; cbn [d_head d_heap d_pool d_tail].
  pose proof Hat as Hat0. apply Forall_cons in Hat0 as [Hp Hat']. cbn in Hp.
  rewrite Hp. cbn [deref rbind].
  apply Forall_cons in Hwf as [Hw1 Hwf]. cbn in Hw1.
  destruct (Hh _ _ Hp) as (Hl64 & An & Ap).
  assert (Hplt := lookup_lt_Some _ _ _ Hp).
  assert (Hps : p ∉ ps.*1).
  { destruct Ho as [HN _]. apply NoDup_app in HN as (HN & _). apply NoDup_cons in HN. tauto. }
  destruct (Z.eqb_spec (dstart nd) 0) as [Hs0|Hs0].
  - destruct (pool_get (dzero zero) c pool h) as [[n pool'] h'] eqn:E.
    destruct (pool_get_d _ _ _ _ _ _ _ E Ho Hh) as (Hn & Ho' & Hh' & Hll & [n0 Hn0] & Hkeep).
    rewrite fmap_cons in Hn. cbn [fst] in Hn. apply not_elem_of_cons in Hn as [Hnp Hn].
    destruct (Hh' _ _ Hn0) as (Hn64 & Ann & Anp).
    rewrite Hn0. cbn [deref rbind].
    rewrite aset_ok by (unfold chunk, zlen; lia). cbn [rbind].
    rewrite list_lookup_insert_ne by congruence. rewrite (Hkeep _ _ Hp). cbn [deref rbind].
    eexists; split; [reflexivity|].
    match goal with |- drel (Deque (<[p:=?a]> (<[n:=?b]> h')) _ _ _) _ => exists ((n, b) :: (p, a) :: ps) end.
    cbn [d_heap d_pool d_head d_tail].
    split; [congruence|]. split; [|split; [|split; [|split; [|split; [|split; [|split]]]]]].
    + constructor; [|constructor].
      * cbn. rewrite list_lookup_insert_ne by congruence. apply list_lookup_insert.
        apply lookup_lt_Some in Hn0; exact Hn0.
      * cbn. apply list_lookup_insert. rewrite insert_length. lia.
      * apply at_heap_insert; [exact Hps|]. apply at_heap_insert; [exact Hn|].
        eapply Forall_impl; [exact Hat'|]. cbn; intros; auto.
    + eapply own_resize with (h := h'); [rewrite !insert_length; lia|]. exact Ho'.
    + cbn. destruct ps; cbn in *; tauto.
    + constructor; [bounds|]. constructor; [exact Hw1|exact Hwf].
    + apply wf_heap_insert; [apply wf_heap_insert|..]; cbn; auto; unfold alloc in *; rewrite ?insert_length.
      all: try (rewrite ?insert_length; lia).
      * destruct (dnext nd); auto; lia.
      * apply lookup_lt_Some in Hn0; exact Hn0.
    + reflexivity.
    + cbn. destruct (ps.*1); reflexivity.
    + cbn [fmap list_fmap concat snd]. unfold content; cbn [dstart dend ddata].
      change (Z.to_nat (chunk - 1)) with 63. change (Z.to_nat chunk) with 64.
      rewrite content_one by lia. reflexivity.
  - rewrite aset_ok by (unfold chunk, zlen, wf_node in *; unfold chunk in *; lia). cbn [rbind].
    eexists; split; [reflexivity|].
    match goal with |- drel (Deque (<[p:=?a]> h) _ _ _) _ => exists ((p, a) :: ps) end.
    cbn [d_heap d_pool d_head d_tail].
    split; [congruence|]. split; [|split; [|split; [|split; [|split; [|split; [|split]]]]]].
    + constructor; [cbn; apply list_lookup_insert; exact Hplt|]. apply at_heap_insert; assumption.
    + eapply own_resize with (h := h); [rewrite !insert_length; lia|]. exact Ho.
    + eapply links_head; [..|exact Hlk]; reflexivity.
    + constructor; [bounds|exact Hwf].
    + apply wf_heap_insert; cbn; auto. rewrite insert_length; exact Hl64.
    + reflexivity.
    + reflexivity.
    + cbn [fmap list_fmap concat snd]. unfold content; cbn [dstart dend ddata].
      unfold wf_node, chunk in Hw1.
      rewrite content_push_front by lia.
      replace (S (Z.to_nat (dstart nd - 1))) with (Z.to_nat (dstart nd)) by lia. reflexivity.
Qed.

Lemma push_back_rel c d xs x : drel d xs ->
  exists d', d_push_back zero c d x = Ret d' /\ drel d' (xs ++ [x]).
Proof.
  intros (ps & Hne & Hat & Ho & Hlk & Hwf & Hh & Hhd & Htl & ->).
  destruct d as [h pool hd tl]; cbn [d_heap d_pool d_head d_tail] in *. subst hd tl.
  destruct ps as [|[p nd] ps _] using rev_ind; [congruence|].
  rewrite fmap_app in *. cbn [fmap list_fmap fst] in *. rewrite last_snoc in *.
  unfold d_push_back; cbn [d_head d_heap d_pool d_tail].
  pose proof Hat as Hat0. apply Forall_app in Hat0 as [Hat' Hp]. apply Forall_cons in Hp as [Hp _]. cbn in Hp.
  rewrite Hp. cbn [deref rbind].
  apply Forall_app in Hwf as [Hwf Hw1]. apply Forall_cons in Hw1 as [Hw1 _]. cbn in Hw1.
  destruct (Hh _ _ Hp) as (Hl64 & An & Ap).
  assert (Hplt := lookup_lt_Some _ _ _ Hp).
  assert (Hps : p ∉ ps.*1).
  { destruct Ho as [HN _]. apply NoDup_app in HN as (HN & _). apply NoDup_app in HN as (_ & HN & _).
    intros Hc. apply (HN _ Hc). constructor. }
  destruct (Z.eqb_spec (dend nd) chunk) as [Hs0|Hs0].
  - destruct (pool_get (dzero zero) c pool h) as [[n pool'] h'] eqn:E.
    destruct (pool_get_d _ _ _ _ _ _ _ E Ho Hh) as (Hn & Ho' & Hh' & Hll & [n0 Hn0] & Hkeep).
    apply not_elem_of_app in Hn as [Hn Hnp]. apply not_elem_of_cons in Hnp as [Hnp _].
    destruct (Hh' _ _ Hn0) as (Hn64 & Ann & Anp).
    rewrite Hn0. cbn [deref rbind].
    rewrite aset_ok by (unfold chunk, zlen; lia). cbn [rbind].
    rewrite list_lookup_insert_ne by congruence. rewrite (Hkeep _ _ Hp). cbn [deref rbind].
    eexists; split; [reflexivity|].
    match goal with |- drel (Deque (<[p:=?a]> (<[n:=?b]> h')) _ _ _) _ => exists (ps ++ [(p, a); (n, b)]) end.
    cbn [d_heap d_pool d_head d_tail]. rewrite fmap_app; cbn [fmap list_fmap fst].
    split; [destruct ps; discriminate|]. split; [|split; [|split; [|split; [|split; [|split; [|split]]]]]].
    + apply Forall_app; split; [|constructor; [|constructor; [|constructor]]].
      * apply at_heap_insert; [exact Hps|]. apply at_heap_insert; [exact Hn|].
        eapply Forall_impl; [exact Hat'|]. cbn; intros; auto.
      * cbn. apply list_lookup_insert. rewrite insert_length. lia.
      * cbn. rewrite list_lookup_insert_ne by congruence. apply list_lookup_insert.
        apply lookup_lt_Some in Hn0; exact Hn0.
    + eapply own_resize with (h := h'); [rewrite !insert_length; lia|].
      eapply own_perm; [|exact Ho']. apply Permutation_app_tail. 
      change [p; n] with ([p] ++ [n]). rewrite app_assoc. apply Permutation_cons_append.
    + apply links_snoc. split; [|split; reflexivity].
      eapply links_tail; [..|exact Hlk]; reflexivity.
    + apply Forall_app; split; [exact Hwf|]. constructor; [exact Hw1|]. constructor; [bounds|constructor].
    + apply wf_heap_insert; [apply wf_heap_insert|..]; cbn; auto; unfold alloc in *; rewrite ?insert_length.
      all: try (rewrite ?insert_length; lia).
      * apply lookup_lt_Some in Hn0; exact Hn0.
      * destruct (dprev nd); auto; lia.
    + destruct (ps.*1); reflexivity.
    + rewrite (app_assoc _ [p] [n]). symmetry; apply last_snoc.
    + rewrite !fmap_app, !concat_app. cbn [fmap list_fmap concat snd]. unfold content; cbn [dstart dend ddata].
      change (Z.to_nat 0) with 0. change (Z.to_nat 1) with 1.
      rewrite content_one by lia. rewrite !app_nil_r, <- app_assoc. reflexivity.
  - rewrite aset_ok by (unfold chunk, zlen, wf_node in *; unfold chunk in *; lia). cbn [rbind].
    eexists; split; [reflexivity|].
    match goal with |- drel (Deque (<[p:=?a]> h) _ _ _) _ => exists (ps ++ [(p, a)]) end.
    cbn [d_heap d_pool d_head d_tail]. rewrite fmap_app; cbn [fmap list_fmap fst].
    split; [destruct ps; discriminate|]. split; [|split; [|split; [|split; [|split; [|split; [|split]]]]]].
    + apply Forall_app; split; [apply at_heap_insert; assumption|].
      constructor; [cbn; apply list_lookup_insert; exact Hplt|constructor].
    + eapply own_resize with (h := h); [rewrite !insert_length; lia|]. exact Ho.
    + eapply links_tail; [..|exact Hlk]; reflexivity.
    + apply Forall_app; split; [exact Hwf|]. constructor; [bounds|constructor].
    + apply wf_heap_insert; cbn; auto. rewrite insert_length; exact Hl64.
    + reflexivity.
    + symmetry; apply last_snoc.
    + rewrite !fmap_app, !concat_app. cbn [fmap list_fmap concat snd]. unfold content; cbn [dstart dend ddata].
      unfold wf_node, chunk in Hw1. unfold chunk in Hs0.
      replace (Z.to_nat (dend nd + 1)) with (S (Z.to_nat (dend nd))) by lia.
      rewrite content_push_back by lia. rewrite !app_nil_r, <- app_assoc. reflexivity.
Qed.

Lemma pop_front_rel d xs : drel d xs ->
  exists d' x xs', xs = x :: xs' /\ d_pop_front d = Ret (d', Some x) /\ (xs' <> [] -> drel d' xs').
Proof.
  intros (ps & Hne & Hat & Ho & Hlk & Hwf & Hh & Hhd & Htl & ->).
  destruct d as [h pool hd tl]; cbn [d_heap d_pool d_head d_tail] in *. subst hd tl.
  destruct ps as [|[p nd] ps]; [congruence|]. cbn [fmap list_fmap head fst].
  unfold d_pop_front; cbn [d_head d_heap d_pool d_tail].
  pose proof Hat as Hat0. apply Forall_cons in Hat0 as [Hp Hat']. cbn in Hp.
  rewrite Hp. cbn [deref rbind].
  apply Forall_cons in Hwf as [Hw1 Hwf]. cbn in Hw1.
  destruct (Hh _ _ Hp) as (Hl64 & An & Ap).
  assert (Hplt := lookup_lt_Some _ _ _ Hp).
  assert (Hps : p ∉ ps.*1).
  { destruct Ho as [HN _]. apply NoDup_app in HN as (HN & _). apply NoDup_cons in HN. tauto. }
  unfold wf_node, chunk in Hw1.
  destruct (content_pop_front (ddata nd) (Z.to_nat (dstart nd)) (Z.to_nat (dend nd))) as (x & Hx & Hc); [lia|lia|].
  rewrite (aget_Some _ _ x) by (auto; lia). cbn [rbind concat snd].
  set (rest := concat _).
  assert (Ec : content nd = x :: drop (Z.to_nat (dstart nd + 1)) (take (Z.to_nat (dend nd)) (ddata nd))).
  { unfold content. rewrite Hc. do 2 f_equal. lia. }
  rewrite Ec. cbn [app].
  destruct (Z.eqb_spec (dstart nd + 1) (dend nd)) as [Hs0|Hs0].
  - assert (Hnil : drop (Z.to_nat (dstart nd + 1)) (take (Z.to_nat (dend nd)) (ddata nd)) = []).
    { apply drop_ge. rewrite take_length. lia. }
    rewrite Hnil. cbn [app].
    assert (Hstep : exists d', match dnext nd with
      | None => Ret (Deque (<[p:=DNode (ddata nd) (dstart nd + 1) (dend nd) (dnext nd) (dprev nd)]> h)
                       (pool ++ [p]) None (last (p :: ps.*1)), Some x)
      | Some m =>
          let! mn := deref (<[p:=DNode (ddata nd) (dstart nd + 1) (dend nd) (dnext nd) (dprev nd)]> h !! m) in
          Ret (Deque (<[m:=DNode (ddata mn) (dstart mn) (dend mn) (dnext mn) None]>
                  (<[p:=DNode (ddata nd) (dstart nd + 1) (dend nd) (dnext nd) (dprev nd)]> h))
                (pool ++ [p]) (Some m) (last (p :: ps.*1)), Some x)
      end = Ret (d', Some x) /\ (ps <> [] -> drel d' rest)).
    { destruct ps as [|[q nq] ps].
      - destruct (dnext nd) as [m|]; [|eexists; split; [reflexivity|congruence]].
        cbn in An. destruct (lookup_lt_is_Some_2 (<[p:=DNode (ddata nd) (dstart nd + 1) (dend nd) (Some m) (dprev nd)]> h) m)
          as [mn Hmn]; [rewrite insert_length; exact An|].
        rewrite Hmn. cbn. eexists; split; [reflexivity|congruence].
      - destruct Hlk as (Hnx & Hpv & Hlk). cbn [fst snd] in Hnx, Hpv. rewrite Hnx.
        change (links ((q, nq) :: ps)) in Hlk.
        apply Forall_cons in Hat' as [Hq Hat'']. cbn in Hq.
        assert (Hpq : p <> q) by (cbn in Hps; rewrite elem_of_cons in Hps; tauto).
        assert (Hqlt := lookup_lt_Some _ _ _ Hq).
        rewrite list_lookup_insert_ne by exact Hpq. rewrite Hq. cbn [deref rbind].
        eexists; split; [reflexivity|]. intros _.
        match goal with |- drel (Deque (<[q:=?a]> _) _ _ _) _ => exists ((q, a) :: ps) end.
        cbn [d_heap d_pool d_head d_tail].
        assert (Hqs : q ∉ ps.*1).
        { destruct Ho as [HN _]. apply NoDup_app in HN as (HN & _). apply NoDup_cons in HN as [_ HN].
          apply NoDup_cons in HN. tauto. }
        split; [congruence|]. split; [|split; [|split; [|split; [|split; [|split; [|split]]]]]].
        + constructor; [cbn; apply list_lookup_insert; rewrite insert_length; exact Hqlt|].
          apply at_heap_insert; [exact Hqs|]. apply at_heap_insert; [|exact Hat''].
          cbn in Hps. rewrite elem_of_cons in Hps. tauto.
        + eapply own_resize with (h := h); [rewrite !insert_length; lia|].
          cbn. apply own_release in Ho. exact Ho.
        + eapply links_head; [..|exact Hlk]; reflexivity.
        + apply Forall_cons in Hwf as [Hwq Hwf]. constructor; [exact Hwq|exact Hwf].
        + destruct (Hh _ _ Hq) as (? & Aq & _).
          apply wf_heap_insert; [apply wf_heap_insert|..]; cbn; auto; rewrite ?Hnx in *; auto.
          unfold alloc in *. rewrite insert_length. exact Aq.
        + reflexivity.
        + reflexivity.
        + reflexivity. }
    destruct Hstep as (d' & E & Hd). exists d', x, rest. split; [reflexivity|]. split.
    + rewrite <- E. destruct (dnext nd); reflexivity.
    + intros Hrest. apply Hd. intros ->. apply Hrest. reflexivity.
  - eexists _, x, _. split; [reflexivity|]. split; [reflexivity|]. intros _.
    match goal with |- drel (Deque (<[p:=?a]> h) _ _ _) _ => exists ((p, a) :: ps) end.
    cbn [d_heap d_pool d_head d_tail].
    split; [congruence|]. split; [|split; [|split; [|split; [|split; [|split; [|split]]]]]].
    + constructor; [cbn; apply list_lookup_insert; exact Hplt|]. apply at_heap_insert; assumption.
    + eapply own_resize with (h := h); [rewrite !insert_length; lia|]. exact Ho.
    + eapply links_head; [..|exact Hlk]; reflexivity.
    + constructor; [bounds|exact Hwf].
    + apply wf_heap_insert; cbn; auto.
    + reflexivity.
    + reflexivity.
    + reflexivity.
Qed.

Lemma pop_back_rel d xs : drel d xs ->
  exists d' x xs', xs = xs' ++ [x] /\ d_pop_back d = Ret (d', Some x) /\ (xs' <> [] -> drel d' xs').
Proof.
  intros (ps & Hne & Hat & Ho & Hlk & Hwf & Hh & Hhd & Htl & ->).
  destruct d as [h pool hd tl]; cbn [d_heap d_pool d_head d_tail] in *. subst hd tl.
  destruct ps as [|[p nd] ps _] using rev_ind; [congruence|].
  rewrite !fmap_app in *. cbn [fmap list_fmap fst] in *. rewrite !last_snoc.
  unfold d_pop_back; cbn [d_head d_heap d_pool d_tail].
  pose proof Hat as Hat0. apply Forall_app in Hat0 as [Hat' Hp]. apply Forall_cons in Hp as [Hp _]. cbn in Hp.
  rewrite Hp. cbn [deref rbind].
  apply Forall_app in Hwf as [Hwf Hw1]. apply Forall_cons in Hw1 as [Hw1 _]. cbn in Hw1.
  destruct (Hh _ _ Hp) as (Hl64 & An & Ap).
  assert (Hplt := lookup_lt_Some _ _ _ Hp).
  assert (Hps : p ∉ ps.*1).
  { destruct Ho as [HN _]. apply NoDup_app in HN as (HN & _). apply NoDup_app in HN as (_ & HN & _).
    intros Hc. apply (HN _ Hc). constructor. }
  unfold wf_node, chunk in Hw1.
  destruct (content_pop_back (ddata nd) (Z.to_nat (dstart nd)) (Z.to_nat (dend nd - 1))) as (x & Hx & Hc); [lia|lia|].
  rewrite (aget_Some _ _ x) by (auto; lia). cbn [rbind].
  replace (S (Z.to_nat (dend nd - 1))) with (Z.to_nat (dend nd)) in Hc by lia.
  rewrite concat_app. cbn [fmap list_fmap concat snd]. rewrite app_nil_r.
  set (rest := concat _).
  unfold content at 1. rewrite Hc.
  destruct (Z.eqb_spec (dstart nd) (dend nd - 1)) as [Hs0|Hs0].
  - assert (Hnil : drop (Z.to_nat (dstart nd)) (take (Z.to_nat (dend nd - 1)) (ddata nd)) = []).
    { apply drop_ge. rewrite take_length. lia. }
    rewrite Hnil. cbn [app].
    assert (Hstep : exists d', match dprev nd with
      | None => Ret (Deque (<[p:=DNode (ddata nd) (dstart nd) (dend nd - 1) (dnext nd) (dprev nd)]> h)
                       (pool ++ [p]) (head (ps.*1 ++ [p])) None, Some x)
      | Some m =>
          let! mn := deref (<[p:=DNode (ddata nd) (dstart nd) (dend nd - 1) (dnext nd) (dprev nd)]> h !! m) in
          Ret (Deque (<[m:=DNode (ddata mn) (dstart mn) (dend mn) None (dprev mn)]>
                  (<[p:=DNode (ddata nd) (dstart nd) (dend nd - 1) (dnext nd) (dprev nd)]> h))
                (pool ++ [p]) (head (ps.*1 ++ [p])) (Some m), Some x)
      end = Ret (d', Some x) /\ (ps <> [] -> drel d' rest)).
    { destruct ps as [|[q nq] ps _] using rev_ind.
      - destruct (dprev nd) as [m|]; [|eexists; split; [reflexivity|congruence]].
        cbn in Ap. destruct (lookup_lt_is_Some_2 (<[p:=DNode (ddata nd) (dstart nd) (dend nd - 1) (dnext nd) (Some m)]> h) m)
          as [mn Hmn]; [rewrite insert_length; exact Ap|].
        rewrite Hmn. cbn. eexists; split; [reflexivity|congruence].
      - rewrite <- app_assoc in Hlk. cbn [app] in Hlk. apply links_snoc in Hlk as (Hlk & Hnx & Hpv).
        cbn in Hnx, Hpv. rewrite Hpv.
        apply Forall_app in Hat' as [Hat'' Hq]. apply Forall_cons in Hq as [Hq _]. cbn in Hq.
        rewrite fmap_app in *. cbn [fmap list_fmap fst] in *.
        assert (Hpq : p <> q) by (rewrite elem_of_app, elem_of_cons in Hps; tauto).
        assert (Hqlt := lookup_lt_Some _ _ _ Hq).
        rewrite list_lookup_insert_ne by exact Hpq. rewrite Hq. cbn [deref rbind].
        eexists; split; [reflexivity|]. intros _.
        match goal with |- drel (Deque (<[q:=?a]> _) _ _ _) _ => exists (ps ++ [(q, a)]) end.
        cbn [d_heap d_pool d_head d_tail]. rewrite fmap_app; cbn [fmap list_fmap fst].
        assert (Hqs : q ∉ ps.*1).
        { destruct Ho as [HN _]. apply NoDup_app in HN as (HN & _). apply NoDup_app in HN as (HN & _).
          apply NoDup_app in HN as (_ & HN & _). intros Hcc. apply (HN _ Hcc). constructor. }
        split; [destruct ps; discriminate|]. split; [|split; [|split; [|split; [|split; [|split; [|split]]]]]].
        + apply Forall_app; split; [|constructor; [|constructor]].
          * apply at_heap_insert; [exact Hqs|]. apply at_heap_insert; [|exact Hat''].
            rewrite elem_of_app in Hps. tauto.
          * cbn; apply list_lookup_insert; rewrite insert_length; exact Hqlt.
        + eapply own_resize with (h := h); [rewrite !insert_length; lia|].
          apply own_release. eapply own_perm; [|exact Ho]. apply Permutation_app_tail.
          symmetry; apply Permutation_cons_append.
        + eapply links_tail; [..|exact Hlk]; reflexivity.
        + apply Forall_app in Hwf as [Hwf Hwq]. apply Forall_app; split; [exact Hwf|].
          apply Forall_cons in Hwq as [Hwq _]. constructor; [exact Hwq|constructor].
        + destruct (Hh _ _ Hq) as (? & _ & Aq).
          apply wf_heap_insert; [apply wf_heap_insert|..]; cbn; auto; rewrite ?Hpv in *; auto.
          unfold alloc in *. rewrite insert_length. exact Aq.
        + destruct ps; reflexivity.
        + symmetry; apply last_snoc.
        + subst rest. rewrite !fmap_app, !concat_app. reflexivity. }
    destruct Hstep as (d' & E & Hd). exists d', x, rest. split; [reflexivity|]. split.
    + rewrite <- E. destruct (dprev nd); reflexivity.
    + intros Hrest. apply Hd. intros ->. apply Hrest. reflexivity.
  - eexists _, x, _. split; [rewrite app_assoc; reflexivity|]. split; [reflexivity|]. intros _.
    match goal with |- drel (Deque (<[p:=?a]> h) _ _ _) _ => exists (ps ++ [(p, a)]) end.
    cbn [d_heap d_pool d_head d_tail]. rewrite fmap_app; cbn [fmap list_fmap fst].
    split; [destruct ps; discriminate|]. split; [|split; [|split; [|split; [|split; [|split; [|split]]]]]].
    + apply Forall_app; split; [apply at_heap_insert; assumption|].
      constructor; [cbn; apply list_lookup_insert; exact Hplt|constructor].
    + eapply own_resize with (h := h); [rewrite !insert_length; lia|]. exact Ho.
    + eapply links_tail; [..|exact Hlk]; reflexivity.
    + apply Forall_app; split; [exact Hwf|]. constructor; [bounds|constructor].
    + apply wf_heap_insert; cbn; auto.
    + reflexivity.
    + symmetry; apply last_snoc.
    + rewrite !fmap_app, !concat_app. cbn. rewrite app_nil_r. reflexivity.
Qed.

Lemma peek_front_rel d xs : drel d xs -> xs <> [] /\ d_peek_front d = Ret (head xs).
Proof.
  intros (ps & Hne & Hat & Ho & Hlk & Hwf & Hh & Hhd & Htl & ->).
  destruct ps as [|[p nd] ps]; [congruence|].
  unfold d_peek_front. rewrite Hhd. cbn [fmap list_fmap head fst].
  apply Forall_cons in Hat as [Hp Hat']. cbn in Hp. rewrite Hp. cbn [deref rbind].
  apply Forall_cons in Hwf as [Hw1 Hwf]. cbn in Hw1. unfold wf_node, chunk in Hw1.
  destruct (Hh _ _ Hp) as (Hl64 & An & Ap).
  destruct (content_pop_front (ddata nd) (Z.to_nat (dstart nd)) (Z.to_nat (dend nd))) as (x & Hx & Hc); [lia|lia|].
  rewrite (aget_Some _ _ x) by (auto; lia). cbn [rbind concat snd]. change (content nd) with (drop (Z.to_nat (dstart nd)) (take (Z.to_nat (dend nd)) (ddata nd))).
  rewrite Hc. split; [discriminate|reflexivity].
Qed.
Lemma peek_back_rel d xs : drel d xs -> d_peek_back d = Ret (last xs).
Proof.
  intros (ps & Hne & Hat & Ho & Hlk & Hwf & Hh & Hhd & Htl & ->).
  destruct ps as [|[p nd] ps _] using rev_ind; [congruence|].
  unfold d_peek_back. rewrite Htl, fmap_app. cbn [fmap list_fmap fst]. rewrite last_snoc.
  apply Forall_app in Hat as [_ Hat]. apply Forall_cons in Hat as [Hp Hat']. cbn in Hp. rewrite Hp. cbn [deref rbind].
  apply Forall_app in Hwf as [_ Hwf]. apply Forall_cons in Hwf as [Hw1 Hwf]. cbn in Hw1. unfold wf_node, chunk in Hw1.
  destruct (Hh _ _ Hp) as (Hl64 & An & Ap).
  destruct (content_pop_back (ddata nd) (Z.to_nat (dstart nd)) (Z.to_nat (dend nd - 1))) as (x & Hx & Hc); [lia|lia|].
  rewrite (aget_Some _ _ x) by (auto; lia). cbn [rbind concat snd].
  rewrite fmap_app, concat_app. cbn [fmap list_fmap concat snd]. unfold content at 2.
  replace (S (Z.to_nat (dend nd - 1))) with (Z.to_nat (dend nd)) in Hc by lia.
  rewrite Hc, app_nil_r, app_assoc, last_snoc. reflexivity.
Qed.

Definition live (d : deque A) (xs : list A) : Prop := xs = [] \/ drel d xs.

Lemma live_step d xs c o :
  live d xs -> xs <> [] ->
  exists d', d_step zero d (c, o) = Ret (d', (deque_step xs o).2) /\ live d' (deque_step xs o).1.
Proof.
  intros [->|Hd] Hne; [congruence|].
  destruct o as [x|x| | | |]; unfold d_step; cbn [snd fst deque_step].
  - destruct (push_front_rel c d xs x Hd) as (d' & -> & H). eexists; split; [reflexivity|right; exact H].
  - destruct (push_back_rel c d xs x Hd) as (d' & -> & H). eexists; split; [reflexivity|right; exact H].
  - destruct (pop_front_rel d xs Hd) as (d' & x & xs' & -> & -> & H).
    eexists; split; [reflexivity|]. cbn. destruct xs'; [left; reflexivity|right; apply H; discriminate].
  - destruct (pop_back_rel d xs Hd) as (d' & x & xs' & -> & -> & H).
    eexists; split; [cbn; rewrite last_snoc; reflexivity|]. rewrite take_len_pred.
    destruct xs'; [left; reflexivity|right; apply H; discriminate].
  - destruct (peek_front_rel d xs Hd) as [_ ->]. eexists; split; [reflexivity|right; exact Hd].
  - rewrite (peek_back_rel d xs Hd). eexists; split; [reflexivity|right; exact Hd].
Qed.

Lemma push_split (os : list (nat * dop A)) :
  Forall (fun o => is_push o.2 = false) os \/
  exists pre c o post, os = pre ++ (c, o) :: post /\ Forall (fun o => is_push o.2 = false) pre /\ is_push o = true.
Proof.
  induction os as [|[c o] os IH]; [left; constructor|].
  destruct (is_push o) eqn:E.
  - right. exists [], c, o, os. repeat split; auto.
  - destruct IH as [IH|(pre & c' & o' & post & -> & H1 & H2)].
    + left. constructor; auto.
    + right. exists ((c, o) :: pre), c', o', post. repeat split; auto.
Qed.

Lemma no_push_run (os : list (nat * dop A)) :
  Forall (fun o => is_push o.2 = false) os ->
  run (d_step zero) d_new os = (ideal_results deque_step [] os.*2, Ret d_new) /\
  ideal_state (@deque_step A) [] os.*2 = [].
Proof.
  induction 1 as [|[c o] os Ho Hos [IH1 IH2]]; [split; reflexivity|].
  cbn in Ho.
  assert (E : d_step zero d_new (c, o) = Ret (d_new, (deque_step [] o).2) /\ (deque_step [] o).1 = []).
  { destruct o; cbn in Ho; try discriminate Ho; split; reflexivity. }
  destruct E as [E1 E2]. rewrite fmap_cons. cbn [snd].
  unfold ideal_results, ideal_state in *. cbn [run ideal_run]. rewrite E1, IH1.
  destruct (deque_step [] o) as [l r]; cbn in E2; subst l.
  destruct (ideal_run deque_step [] os.*2); cbn in *; auto.
Qed.

Lemma deque_refines (hist : list (nat * dop A)) :
  never_used_after_emptied hist.*2 ->
  exists s', run (d_step zero) d_new hist = (ideal_results deque_step [] hist.*2, Ret s').
Proof.
  intros HG. destruct (push_split hist) as [H|(pre & c & o & post & -> & H1 & H2)].
  - destruct (no_push_run hist H) as [E _]. eauto.
  - destruct (no_push_run pre H1) as [E1 E2].
    rewrite fmap_app, fmap_cons in *. cbn [snd] in *.
    assert (Hfst : exists d' x, d_step zero d_new (c, o) = Ret (d', (deque_step [] o).2) /\
                                (deque_step [] o).1 = [x] /\ drel d' [x]).
    { destruct (drel_first c) with (x := match o with PushFront x | PushBack x => x | _ => zero end) as (d' & Hd & Hr).
      destruct o as [x|x| | | |]; cbn in H2; try discriminate H2; cbn in Hd; exists d', x;
      unfold d_step; cbn [snd fst d_push_front d_push_back d_new d_head d_tail];
      fold (@d_new A); rewrite Hd; auto. }
    destruct Hfst as (d' & x & Hd & Hx & Hr).
    destruct (run_refines_oracle (d_step zero) deque_step live (fun l _ => l <> [])) with (hist := post) (s := d') (a := [x])
      as (s' & Hs & _).
    + intros s a c0 o0 Hl Hn. apply live_step; assumption.
    + right; exact Hr.
    + intros p1 o1 p2 E. specialize (HG (pre.*2 ++ o :: p1) o1 p2).
      rewrite <- app_assoc in HG. cbn [app] in HG. rewrite E in HG.
      destruct (HG eq_refl) as [Hbad|Hgood].
      * exfalso. apply Forall_app in Hbad as [_ Hbad]. apply Forall_cons in Hbad as [Hbad _]. congruence.
      * rewrite ideal_state_app, E2 in Hgood. 
        assert (Eq : ideal_state deque_step [] (o :: p1) = ideal_state deque_step [x] p1).
        { change (o :: p1) with ([o] ++ p1). rewrite (ideal_state_app deque_step [] [o] p1). f_equal. rewrite <- Hx.
          unfold ideal_state; cbn. destruct (deque_step [] o); reflexivity. }
        rewrite Eq in Hgood. exact Hgood.
    + exists s'. rewrite run_app, E1. cbn [run]. rewrite Hd, Hs.
      rewrite ideal_results_app, E2. f_equal. f_equal.
      unfold ideal_results. cbn [ideal_run]. 
      destruct (deque_step [] o) as [l r] eqn:Eo; cbn in Hx; subst l. cbn.
      destruct (ideal_run deque_step [x] post.*2); reflexivity.
Qed.
End P.

(** a checker for concrete histories *)
Fixpoint check {A} (pushed : bool) (l : list A) (os : list (dop A)) : bool :=
  match os with
  | [] => true
  | o :: os' =>
      (negb pushed || match l with [] => false | _ => true end)
      && check (pushed || is_push o) (deque_step l o).1 os'
  end.
Lemma check_sound {A} pushed (l : list A) os :
  check pushed l os = true ->
  forall pre o post, os = pre ++ o :: post ->
  (pushed = false /\ Forall (fun o => is_push o = false) pre) \/ ideal_state deque_step l pre <> [].
Proof.
  revert pushed l; induction os as [|o0 os IH]; intros pushed l H pre o post E.
  { destruct pre; discriminate. }
  cbn in H. apply andb_true_iff in H as [H0 H]. destruct pre as [|p pre]; injection E as -> E.
  - destruct pushed; [right|left]; [|auto]. cbn. destruct l; [discriminate|congruence].
  - destruct (IH _ _ H _ _ _ E) as [[H1 H2]|H1].
    + apply orb_false_iff in H1 as [-> H1]. left. auto.
    + right. unfold ideal_state in *. cbn [ideal_run].
      destruct (deque_step l p) as [l1 r1]; cbn in *. destruct (ideal_run deque_step l1 pre); exact H1.
Qed.
Lemma check_never_used {A} (os : list (dop A)) : check false [] os = true -> never_used_after_emptied os.
Proof. intros H pre o post E. destruct (check_sound _ _ _ H _ _ _ E) as [[_ ?]|?]; auto. Qed.
