(** dsx/linkedx/dequex after it has been emptied (C17): what survives of the structure. *)
From Verif Require Import Base SeqSpec LinkedHeap DequeModel.
Local Open Scope Z.

Section safe.
Context {A : Type} (zero : A).
Notation heap := (list (dnode A)).
Definition pok (h : heap) (p : option nat) : Prop := forall m, p = Some m -> (m < length h)%nat.
Definition nok (h : heap) (nd : dnode A) : Prop :=
  length (ddata nd) = 64%nat /\ 0 <= dstart nd <= 64 /\ 0 <= dend nd <= 64 /\ pok h (dnext nd) /\ pok h (dprev nd).
Definition hok (h : heap) : Prop := forall i nd, h !! i = Some nd -> nok h nd.
Definition dok (d : deque A) : Prop :=
  hok (d_heap d) /\ Forall (fun n => n < length (d_heap d))%nat (d_pool d) /\ pok (d_heap d) (d_head d) /\ pok (d_heap d) (d_tail d).

Lemma pok_le h h' p : (length h <= length h')%nat -> pok h p -> pok h' p.
Proof. intros H HP m E. specialize (HP m E). lia. Qed.
Lemma nok_le h h' nd : (length h <= length h')%nat -> nok h nd -> nok h' nd.
Proof. intros H (H1 & H2 & H3 & H4 & H5). repeat split; try lia; eapply pok_le; eauto. Qed.
Lemma hok_insert h n nd : hok h -> nok h nd -> hok (<[n := nd]> h).
Proof.
  intros HH HN i x E. apply (nok_le h); [rewrite insert_length; lia|]. destruct (decide (i = n)) as [->|Hi].
  - destruct (decide (n < length h)%nat) as [L|L].
    + rewrite list_lookup_insert in E by exact L. injection E as <-. exact HN.
    + rewrite list_insert_ge in E by lia. exact (HH _ _ E).
  - rewrite list_lookup_insert_ne in E by congruence. exact (HH _ _ E).
Qed.
Lemma pool_get_ok c pool h n pool' h' : hok h -> Forall (fun n => n < length h)%nat pool -> pool_get (dzero zero) c pool h = (n, pool', h') ->
  hok h' /\ (n < length h')%nat /\ Forall (fun n => n < length h')%nat pool' /\ (length h <= length h')%nat.
Proof.
  intros HH HP. unfold pool_get. destruct (pool !! c) as [l|] eqn:E; intros [= <- <- <-].
  - split; [exact HH|]. split; [exact (proj1 (Forall_lookup _ _) HP _ _ E)|]. split; [apply Forall_delete, HP|lia].
  - rewrite app_length. cbn. split.
    + intros i nd Ei. apply lookup_app_Some in Ei as [Ei|[_ Ei]].
      * apply (nok_le h); [rewrite app_length; lia|exact (HH _ _ Ei)].
      * destruct (i - length h)%nat; [|destruct n; discriminate]. injection Ei as <-. unfold nok, dzero; cbn. repeat split; try lia; intros m Em; discriminate.
    + split; [lia|]. split; [|lia]. eapply Forall_impl; [exact HP|cbn; lia].
Qed.
Lemma aset_in (l : list A) i x : 0 <= i < zlen l -> aset l i x = Ret (<[Z.to_nat i := x]> l).
Proof. intros H. unfold aset. destruct (Z.leb_spec 0 i), (Z.ltb_spec i (zlen l)); try lia. reflexivity. Qed.

Lemma aget_spin (l : list A) i : aget l i = Spin -> False.
Proof. unfold aget. destruct (0 <=? i); [destruct (l !! Z.to_nat i)|]; discriminate. Qed.

Definition pushes (o : dop A) : bool := match o with PushFront _ | PushBack _ => true | _ => false end.
Lemma first_ok c d x : dok d -> exists d', d_first zero c d x = Ret d' /\ dok d'.
Proof.
  intros (HH & HP & H1 & H2). unfold d_first. destruct (pool_get _ _ _ _) as [[n pool] h] eqn:E. destruct (pool_get_ok _ _ _ _ _ _ HH HP E) as (G1 & G2 & G3 & G4).
  destruct (lookup_lt_is_Some_2 h n G2) as [nd Hn]. rewrite Hn. cbn [deref]. cbn. pose proof (G1 _ _ Hn) as (N1 & N2 & N3 & N4 & N5).
  rewrite aset_in by (unfold zlen; lia). cbn. eexists. split; [reflexivity|]. unfold dok; cbn [d_heap d_pool d_head d_tail]. rewrite insert_length. split; [|split; [exact G3|]].
  - apply hok_insert; [exact G1|]. unfold nok. cbn. rewrite insert_length. repeat split; try lia; assumption.
  - split; intros m [= <-]; rewrite insert_length; exact G2.
Qed.
Lemma dok_step d o : dok d -> match d_step zero d o with Ret (d', _) => dok d' | Panic => pushes o.2 = false | Spin => False end.
Proof.
  intros HD. pose proof HD as (HH & HP & H1 & H2). destruct o as [c o]. unfold d_step; cbn [fst snd]. destruct o as [x|x| | | | ]; cbn [pushes].
  - unfold d_push_front. destruct (d_head d) as [hd|] eqn:EH; [|destruct (first_ok c d x HD) as (d' & -> & Hd'); exact Hd'].
    destruct (lookup_lt_is_Some_2 _ _ (H1 hd eq_refl)) as [hn Hn]. rewrite Hn. cbn [deref]. cbn -[aset Z.eqb Z.sub chunk]. pose proof (HH _ _ Hn) as (N1 & N2 & N3 & N4 & N5).
    destruct (Z.eqb_spec (dstart hn) 0) as [E0|E0].
    + destruct (pool_get _ _ _ _) as [[n pool] h] eqn:E. destruct (pool_get_ok _ _ _ _ _ _ HH HP E) as (G1 & G2 & G3 & G4).
      destruct (lookup_lt_is_Some_2 h n G2) as [nd Hnd]. rewrite Hnd. cbn [deref]. cbn -[aset Z.eqb Z.sub chunk]. pose proof (G1 _ _ Hnd) as (M1 & M2 & M3 & M4 & M5).
      rewrite aset_in by (unfold zlen, chunk; lia). cbn -[chunk Z.to_nat Z.sub].
      set (h2 := <[n := _]> h). assert (HH2 : hok h2).
      { apply hok_insert; [exact G1|]. unfold nok; cbn -[chunk Z.to_nat Z.sub]. rewrite insert_length. unfold chunk. repeat split; try lia; try assumption. intros m [= <-]. specialize (H1 hd eq_refl). lia. }
      assert (L2 : length h2 = length h) by apply insert_length.
      destruct (lookup_lt_is_Some_2 h2 hd) as [hn2 Hn2]; [specialize (H1 hd eq_refl); lia|]. rewrite Hn2. cbn [deref]. cbn. pose proof (HH2 _ _ Hn2) as (K1 & K2 & K3 & K4 & K5).
      unfold dok; cbn [d_heap d_pool d_head d_tail]. rewrite insert_length, L2. split; [|split; [exact G3|split]].
      * apply hok_insert; [exact HH2|]. unfold nok; cbn. repeat split; try lia; try assumption. intros m [= <-]. lia.
      * intros m [= <-]. rewrite insert_length. lia.
      * eapply pok_le; [|exact H2]. rewrite insert_length. lia.
    + rewrite aset_in by (unfold zlen; lia). cbn -[Z.to_nat Z.sub]. unfold dok; cbn [d_heap d_pool d_head d_tail]. rewrite insert_length. split; [|split; [exact HP|split]].
      * apply hok_insert; [exact HH|]. unfold nok; cbn -[Z.to_nat Z.sub]. rewrite insert_length. repeat split; try lia; assumption.
      * intros m E. rewrite insert_length. apply (H1 m E).
      * eapply pok_le; [|exact H2]. rewrite insert_length. lia.
  - unfold d_push_back. destruct (d_tail d) as [tl|] eqn:ET; [|destruct (first_ok c d x HD) as (d' & -> & Hd'); exact Hd'].
    destruct (lookup_lt_is_Some_2 _ _ (H2 tl eq_refl)) as [tn Hn]. rewrite Hn. cbn [deref]. cbn -[aset Z.eqb Z.sub chunk]. pose proof (HH _ _ Hn) as (N1 & N2 & N3 & N4 & N5).
    destruct (Z.eqb_spec (dend tn) chunk) as [E0|E0].
    + destruct (pool_get _ _ _ _) as [[n pool] h] eqn:E. destruct (pool_get_ok _ _ _ _ _ _ HH HP E) as (G1 & G2 & G3 & G4).
      destruct (lookup_lt_is_Some_2 h n G2) as [nd Hnd]. rewrite Hnd. cbn [deref]. cbn -[aset Z.eqb Z.sub chunk]. pose proof (G1 _ _ Hnd) as (M1 & M2 & M3 & M4 & M5).
      rewrite aset_in by (unfold zlen; lia). cbn -[chunk Z.to_nat Z.sub].
      set (h2 := <[n := _]> h). assert (HH2 : hok h2).
      { apply hok_insert; [exact G1|]. unfold nok; cbn -[Z.to_nat]. rewrite insert_length. repeat split; try lia; try assumption. intros m [= <-]. specialize (H2 tl eq_refl). lia. }
      assert (L2 : length h2 = length h) by apply insert_length.
      destruct (lookup_lt_is_Some_2 h2 tl) as [tn2 Hn2]; [specialize (H2 tl eq_refl); lia|]. rewrite Hn2. cbn [deref]. cbn. pose proof (HH2 _ _ Hn2) as (K1 & K2 & K3 & K4 & K5).
      unfold dok; cbn [d_heap d_pool d_head d_tail]. rewrite insert_length, L2. split; [|split; [exact G3|split]].
      * apply hok_insert; [exact HH2|]. unfold nok; cbn. repeat split; try lia; try assumption. intros m [= <-]. lia.
      * eapply pok_le; [|exact H1]. rewrite insert_length. lia.
      * intros m [= <-]. rewrite insert_length. lia.
    + unfold chunk in E0. rewrite aset_in by (unfold zlen; lia). cbn -[Z.to_nat Z.add]. unfold dok; cbn [d_heap d_pool d_head d_tail]. rewrite insert_length. split; [|split; [exact HP|split]].
      * apply hok_insert; [exact HH|]. unfold nok; cbn -[Z.to_nat Z.add]. rewrite insert_length. repeat split; try lia; assumption.
      * eapply pok_le; [|exact H1]. rewrite insert_length. lia.
      * intros m E. rewrite insert_length. apply (H2 m E).
  - unfold d_pop_front. destruct (d_head d) as [hd|] eqn:EH; [|exact HD].
    destruct (lookup_lt_is_Some_2 _ _ (H1 hd eq_refl)) as [hn Hn]. rewrite Hn. cbn [deref]. cbn -[aget Z.eqb Z.add]. pose proof (HH _ _ Hn) as (N1 & N2 & N3 & N4 & N5).
    destruct (aget (ddata hn) (dstart hn)) as [x| |] eqn:EG; [|reflexivity|exact (aget_spin _ _ EG)]. cbn -[Z.eqb Z.add].
    assert (L : dstart hn < 64). { unfold aget in EG. destruct (0 <=? dstart hn); [|discriminate]. destruct (_ !! _) eqn:El in EG; [|discriminate]. apply lookup_lt_Some in El. lia. }
    set (h2 := <[hd := _]> (d_heap d)). assert (HH2 : hok h2).
    { apply hok_insert; [exact HH|]. unfold nok; cbn -[Z.add]. repeat split; try lia; assumption. }
    assert (L2 : length h2 = length (d_heap d)) by apply insert_length.
    destruct (Z.eqb_spec (dstart hn + 1) (dend hn)) as [E0|E0].
    + assert (HP2 : Forall (fun n => (n < length (d_heap d))%nat) (d_pool d ++ [hd])) by (apply Forall_app; split; [exact HP|constructor; [exact (H1 hd eq_refl)|constructor]]).
      destruct (dnext hn) as [m|] eqn:En.
      * destruct (lookup_lt_is_Some_2 h2 m) as [mn Hm]; [rewrite L2; apply N4; reflexivity|]. rewrite Hm. cbn [deref]. cbn. pose proof (HH2 _ _ Hm) as (K1 & K2 & K3 & K4 & K5).
        unfold dok; cbn [d_heap d_pool d_head d_tail]. rewrite insert_length, L2. split; [|split; [exact HP2|split]].
        -- apply hok_insert; [exact HH2|]. unfold nok; cbn. repeat split; try lia; try assumption. intros i Ei; discriminate.
        -- intros i [= <-]. rewrite insert_length, L2. apply N4. reflexivity.
        -- eapply pok_le; [|exact H2]. rewrite insert_length. lia.
      * cbn. unfold dok; cbn [d_heap d_pool d_head d_tail]. rewrite L2. split; [exact HH2|]. split; [exact HP2|]. split; [intros i Ei; discriminate|]. eapply pok_le; [|exact H2]. lia.
    + cbn. unfold dok; cbn [d_heap d_pool d_head d_tail]. rewrite L2. split; [exact HH2|]. split; [exact HP|]. split; (eapply pok_le; [|eassumption]; lia).
  - unfold d_pop_back. destruct (d_tail d) as [tl|] eqn:ET; [|exact HD].
    destruct (lookup_lt_is_Some_2 _ _ (H2 tl eq_refl)) as [tn Hn]. rewrite Hn. cbn [deref]. cbn -[aget Z.eqb Z.sub]. pose proof (HH _ _ Hn) as (N1 & N2 & N3 & N4 & N5).
    destruct (aget (ddata tn) (dend tn - 1)) as [x| |] eqn:EG; [|reflexivity|exact (aget_spin _ _ EG)]. cbn -[Z.eqb Z.sub].
    assert (L : 0 <= dend tn - 1). { unfold aget in EG. destruct (Z.leb_spec 0 (dend tn - 1)); [lia|discriminate]. }
    set (h2 := <[tl := _]> (d_heap d)). assert (HH2 : hok h2).
    { apply hok_insert; [exact HH|]. unfold nok; cbn -[Z.sub]. repeat split; try lia; assumption. }
    assert (L2 : length h2 = length (d_heap d)) by apply insert_length.
    destruct (Z.eqb_spec (dstart tn) (dend tn - 1)) as [E0|E0].
    + assert (HP2 : Forall (fun n => (n < length (d_heap d))%nat) (d_pool d ++ [tl])) by (apply Forall_app; split; [exact HP|constructor; [exact (H2 tl eq_refl)|constructor]]).
      destruct (dprev tn) as [m|] eqn:En.
      * destruct (lookup_lt_is_Some_2 h2 m) as [mn Hm]; [rewrite L2; apply N5; reflexivity|]. rewrite Hm. cbn [deref]. cbn. pose proof (HH2 _ _ Hm) as (K1 & K2 & K3 & K4 & K5).
        unfold dok; cbn [d_heap d_pool d_head d_tail]. rewrite insert_length, L2. split; [|split; [exact HP2|split]].
        -- apply hok_insert; [exact HH2|]. unfold nok; cbn. repeat split; try lia; try assumption. intros i Ei; discriminate.
        -- eapply pok_le; [|exact H1]. rewrite insert_length. lia.
        -- intros i [= <-]. rewrite insert_length, L2. apply N5. reflexivity.
      * cbn. unfold dok; cbn [d_heap d_pool d_head d_tail]. rewrite L2. split; [exact HH2|]. split; [exact HP2|]. split; [|intros i Ei; discriminate]. eapply pok_le; [|exact H1]. lia.
    + cbn. unfold dok; cbn [d_heap d_pool d_head d_tail]. rewrite L2. split; [exact HH2|]. split; [exact HP|]. split; (eapply pok_le; [|eassumption]; lia).
  - unfold d_peek_front. destruct (d_head d) as [hd|] eqn:EH; [|exact HD].
    destruct (lookup_lt_is_Some_2 _ _ (H1 hd eq_refl)) as [hn Hn]. rewrite Hn. cbn [deref]. cbn -[aget].
    destruct (aget (ddata hn) (dstart hn)) as [x| |] eqn:EG; [exact HD|reflexivity|exact (aget_spin _ _ EG)].
  - unfold d_peek_back. destruct (d_tail d) as [tl|] eqn:ET; [|exact HD].
    destruct (lookup_lt_is_Some_2 _ _ (H2 tl eq_refl)) as [tn Hn]. rewrite Hn. cbn [deref]. cbn -[aget Z.sub].
    destruct (aget (ddata tn) (dend tn - 1)) as [x| |] eqn:EG; [exact HD|reflexivity|exact (aget_spin _ _ EG)].
Qed.

(** C17: on every history, emptied or not, whatever the pool hands out, a push never panics
    and no call hangs; if a call panics it is a pop or a peek *)
Theorem deque_pushes_never_panic (hist : list (nat * dop A)) :
  let r := run (d_step zero) d_new hist in
  match r.2 with
  | Ret _ => length r.1 = length hist
  | Panic => exists c o, hist !! length r.1 = Some (c, o) /\ match o with PushFront _ | PushBack _ => False | _ => True end
  | Spin => False
  end.
Proof.
  cbn zeta. assert (D0 : dok d_new) by (split; [intros i nd E; destruct i; discriminate|]; split; [constructor|]; split; intros m E; discriminate).
  revert D0. generalize (@d_new A) as d. induction hist as [|o hist IH]; intros d D; [reflexivity|]. cbn [run].
  pose proof (dok_step d o D) as HS. destruct (d_step zero d o) as [[d' r]| |].
  - specialize (IH d' HS). destruct (run (d_step zero) d' hist) as [rs e]. cbn in *. destruct e; auto.
  - cbn. destruct o as [c o]. exists c, o. split; [reflexivity|]. destruct o; cbn in HS; try discriminate HS; exact I.
  - exact HS.
Qed.
End safe.
Print Assumptions deque_pushes_never_panic.
(** both happen: a PopBack that panics, on a deque that was emptied from the front *)
Example deque_panic_case :
  let hist := [(0, PushBack 1); (0, PopFront); (0, PopBack); (0, PopBack); (0, PushBack 2)]%nat in
  run (d_step 0%nat) d_new hist = ([RUnit; RVal (Some 1); RVal (Some 1)]%nat, Panic).
Proof. reflexivity. Qed.
