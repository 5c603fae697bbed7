From Verif Require Import Base SeqSpec LinkedHeap LinkedChain DequeModel DequeSpec DequeProofs DequeSafe DequeUseSpec.

Lemma run_bounded {S A O R} (step : S -> nat * O -> res (S * R)) (istep : A -> O -> A * R) (Rel : nat -> S -> A -> Prop) (ok : O -> Prop) :
  (forall n s a c o, Rel n s a -> n <= c -> ok o -> exists s', step s (c, o) = Ret (s', (istep a o).2) /\ Rel (1 + n) s' (istep a o).1) ->
  forall hist n s a, Rel n s a -> Forall (fun co => n + length hist <= co.1) hist -> Forall ok hist.*2 ->
  exists s', run step s hist = (ideal_results istep a hist.*2, Ret s').
Proof.
  intros H. induction hist as [|[c o] hist IH]; intros n s a HR HB HO; [exists s; reflexivity|].
  apply Forall_cons in HB as [HB1 HB]. cbn [fst length] in HB1. cbn [fmap list_fmap snd] in *. apply Forall_cons in HO as [HO1 HO].
  destruct (H n s a c o HR ltac:(lia) HO1) as (s1 & E1 & R1).
  destruct (IH (1 + n) s1 _ R1) as (s2 & E2).
  { eapply Forall_impl; [exact HB|]. cbn. intros; lia. }
  { exact HO. }
  exists s2. cbn [run]. rewrite E1, E2. unfold ideal_results. cbn [ideal_run]. destruct (istep a o) as [a1 r1]. cbn. destruct (ideal_run istep a1 _). reflexivity.
Qed.

Section P.
Context {A : Type} (zero : A).
Notation heap := (list (dnode A)).

Lemma fresh_get (c : nat) (pool : list nat) (h : heap) : length pool <= c -> pool_get (dzero zero) c pool h = (length h, pool, h ++ [dzero zero]).
Proof. intros H. unfold pool_get. rewrite lookup_ge_None_2 by lia. reflexivity. Qed.

(** nothing hangs on the outer sides of the two end nodes *)
Definition bare (f : dnode A -> option nat) (h : heap) (p : option nat) : Prop :=
  forall n, p = Some n -> exists nd, h !! n = Some nd /\ f nd = None.
Definition ends (d : deque A) : Prop := bare dnext (d_heap d) (d_tail d) /\ bare dprev (d_heap d) (d_head d).

Lemma bare_insert f (h : heap) p i nd : bare f h p -> (p = Some i -> f nd = None) -> bare f (<[i := nd]> h) p.
Proof.
  intros H H1 n E. destruct (H n E) as (x & Hx & Fx). destruct (decide (n = i)) as [->|Hn].
  - exists nd. split; [apply list_lookup_insert; exact (lookup_lt_Some _ _ _ Hx)|auto].
  - exists x. rewrite list_lookup_insert_ne by congruence. auto.
Qed.
Lemma bare_app f (h : heap) p nd : bare f h p -> bare f (h ++ [nd]) p.
Proof. intros H n E. destruct (H n E) as (x & Hx & Fx). exists x. rewrite lookup_app_l by exact (lookup_lt_Some _ _ _ Hx). auto. Qed.
Lemma bare_here f (h : heap) n nd : n < length h -> f nd = None -> bare f (<[n := nd]> h) (Some n).
Proof. intros H F m [= <-]. exists nd. rewrite list_lookup_insert by exact H. auto. Qed.
Lemma bare_none f (h : heap) : bare f h None.
Proof. intros n [=]. Qed.

Lemma look_last (h : heap) (nd : dnode A) : (h ++ [nd]) !! length h = Some nd.
Proof. rewrite lookup_app_r, Nat.sub_diag by lia. reflexivity. Qed.
Lemma aset_64 (l : list A) (i : Z) x r : aset l i x = Ret r -> r = <[Z.to_nat i := x]> l.
Proof. unfold aset. destruct (_ && _)%bool; congruence. Qed.

Lemma ends_step d c o d' r : ends d -> length (d_pool d) <= c -> d_step zero d (c, o) = Ret (d', r) ->
  ends d' /\ length (d_pool d') <= 1 + length (d_pool d).
Proof.
  intros [HT HH] HC. destruct d as [h pool hd tl]. cbn [d_heap d_pool d_head d_tail] in *. unfold d_step; cbn [fst snd].
  assert (HF : forall x, match d_first zero c (Deque h pool hd tl) x with Ret d' => ends d' /\ length (d_pool d') <= 1 + length pool | _ => True end).
  { intros x. unfold d_first. cbn [d_pool d_heap]. rewrite fresh_get by exact HC. rewrite look_last. cbn [deref rbind].
    destruct (aset _ _ _) as [data| |]; cbn [rbind]; auto. unfold ends. cbn [d_heap d_pool d_head d_tail]. split; [|lia].
    split; apply bare_here; try reflexivity; rewrite app_length; cbn; lia. }
  destruct o as [x|x| | | |].
  - unfold d_push_front. cbn [d_head d_heap d_pool d_tail]. destruct hd as [p|].
    + destruct (h !! p) as [hn|] eqn:Ep; cbn [deref rbind]; [|discriminate]. pose proof (lookup_lt_Some _ _ _ Ep) as Lp.
      destruct (dstart hn =? 0)%Z.
      * rewrite fresh_get by exact HC. rewrite look_last. cbn [deref rbind]. destruct (aset _ _ _) as [data| |]; cbn [rbind]; [|discriminate|discriminate].
        rewrite list_lookup_insert_ne, lookup_app_l by lia. rewrite Ep. cbn [deref rbind]. intros [= <- <-].
        unfold ends. cbn [d_heap d_pool d_head d_tail]. split; [|lia]. split.
        -- apply bare_insert; [apply bare_insert; [apply bare_app, HT|]|].
           ++ intros E. destruct (HT _ E) as (y & Hy & _). apply lookup_lt_Some in Hy. lia.
           ++ cbn. intros E. destruct (HT _ E) as (y & Hy & Fy). congruence.
        -- apply bare_insert; [apply bare_here; [rewrite app_length; cbn; lia|reflexivity]|]. intros [= E]. lia.
      * destruct (aset _ _ _) as [data| |]; cbn [rbind]; [|discriminate|discriminate]. intros [= <- <-].
        unfold ends. cbn [d_heap d_pool d_head d_tail]. split; [|lia]. split; (apply bare_insert; [assumption|]); cbn; intros E.
        -- destruct (HT _ E) as (y & Hy & Fy). congruence.
        -- destruct (HH _ E) as (y & Hy & Fy). congruence.
    + specialize (HF x). destruct (d_first _ _ _ _); cbn [rbind]; intros; try discriminate. simplify_eq. exact HF.
  - unfold d_push_back. cbn [d_head d_heap d_pool d_tail]. destruct tl as [p|].
    + destruct (h !! p) as [hn|] eqn:Ep; cbn [deref rbind]; [|discriminate]. pose proof (lookup_lt_Some _ _ _ Ep) as Lp.
      destruct (dend hn =? chunk)%Z.
      * rewrite fresh_get by exact HC. rewrite look_last. cbn [deref rbind]. destruct (aset _ _ _) as [data| |]; cbn [rbind]; [|discriminate|discriminate].
        rewrite list_lookup_insert_ne, lookup_app_l by lia. rewrite Ep. cbn [deref rbind]. intros [= <- <-].
        unfold ends. cbn [d_heap d_pool d_head d_tail]. split; [|lia]. split.
        -- apply bare_insert; [apply bare_here; [rewrite app_length; cbn; lia|reflexivity]|]. intros [= E]. lia.
        -- apply bare_insert; [apply bare_insert; [apply bare_app, HH|]|].
           ++ intros E. destruct (HH _ E) as (y & Hy & _). apply lookup_lt_Some in Hy. lia.
           ++ cbn. intros E. destruct (HH _ E) as (y & Hy & Fy). congruence.
      * destruct (aset _ _ _) as [data| |]; cbn [rbind]; [|discriminate|discriminate]. intros [= <- <-].
        unfold ends. cbn [d_heap d_pool d_head d_tail]. split; [|lia]. split; (apply bare_insert; [assumption|]); cbn; intros E.
        -- destruct (HT _ E) as (y & Hy & Fy). congruence.
        -- destruct (HH _ E) as (y & Hy & Fy). congruence.
    + specialize (HF x). destruct (d_first _ _ _ _); cbn [rbind]; intros; try discriminate. simplify_eq. exact HF.
  - unfold d_pop_front. cbn [d_head d_heap d_pool d_tail]. destruct hd as [p|].
    2:{ cbn [rbind]. intros [= <- <-]. split; [split; assumption|cbn; lia]. }
    destruct (h !! p) as [hn|] eqn:Ep; cbn [deref rbind]; [|discriminate]. pose proof (lookup_lt_Some _ _ _ Ep) as Lp.
    destruct (aget _ _) as [x| |]; cbn [rbind]; [|discriminate|discriminate]. cbv zeta.
    assert (HT' : forall s, bare dnext (<[p:=DNode (ddata hn) s (dend hn) (dnext hn) (dprev hn)]> h) tl).
    { intros s. apply bare_insert; [exact HT|]. cbn. intros E. destruct (HT _ E) as (y & Hy & Fy). congruence. }
    assert (HH' : forall s, bare dprev (<[p:=DNode (ddata hn) s (dend hn) (dnext hn) (dprev hn)]> h) (Some p)).
    { intros s. apply bare_here; [exact Lp|]. cbn. destruct (HH _ eq_refl) as (y & Hy & Fy). congruence. }
    destruct (_ =? _)%Z.
    + destruct (dnext hn) as [m|] eqn:En.
      * destruct (_ !! m) as [mn|] eqn:Em; cbn [deref rbind]; [|discriminate]. intros [= <- <-]. unfold ends. cbn [d_heap d_pool d_head d_tail].
        split; [|rewrite app_length; cbn; lia]. split.
        -- apply bare_insert; [apply HT'|]. cbn. intros E. destruct (HT' (dstart hn + 1)%Z m E) as (y & Hy & Fy). congruence.
        -- apply bare_here; [exact (lookup_lt_Some _ _ _ Em)|reflexivity].
      * cbn [rbind]. intros [= <- <-]. unfold ends. cbn [d_heap d_pool d_head d_tail]. split; [|rewrite app_length; cbn; lia]. split; [apply HT'|apply bare_none].
    + cbn [rbind]. intros [= <- <-]. unfold ends. cbn [d_heap d_pool d_head d_tail]. split; [|lia]. split; [apply HT'|apply HH'].
  - unfold d_pop_back. cbn [d_head d_heap d_pool d_tail]. destruct tl as [p|].
    2:{ cbn [rbind]. intros [= <- <-]. split; [split; assumption|cbn; lia]. }
    destruct (h !! p) as [hn|] eqn:Ep; cbn [deref rbind]; [|discriminate]. pose proof (lookup_lt_Some _ _ _ Ep) as Lp. cbv zeta.
    destruct (aget _ _) as [x| |]; cbn [rbind]; [|discriminate|discriminate].
    assert (HH' : forall s, bare dprev (<[p:=DNode (ddata hn) (dstart hn) s (dnext hn) (dprev hn)]> h) hd).
    { intros s. apply bare_insert; [exact HH|]. cbn. intros E. destruct (HH _ E) as (y & Hy & Fy). congruence. }
    assert (HT' : forall s, bare dnext (<[p:=DNode (ddata hn) (dstart hn) s (dnext hn) (dprev hn)]> h) (Some p)).
    { intros s. apply bare_here; [exact Lp|]. cbn. destruct (HT _ eq_refl) as (y & Hy & Fy). congruence. }
    destruct (_ =? _)%Z.
    + destruct (dprev hn) as [m|] eqn:En.
      * destruct (_ !! m) as [mn|] eqn:Em; cbn [deref rbind]; [|discriminate]. intros [= <- <-]. unfold ends. cbn [d_heap d_pool d_head d_tail].
        split; [|rewrite app_length; cbn; lia]. split.
        -- apply bare_here; [exact (lookup_lt_Some _ _ _ Em)|reflexivity].
        -- apply bare_insert; [apply HH'|]. cbn. intros E. destruct (HH' (dend hn - 1)%Z m E) as (y & Hy & Fy). congruence.
      * cbn [rbind]. intros [= <- <-]. unfold ends. cbn [d_heap d_pool d_head d_tail]. split; [|rewrite app_length; cbn; lia]. split; [apply bare_none|apply HH'].
    + cbn [rbind]. intros [= <- <-]. unfold ends. cbn [d_heap d_pool d_head d_tail]. split; [|lia]. split; [apply HT'|apply HH'].
  - destruct (d_peek_front _) as [v| |]; cbn [rbind]; intros; try discriminate. simplify_eq. split; [split; assumption|cbn; lia].
  - destruct (d_peek_back _) as [v| |]; cbn [rbind]; intros; try discriminate. simplify_eq. split; [split; assumption|cbn; lia].
Qed.

(** *** the pop that empties it *)
Lemma concat_content_1 (ps : list (nat * dnode A)) (x : A) :
  Forall (fun p => wf_node p.2) ps -> Forall (fun p => length (ddata p.2) = 64) ps ->
  [x] = concat ((fun p => content p.2) <$> ps) -> ps <> [] -> exists p nd, ps = [(p, nd)] /\ content nd = [x].
Proof.
  intros HW HL HC HN. destruct ps as [|[p nd] [|[q nq] ps]]; [congruence| |].
  - exists p, nd. cbn in HC. rewrite app_nil_r in HC. auto.
  - exfalso. apply (f_equal length) in HC. cbn [fmap list_fmap concat snd] in HC. rewrite !app_length in HC.
    apply Forall_cons in HW as [W1 HW]. apply Forall_cons in HW as [W2 _]. apply Forall_cons in HL as [L1 HL]. apply Forall_cons in HL as [L2 _]. cbn [snd] in *.
    unfold wf_node, chunk in *. unfold content in HC. rewrite !drop_length, !take_length in HC. cbn [length] in HC. lia.
Qed.
Lemma drel_single (d : deque A) x : drel d [x] -> exists p nd, d_head d = Some p /\ d_tail d = Some p /\ d_heap d !! p = Some nd /\
  own (d_heap d) [p] (d_pool d) /\ wf_heap (d_heap d) /\ (0 <= dstart nd < 64)%Z /\ (dend nd = dstart nd + 1)%Z /\
  ddata nd !! Z.to_nat (dstart nd) = Some x.
Proof.
  intros (ps & Hne & Hat & Ho & Hlk & Hwf & Hh & Hhd & Htl & HC).
  destruct (concat_content_1 ps x Hwf) as (p & nd & -> & Hc); [|exact HC|exact Hne|].
  { eapply Forall_impl; [exact Hat|]. intros [q nq] Hq. cbn in Hq. apply (Hh _ _ Hq). }
  cbn in *. apply Forall_cons in Hat as [Hp _]. apply Forall_cons in Hwf as [Hw _]. cbn in Hp, Hw. destruct (Hh _ _ Hp) as (L64 & _ & _).
  unfold wf_node, chunk in Hw. exists p, nd.
  split; [exact Hhd|]. split; [exact Htl|]. split; [exact Hp|]. split; [exact Ho|]. split; [exact Hh|]. split; [lia|]. split.
  - apply (f_equal length) in Hc. unfold content in Hc. rewrite drop_length, take_length in Hc. cbn in Hc. lia.
  - apply (f_equal (fun l => l !! 0)) in Hc. unfold content in Hc. rewrite lookup_drop, lookup_take in Hc by lia. cbn in Hc. rewrite Nat.add_0_r in Hc. exact Hc.
Qed.
Lemma pop_front_last (d : deque A) x : drel d [x] -> ends d -> exists d', d_pop_front d = Ret (d', Some x) /\ d_head d' = None /\ is_Some (d_tail d') /\
  own (d_heap d') [] (d_pool d') /\ wf_heap (d_heap d').
Proof.
  intros HD [HT HH]. destruct (drel_single d x HD) as (p & nd & E1 & E2 & Ep & Ho & Hh & B1 & B2 & Hx).
  destruct d as [h pool hd tl]. cbn [d_heap d_pool d_head d_tail] in *. subst hd tl. unfold d_pop_front. cbn [d_heap d_pool d_head d_tail].
  rewrite Ep. cbn [deref rbind]. rewrite (aget_Some _ _ x) by (auto; lia). cbn [rbind]. cbv zeta. rewrite (proj2 (Z.eqb_eq _ _)) by lia.
  destruct (HT p eq_refl) as (y & Hy & Fy). assert (y = nd) by congruence. subst y. rewrite Fy. eexists. split; [reflexivity|]. cbn [d_heap d_pool d_head d_tail].
  split; [reflexivity|]. split; [eauto|]. destruct (Hh _ _ Ep) as (L64 & An & Ap). split.
  - apply (own_resize h); [rewrite insert_length; lia|]. apply own_release, Ho.
  - apply wf_heap_insert; cbn; rewrite ?Fy in *; auto.
Qed.
Lemma pop_back_last (d : deque A) x : drel d [x] -> ends d -> exists d', d_pop_back d = Ret (d', Some x) /\ d_tail d' = None /\ is_Some (d_head d') /\
  own (d_heap d') [] (d_pool d') /\ wf_heap (d_heap d').
Proof.
  intros HD [HT HH]. destruct (drel_single d x HD) as (p & nd & E1 & E2 & Ep & Ho & Hh & B1 & B2 & Hx).
  destruct d as [h pool hd tl]. cbn [d_heap d_pool d_head d_tail] in *. subst hd tl. unfold d_pop_back. cbn [d_heap d_pool d_head d_tail].
  rewrite Ep. cbn [deref rbind]. cbv zeta. replace (dend nd - 1)%Z with (dstart nd) by lia. rewrite (aget_Some _ _ x) by (auto; lia). cbn [rbind]. rewrite Z.eqb_refl.
  destruct (HH p eq_refl) as (y & Hy & Fy). assert (y = nd) by congruence. subst y. rewrite Fy. eexists. split; [reflexivity|]. cbn [d_heap d_pool d_head d_tail].
  split; [reflexivity|]. split; [eauto|]. destruct (Hh _ _ Ep) as (L64 & An & Ap). split.
  - apply (own_resize h); [rewrite insert_length; lia|]. apply own_release, Ho.
  - apply wf_heap_insert; cbn; rewrite ?Fy in *; auto.
Qed.

(** *** the first node, in a deque that was used before *)
Lemma first_again c (d : deque A) x : own (d_heap d) [] (d_pool d) -> wf_heap (d_heap d) -> length (d_pool d) <= c ->
  exists d', d_first zero c d x = Ret d' /\ drel d' [x].
Proof.
  intros Ho Hh HC. unfold d_first. destruct (pool_get (dzero zero) c (d_pool d) (d_heap d)) as [[n pool] h] eqn:E.
  destruct (pool_get_d zero _ _ _ _ _ _ _ E Ho Hh) as (_ & Ho' & Hh' & _ & [nd Hn] & _). rewrite Hn. cbn [deref rbind].
  destruct (Hh' _ _ Hn) as (L64 & An & Ap). rewrite aset_ok by (unfold zlen; lia). cbn [rbind]. eexists. split; [reflexivity|].
  eexists [(n, _)]. cbn [d_heap d_pool d_head d_tail fmap list_fmap fst snd head last]. pose proof (lookup_lt_Some _ _ _ Hn) as Ln.
  split; [congruence|]. split; [constructor; [cbn; apply list_lookup_insert, Ln|constructor]|].
  split; [apply (own_resize h); [rewrite insert_length; lia|exact Ho']|]. split; [exact I|].
  split; [constructor; [unfold wf_node, chunk; cbn; lia|constructor]|].
  split; [apply wf_heap_insert; cbn; auto; rewrite insert_length; exact L64|]. split; [reflexivity|]. split; [reflexivity|].
  cbn [concat]. rewrite app_nil_r. unfold content. cbn [dstart dend ddata]. change (Z.to_nat 0) with 0. change (Z.to_nat 1) with 1.
  destruct (ddata nd) as [|y l]; [cbn in L64; lia|]. reflexivity.
Qed.

(** *** as a stack, with new nodes *)
Definition srel (side : deque A -> option nat) (n : nat) (d : deque A) (xs : list A) : Prop :=
  ends d /\ length (d_pool d) <= n /\
  match xs with
  | [] => side d = None /\ own (d_heap d) [] (d_pool d) /\ wf_heap (d_heap d)
  | _ => drel d xs
  end.
Lemma back_step n d xs c o : srel d_tail n d xs -> n <= c -> at_back o ->
  exists d', d_step zero d (c, o) = Ret (d', (deque_step xs o).2) /\ srel d_tail (1 + n) d' (deque_step xs o).1.
Proof.
  intros (HE & HP & HX) Hc Ho.
  assert (G : exists d', d_step zero d (c, o) = Ret (d', (deque_step xs o).2) /\
    match (deque_step xs o).1 with [] => d_tail d' = None /\ own (d_heap d') [] (d_pool d') /\ wf_heap (d_heap d') | ys => drel d' ys end).
  { destruct xs as [|x0 xs0].
    - destruct HX as (H1 & H2 & H3). destruct o as [x|x| | | |]; cbn in Ho; try contradiction; unfold d_step; cbn [snd fst deque_step].
      + unfold d_push_back. rewrite H1. destruct (first_again c d x H2 H3 ltac:(lia)) as (d' & -> & R). cbn [rbind]. eauto.
      + unfold d_pop_back. rewrite H1. cbn [rbind]. eexists. split; [reflexivity|]. cbn. auto.
      + unfold d_peek_back. rewrite H1. cbn [rbind]. eexists. split; [reflexivity|]. auto.
    - set (xs := x0 :: xs0) in *. destruct o as [x|x| | | |]; cbn in Ho; try contradiction; unfold d_step; cbn [snd fst deque_step].
      + destruct (push_back_rel zero c d xs x HX) as (d' & -> & R). cbn [rbind]. eexists. split; [reflexivity|]. subst xs. exact R.
      + destruct (exists_last (l := xs) ltac:(subst xs; discriminate)) as (ys & y & E).
        * rewrite E, take_len_pred, last_snoc. destruct ys as [|y0 ys0].
          -- rewrite E in HX. destruct (pop_back_last d y HX HE) as (d' & -> & T & _ & O & W). cbn [rbind]. eexists. split; [reflexivity|]. auto.
          -- destruct (pop_back_rel d xs HX) as (d' & y' & ys' & E' & -> & R). assert (ys' = y0 :: ys0 /\ y' = y) as [-> ->].
             { rewrite E in E'. apply (app_inj_tail _ _ _ _) in E' as [<- <-]. auto. }
             cbn [rbind]. eexists. split; [reflexivity|]. apply R. congruence.
      + rewrite (peek_back_rel d xs HX). cbn [rbind]. eexists. split; [reflexivity|]. subst xs. exact HX. }
  destruct G as (d' & E & G). exists d'. split; [exact E|]. destruct (ends_step d c o d' _ HE ltac:(lia) E) as [HE' HP'].
  split; [exact HE'|]. split; [lia|]. destruct (deque_step xs o).1; exact G.
Qed.
Lemma front_step n d xs c o : srel d_head n d xs -> n <= c -> at_front o ->
  exists d', d_step zero d (c, o) = Ret (d', (deque_step xs o).2) /\ srel d_head (1 + n) d' (deque_step xs o).1.
Proof.
  intros (HE & HP & HX) Hc Ho.
  assert (G : exists d', d_step zero d (c, o) = Ret (d', (deque_step xs o).2) /\
    match (deque_step xs o).1 with [] => d_head d' = None /\ own (d_heap d') [] (d_pool d') /\ wf_heap (d_heap d') | ys => drel d' ys end).
  { destruct xs as [|x0 xs0].
    - destruct HX as (H1 & H2 & H3). destruct o as [x|x| | | |]; cbn in Ho; try contradiction; unfold d_step; cbn [snd fst deque_step].
      + unfold d_push_front. rewrite H1. destruct (first_again c d x H2 H3 ltac:(lia)) as (d' & -> & R). cbn [rbind]. eauto.
      + unfold d_pop_front. rewrite H1. cbn [rbind]. eexists. split; [reflexivity|]. cbn. auto.
      + unfold d_peek_front. rewrite H1. cbn [rbind]. eexists. split; [reflexivity|]. auto.
    - destruct o as [x|x| | | |]; cbn in Ho; try contradiction; unfold d_step; cbn [snd fst deque_step].
      + destruct (push_front_rel zero c d _ x HX) as (d' & -> & R). cbn [rbind]. eexists. split; [reflexivity|]. exact R.
      + cbn [tail head]. destruct xs0 as [|y0 ys0].
        * destruct (pop_front_last d x0 HX HE) as (d' & -> & T & _ & O & W). cbn [rbind]. eexists. split; [reflexivity|]. auto.
        * destruct (pop_front_rel d _ HX) as (d' & y' & ys' & [= <- <-] & -> & R).
          cbn [rbind]. eexists. split; [reflexivity|]. apply R. congruence.
      + destruct (peek_front_rel d _ HX) as [_ ->]. cbn [rbind]. eexists. split; [reflexivity|]. exact HX. }
  destruct G as (d' & E & G). exists d'. split; [exact E|]. destruct (ends_step d c o d' _ HE ltac:(lia) E) as [HE' HP'].
  split; [exact HE'|]. split; [lia|]. destruct (deque_step xs o).1; exact G.
Qed.
Lemma srel_new side : side (@d_new A) = None -> srel side 0 d_new [].
Proof.
  intros H. split; [split; apply bare_none|]. split; [cbn; lia|]. split; [exact H|]. split; [split; constructor|]. intros i nd E. destruct i; discriminate.
Qed.
Lemma stack_new_nodes (hist : list (nat * dop A)) :
  only_new_nodes hist -> Forall at_back hist.*2 \/ Forall at_front hist.*2 ->
  exists s', run (d_step zero) d_new hist = (ideal_results deque_step [] hist.*2, Ret s').
Proof.
  intros HN [HO|HO].
  - eapply (run_bounded _ _ (srel d_tail) at_back); [intros; apply back_step; assumption|apply srel_new; reflexivity|exact HN|exact HO].
  - eapply (run_bounded _ _ (srel d_head) at_front); [intros; apply front_step; assumption|apply srel_new; reflexivity|exact HN|exact HO].
Qed.

(** *** as a queue, with new nodes *)
Definition orel (side other : deque A -> option nat) (n : nat) (d : deque A) (s : option (list A)) : Prop :=
  length (d_pool d) <= n /\ dok d /\
  match s with
  | Some [] => d = d_new
  | Some l => ends d /\ drel d l
  | None => side d = None /\ is_Some (other d)
  end.
Lemma dok_next d c o d' r : dok d -> d_step zero d (c, o) = Ret (d', r) -> dok d'.
Proof. intros H E. pose proof (dok_step zero d (c, o) H) as G. rewrite E in G. exact G. Qed.
Lemma pool_grows d c o d' r : d_step zero d (c, o) = Ret (d', r) -> length (d_pool d') <= 1 + length (d_pool d).
Proof.
  assert (HG : forall n pool h, pool_get (dzero zero) c (d_pool d) (d_heap d) = (n, pool, h) -> length pool <= length (d_pool d)).
  { intros n pool h. unfold pool_get. destruct (d_pool d !! c) as [l|] eqn:E; intros [= <- <- <-]; [|lia]. rewrite length_delete; [lia|eauto]. }
  assert (HF : forall x, match d_first zero c d x with Ret d' => length (d_pool d') <= 1 + length (d_pool d) | _ => True end).
  { intros x. unfold d_first. destruct (pool_get _ _ _ _) as [[n pool] h] eqn:E. destruct (h !! n); cbn [deref rbind]; auto.
    destruct (aset _ _ _); cbn [rbind]; auto. specialize (HG _ _ _ eq_refl). cbn. lia. }
  unfold d_step. cbn [fst snd]. intros H. destruct o as [x|x| | | |].
  - unfold d_push_front in H. specialize (HF x). destruct (d_head d) as [p|]; [|destruct (d_first _ _ _ _); cbn in H; simplify_eq; exact HF].
    destruct (d_heap d !! p); cbn [deref rbind] in H; [|discriminate]. destruct (_ =? _)%Z.
    + destruct (pool_get _ _ _ _) as [[n pool] h] eqn:E. specialize (HG _ _ _ eq_refl). destruct (h !! n); cbn [deref rbind] in H; [|discriminate].
      destruct (aset _ _ _); cbn [rbind] in H; try discriminate. destruct (_ !! p); cbn [deref rbind] in H; simplify_eq. cbn. lia.
    + cbv zeta in H. destruct (aset _ _ _); cbn [rbind] in H; simplify_eq. cbn. lia.
  - unfold d_push_back in H. specialize (HF x). destruct (d_tail d) as [p|]; [|destruct (d_first _ _ _ _); cbn in H; simplify_eq; exact HF].
    destruct (d_heap d !! p); cbn [deref rbind] in H; [|discriminate]. destruct (_ =? _)%Z.
    + destruct (pool_get _ _ _ _) as [[n pool] h] eqn:E. specialize (HG _ _ _ eq_refl). destruct (h !! n); cbn [deref rbind] in H; [|discriminate].
      destruct (aset _ _ _); cbn [rbind] in H; try discriminate. destruct (_ !! p); cbn [deref rbind] in H; simplify_eq. cbn. lia.
    + destruct (aset _ _ _); cbn [rbind] in H; simplify_eq. cbn. lia.
  - unfold d_pop_front in H. destruct (d_head d) as [p|]; [|cbn in H; simplify_eq; lia].
    destruct (d_heap d !! p); cbn [deref rbind] in H; [|discriminate]. destruct (aget _ _); cbn [rbind] in H; try discriminate. cbv zeta in H. destruct (_ =? _)%Z.
    + destruct (dnext _); [destruct (_ !! _); cbn [deref rbind] in H|cbn [rbind] in H]; simplify_eq; cbn; rewrite app_length; cbn; lia.
    + cbn [rbind] in H. simplify_eq. cbn. lia.
  - unfold d_pop_back in H. destruct (d_tail d) as [p|]; [|cbn in H; simplify_eq; lia].
    destruct (d_heap d !! p); cbn [deref rbind] in H; [|discriminate]. cbv zeta in H. destruct (aget _ _); cbn [rbind] in H; try discriminate. destruct (_ =? _)%Z.
    + destruct (dprev _); [destruct (_ !! _); cbn [deref rbind] in H|cbn [rbind] in H]; simplify_eq; cbn; rewrite app_length; cbn; lia.
    + cbn [rbind] in H. simplify_eq. cbn. lia.
  - destruct (d_peek_front _); cbn [rbind] in H; simplify_eq. lia.
  - destruct (d_peek_back _); cbn [rbind] in H; simplify_eq. lia.
Qed.
Lemma dead_back d c o : dok d -> d_head d = None -> is_Some (d_tail d) -> back_to_front o ->
  exists d', d_step zero d (c, o) = Ret (d', (once_step None o).2) /\ d_head d' = None /\ is_Some (d_tail d').
Proof.
  intros HK H1 [t H2] Ho. pose proof (dok_step zero d (c, o) HK) as G. destruct o as [x|x| | | |]; cbn in Ho; try contradiction; unfold d_step in *; cbn [fst snd once_step deque_step] in *.
  - unfold d_push_back in *. rewrite H2 in *. destruct (d_heap d !! t) as [tn|]; cbn [deref rbind] in *; [|discriminate]. destruct (_ =? _)%Z.
    + destruct (pool_get _ _ _ _) as [[n pool] h]. destruct (h !! n); cbn [deref rbind] in *; [|discriminate].
      destruct (aset _ _ _); cbn [rbind] in *; [|discriminate|contradiction]. destruct (_ !! t); cbn [deref rbind] in *; [|discriminate].
      eexists. split; [reflexivity|]. cbn. eauto.
    + destruct (aset _ _ _); cbn [rbind] in *; [|discriminate|contradiction]. eexists. split; [reflexivity|]. cbn. eauto.
  - unfold d_pop_front. rewrite H1. cbn [rbind]. eexists. split; [reflexivity|]. eauto.
  - unfold d_peek_front. rewrite H1. cbn [rbind]. eexists. split; [reflexivity|]. eauto.
Qed.
Lemma dead_front d c o : dok d -> d_tail d = None -> is_Some (d_head d) -> front_to_back o ->
  exists d', d_step zero d (c, o) = Ret (d', (once_step None o).2) /\ d_tail d' = None /\ is_Some (d_head d').
Proof.
  intros HK H1 [t H2] Ho. pose proof (dok_step zero d (c, o) HK) as G. destruct o as [x|x| | | |]; cbn in Ho; try contradiction; unfold d_step in *; cbn [fst snd once_step deque_step] in *.
  - unfold d_push_front in *. rewrite H2 in *. destruct (d_heap d !! t) as [tn|]; cbn [deref rbind] in *; [|discriminate]. destruct (_ =? _)%Z.
    + destruct (pool_get _ _ _ _) as [[n pool] h]. destruct (h !! n); cbn [deref rbind] in *; [|discriminate].
      destruct (aset _ _ _); cbn [rbind] in *; [|discriminate|contradiction]. destruct (_ !! t); cbn [deref rbind] in *; [|discriminate].
      eexists. split; [reflexivity|]. cbn. eauto.
    + cbv zeta in *. destruct (aset _ _ _); cbn [rbind] in *; [|discriminate|contradiction]. eexists. split; [reflexivity|]. cbn. eauto.
  - unfold d_pop_back. rewrite H1. cbn [rbind]. eexists. split; [reflexivity|]. eauto.
  - unfold d_peek_back. rewrite H1. cbn [rbind]. eexists. split; [reflexivity|]. eauto.
Qed.
End P.
