From Verif Require Import Base SeqSpec LinkedHeap LinkedChain DequeModel DequeSpec DequeProofs DequeSafe DequeUseSpec DequeUseProofs.

Lemma ideal_state_snoc {S O R} (step : S -> O -> S * R) s p o : ideal_state step s (p ++ [o]) = (step (ideal_state step s p) o).1.
Proof. rewrite ideal_state_app. unfold ideal_state at 1. cbn. destruct (step _ o); reflexivity. Qed.

Lemma run_prefix {S A O R} (step : S -> nat * O -> res (S * R)) (istep : A -> O -> A * R) (a0 : A) (Rel : list O -> S -> Prop) (ok : list O -> Prop) :
  (forall pre s c o, Rel pre s -> ok pre -> ok (pre ++ [o]) ->
     exists s', step s (c, o) = Ret (s', (istep (ideal_state istep a0 pre) o).2) /\ Rel (pre ++ [o]) s') ->
  forall hist pre s, Rel pre s -> (forall p q, hist.*2 = p ++ q -> ok (pre ++ p)) ->
  exists s', run step s hist = (ideal_results istep (ideal_state istep a0 pre) hist.*2, Ret s').
Proof.
  intros H. induction hist as [|[c o] hist IH]; intros pre s HR HO; [exists s; reflexivity|]. cbn [fmap list_fmap snd] in *.
  destruct (H pre s c o HR) as (s1 & E1 & R1).
  { specialize (HO [] _ eq_refl). rewrite app_nil_r in HO. exact HO. }
  { exact (HO [o] _ eq_refl). }
  destruct (IH (pre ++ [o]) s1 R1) as (s2 & E2).
  { intros p q E. rewrite <- app_assoc. apply (HO (o :: p) q). cbn. rewrite E. reflexivity. }
  exists s2. cbn [run]. rewrite E1, E2. rewrite ideal_state_snoc. unfold ideal_results. cbn [ideal_run].
  destruct (istep (ideal_state istep a0 pre) o) as [a1 r1]. cbn. destruct (ideal_run istep a1 _). reflexivity.
Qed.

Section P.
Context {A : Type} (zero : A).
Notation heap := (list (dnode A)).

Lemma queue_back_step n d s c o : orel d_head d_tail n d s -> n <= c -> back_to_front o ->
  exists d', d_step zero d (c, o) = Ret (d', (once_step s o).2) /\ orel d_head d_tail (1 + n) d' (once_step s o).1.
Proof.
  intros (HP & HK & HX) Hc Ho.
  assert (G : exists d', d_step zero d (c, o) = Ret (d', (once_step s o).2) /\ (ends d -> ends d') /\
    match (once_step s o).1 with Some [] => d' = d_new | Some l => ends d' /\ drel d' l | None => d_head d' = None /\ is_Some (d_tail d') end).
  { destruct s as [[|x0 xs0]|].
    - subst d. destruct o as [x|x| | | |]; cbn in Ho; try contradiction.
      + destruct (drel_first zero c x) as (d' & E & R). exists d'.
        assert (E' : d_step zero d_new (c, PushBack x) = Ret (d', RUnit)) by (unfold d_step; cbn [snd fst]; unfold d_push_back; cbn [d_tail d_new]; fold (@d_new A); rewrite E; reflexivity).
        assert (HE : ends (@d_new A)) by (split; intros m [=]).
        destruct (ends_step zero d_new c _ d' _ HE ltac:(cbn; lia) E') as [HE' _]. split; [exact E'|]. split; [auto|]. cbn. auto.
      + eexists. split; [reflexivity|]. split; [auto|]. reflexivity.
      + eexists. split; [reflexivity|]. split; [auto|]. reflexivity.
    - destruct HX as [HE HX].
      assert (G : exists d', d_step zero d (c, o) = Ret (d', (once_step (Some (x0 :: xs0)) o).2) /\
        match (once_step (Some (x0 :: xs0)) o).1 with Some [] => False | Some l => drel d' l | None => d_head d' = None /\ is_Some (d_tail d') end).
      { destruct o as [x|x| | | |]; cbn in Ho; try contradiction; unfold d_step; cbn [snd fst once_step deque_step].
        - destruct (push_back_rel zero c d _ x HX) as (d' & -> & R). cbn [rbind]. eexists. split; [reflexivity|]. exact R.
        - cbn [tail head]. destruct xs0 as [|y0 ys0].
          + destruct (pop_front_last d x0 HX HE) as (d' & -> & T & T2 & _ & _). cbn [rbind]. eexists. split; [reflexivity|]. auto.
          + destruct (pop_front_rel d _ HX) as (d' & y' & ys' & [= <- <-] & -> & R).
            cbn [rbind]. eexists. split; [reflexivity|]. apply R. congruence.
        - destruct (peek_front_rel d _ HX) as [_ ->]. cbn [rbind]. eexists. split; [reflexivity|]. exact HX. }
      destruct G as (d' & E & G). exists d'. split; [exact E|]. destruct (ends_step zero d c o d' _ HE ltac:(lia) E) as [HE' _].
      split; [auto|]. destruct (once_step _ o).1 as [[|y ys]|]; [contradiction|auto|exact G].
    - destruct HX as [H1 H2]. destruct (dead_back zero d c o HK H1 H2 Ho) as (d' & E & H1' & H2'). exists d'. split; [exact E|]. split; [|split; assumption].
      intros HE. exact (proj1 (ends_step zero d c o d' _ HE ltac:(lia) E)). }
  destruct G as (d' & E & _ & G). exists d'. split; [exact E|]. pose proof (pool_grows zero _ _ _ _ _ E). split; [lia|]. split; [exact (dok_next zero _ _ _ _ _ HK E)|].
  destruct (once_step s o).1 as [[|y ys]|]; exact G.
Qed.
Lemma queue_front_step n d s c o : orel d_tail d_head n d s -> n <= c -> front_to_back o ->
  exists d', d_step zero d (c, o) = Ret (d', (once_step s o).2) /\ orel d_tail d_head (1 + n) d' (once_step s o).1.
Proof.
  intros (HP & HK & HX) Hc Ho.
  assert (G : exists d', d_step zero d (c, o) = Ret (d', (once_step s o).2) /\
    match (once_step s o).1 with Some [] => d' = d_new | Some l => ends d' /\ drel d' l | None => d_tail d' = None /\ is_Some (d_head d') end).
  { destruct s as [[|x0 xs0]|].
    - subst d. destruct o as [x|x| | | |]; cbn in Ho; try contradiction.
      + destruct (drel_first zero c x) as (d' & E & R). exists d'.
        assert (E' : d_step zero d_new (c, PushFront x) = Ret (d', RUnit)) by (unfold d_step; cbn [snd fst]; unfold d_push_front; cbn [d_head d_new]; fold (@d_new A); rewrite E; reflexivity).
        assert (HE : ends (@d_new A)) by (split; intros m [=]).
        destruct (ends_step zero d_new c _ d' _ HE ltac:(cbn; lia) E') as [HE' _]. split; [exact E'|]. cbn. auto.
      + eexists. split; [reflexivity|]. reflexivity.
      + eexists. split; [reflexivity|]. reflexivity.
    - destruct HX as [HE HX].
      assert (G : exists d', d_step zero d (c, o) = Ret (d', (once_step (Some (x0 :: xs0)) o).2) /\
        match (once_step (Some (x0 :: xs0)) o).1 with Some [] => False | Some l => drel d' l | None => d_tail d' = None /\ is_Some (d_head d') end).
      { set (xs := x0 :: xs0) in *. destruct o as [x|x| | | |]; cbn in Ho; try contradiction; unfold d_step; cbn [snd fst once_step deque_step].
        - destruct (push_front_rel zero c d _ x HX) as (d' & -> & R). cbn [rbind]. eexists. split; [reflexivity|]. subst xs. exact R.
        - destruct (exists_last (l := xs) ltac:(subst xs; discriminate)) as (ys & y & E). rewrite E, take_len_pred, last_snoc. destruct ys as [|y0 ys0].
          + rewrite E in HX. destruct (pop_back_last d y HX HE) as (d' & -> & T & T2 & _ & _). cbn [rbind]. eexists. split; [reflexivity|]. cbn. auto.
          + destruct (pop_back_rel d xs HX) as (d' & y' & ys' & E' & -> & R). assert (ys' = y0 :: ys0 /\ y' = y) as [-> ->].
            { rewrite E in E'. apply (app_inj_tail _ _ _ _) in E' as [<- <-]. auto. }
            cbn [rbind]. eexists. split; [reflexivity|]. cbn. apply R. congruence.
        - rewrite (peek_back_rel d xs HX). cbn [rbind]. eexists. split; [reflexivity|]. subst xs. exact HX. }
      destruct G as (d' & E & G). exists d'. split; [exact E|]. destruct (ends_step zero d c o d' _ HE ltac:(lia) E) as [HE' _].
      destruct (once_step _ o).1 as [[|y ys]|]; [contradiction|auto|exact G].
    - destruct HX as [H1 H2]. destruct (dead_front zero d c o HK H1 H2 Ho) as (d' & E & H1' & H2'). exists d'. split; [exact E|]. split; assumption. }
  destruct G as (d' & E & G). exists d'. split; [exact E|]. pose proof (pool_grows zero _ _ _ _ _ E). split; [lia|]. split; [exact (dok_next zero _ _ _ _ _ HK E)|].
  destruct (once_step s o).1 as [[|y ys]|]; exact G.
Qed.
Lemma orel_new side other : orel side other 0 (@d_new A) (Some []).
Proof. split; [cbn; lia|]. split; [|reflexivity]. split; [intros i nd E; destruct i; discriminate|]. split; [constructor|]. split; intros m [=]. Qed.
Lemma queue_new_nodes (hist : list (nat * dop A)) :
  only_new_nodes hist -> Forall back_to_front hist.*2 \/ Forall front_to_back hist.*2 ->
  exists s', run (d_step zero) d_new hist = (ideal_results once_step (Some []) hist.*2, Ret s').
Proof.
  intros HN [HO|HO].
  - eapply (run_bounded _ _ (orel d_head d_tail) back_to_front); [intros; apply queue_back_step; assumption|apply orel_new|exact HN|exact HO].
  - eapply (run_bounded _ _ (orel d_tail d_head) front_to_back); [intros; apply queue_front_step; assumption|apply orel_new|exact HN|exact HO].
Qed.

(** *** at most 64 before it is first emptied: one node *)
Lemma pushed_snoc (os : list (dop A)) o : pushed (os ++ [o]) = pushed os ++ pushed [o].
Proof. unfold pushed. apply omap_app. Qed.
Definition one (d : deque A) (n : nat) (xs : list A) : Prop :=
  exists data s, d = Deque [DNode data (Z.of_nat s) (Z.of_nat n) None None] [] (Some 0) (Some 0) /\ length data = 64 /\ s < n /\ n <= 64 /\
    xs = drop s (take n data).
Definition qrel1 (pre : list (dop A)) (d : deque A) : Prop :=
  dok d /\
  match ideal_state once_step (Some []) pre with
  | Some [] => d = d_new /\ pushed pre = []
  | Some l => one d (length (pushed pre)) l
  | None => d_head d = None /\ is_Some (d_tail d)
  end.
Lemma small_step pre d c o : qrel1 pre d -> back_to_front o ->
  (ideal_state once_step (Some []) (pre ++ [o]) <> None -> length (pushed (pre ++ [o])) <= 64) ->
  exists d', d_step zero d (c, o) = Ret (d', (once_step (ideal_state once_step (Some []) pre) o).2) /\ qrel1 (pre ++ [o]) d'.
Proof.
  intros [HK HX] Ho HB. unfold qrel1. rewrite ideal_state_snoc in *. rewrite pushed_snoc, app_length in *. set (st := ideal_state once_step (Some []) pre) in *.
  assert (G : exists d', d_step zero d (c, o) = Ret (d', (once_step st o).2) /\
    match (once_step st o).1 with
    | Some [] => d' = d_new /\ pushed pre ++ pushed [o] = []
    | Some l => one d' (length (pushed pre) + length (pushed [o])) l
    | None => d_head d' = None /\ is_Some (d_tail d') end).
  { clearbody st. destruct st as [[|x0 xs0]|].
    - destruct HX as [-> HX]. rewrite HX. destruct o as [x|x| | | |]; cbn in Ho; try contradiction.
      + eexists. split; [reflexivity|]. cbn. exists (x :: replicate 63 zero), 0. split; [reflexivity|]. split; [reflexivity|]. split; [lia|]. split; [lia|]. reflexivity.
      + eexists. split; [reflexivity|]. cbn. auto.
      + eexists. split; [reflexivity|]. cbn. auto.
    - destruct HX as (data & s & -> & L & B1 & B2 & EX). set (n := length (pushed pre)) in *.
      destruct (content_pop_front data s n B1 ltac:(lia)) as (y & Hy & Hc). rewrite <- EX in Hc. injection Hc as <- Hc.
      destruct o as [x|x| | | |]; cbn in Ho; try contradiction; unfold d_step; cbn [snd fst once_step deque_step] in *.
      + specialize (HB ltac:(discriminate)). change (length (pushed [PushBack x])) with 1 in *. unfold d_push_back. cbn [d_tail d_heap lookup list_lookup deref rbind d_pool d_head].
        cbn [dend dstart ddata dnext dprev]. destruct (Z.eqb_spec (Z.of_nat n) chunk) as [E|E]; [unfold chunk in E; lia|].
        rewrite aset_ok by (unfold zlen; lia). cbn [rbind]. eexists. split; [reflexivity|]. exists (<[n := x]> data), s. split.
        * rewrite Nat2Z.id. cbn. do 3 f_equal. lia.
        * rewrite insert_length. split; [exact L|]. split; [lia|]. split; [lia|]. rewrite EX. replace (n + 1) with (S n) by lia. rewrite content_push_back by lia. reflexivity.
      + change (length (pushed [PopFront])) with 0 in *. rewrite Nat.add_0_r. unfold d_pop_front. cbn [d_tail d_heap lookup list_lookup deref rbind d_pool d_head].
        cbn [dend dstart ddata dnext dprev]. rewrite (aget_Some _ _ x0) by (rewrite ?Nat2Z.id; auto; lia). cbn [rbind]. cbv zeta.
        cbn [tail head]. destruct (Z.eqb_spec (Z.of_nat s + 1) (Z.of_nat n)) as [E|E].
        * cbn [rbind]. eexists. split; [reflexivity|]. assert (xs0 = []) as ->.
          { rewrite Hc. apply nil_length_inv. rewrite drop_length, take_length. lia. }
          cbn. eauto.
        * cbn [rbind]. eexists. split; [reflexivity|]. assert (xs0 <> []) as HN.
          { intros ->. apply (f_equal length) in Hc. rewrite drop_length, take_length in Hc. cbn in Hc. lia. }
          destruct xs0 as [|z zs]; [congruence|]. exists data, (S s). split; [cbn; do 3 f_equal; lia|]. split; [exact L|]. split; [lia|]. split; [lia|]. exact Hc.
      + change (length (pushed [PeekFront])) with 0 in *. rewrite Nat.add_0_r. unfold d_peek_front. cbn [d_tail d_heap lookup list_lookup deref rbind d_pool d_head].
        cbn [dend dstart ddata dnext dprev]. rewrite (aget_Some _ _ x0) by (rewrite ?Nat2Z.id; auto; lia). cbn [rbind]. eexists. split; [reflexivity|].
        exists data, s. repeat (split; [auto; lia|]). exact EX.
    - destruct HX as [H1 H2]. destruct (dead_back zero d c o HK H1 H2 Ho) as (d' & E & H1' & H2'). exists d'. split; [exact E|]. split; assumption. }
  destruct G as (d' & E & G). exists d'. split; [exact E|]. split; [exact (dok_next zero _ _ _ _ _ HK E)|]. exact G.
Qed.
Lemma queue_small (hist : list (nat * dop A)) :
  Forall back_to_front hist.*2 -> first_fill_at_most 64 hist.*2 ->
  exists s', run (d_step zero) d_new hist = (ideal_results once_step (Some []) hist.*2, Ret s').
Proof.
  intros HO HF.
  apply (run_prefix (d_step zero) once_step (Some []) qrel1 (fun os => Forall back_to_front os /\ (ideal_state once_step (Some []) os <> None -> length (pushed os) <= 64))) with (pre := []).
  - intros pre s c o HR [_ _] [H1 H2]. apply Forall_app in H1 as [_ H1]. apply Forall_cons in H1 as [H1 _]. apply small_step; assumption.
  - split; [apply (orel_new d_head d_tail)|]. split; reflexivity.
  - cbn [app]. intros p q E. split; [rewrite E in HO; apply Forall_app in HO; tauto|]. intros HN. exact (HF p q E HN).
Qed.

(** *** a stack of at most 64 at the back, or of one at the front *)
Definition lone (h : heap) : Prop := forall i nd, h !! i = Some nd -> length (ddata nd) = 64 /\ dnext nd = None /\ dprev nd = None.
Definition top (side : deque A -> option nat) (d : deque A) (xs : list A) : Prop :=
  lone (d_heap d) /\ Forall (fun n => n < length (d_heap d)) (d_pool d) /\
  match xs with
  | [] => side d = None
  | _ => exists n data, side d = Some n /\ d_heap d !! n = Some (DNode data 0 (Z.of_nat (length xs)) None None) /\ take (length xs) data = xs
  end.
Lemma lone_insert (h : heap) i nd : lone h -> length (ddata nd) = 64 -> dnext nd = None -> dprev nd = None -> lone (<[i := nd]> h).
Proof.
  intros H H1 H2 H3 j x E. destruct (decide (i = j)) as [->|Hn].
  - apply list_lookup_insert_Some in E as [(_ & -> & _)|(? & _)]; [auto|congruence].
  - rewrite list_lookup_insert_ne in E by congruence. exact (H _ _ E).
Qed.
Lemma top_first c (d : deque A) x : lone (d_heap d) -> Forall (fun n => n < length (d_heap d)) (d_pool d) ->
  exists d', d_first zero c d x = Ret d' /\ top d_tail d' [x] /\ top d_head d' [x].
Proof.
  intros HL HP. unfold d_first. destruct (pool_get (dzero zero) c (d_pool d) (d_heap d)) as [[n pool] h] eqn:E.
  assert (G : lone h /\ n < length h /\ Forall (fun n => n < length h) pool).
  { unfold pool_get in E. destruct (d_pool d !! c) as [l|] eqn:El; injection E as <- <- <-.
    - split; [exact HL|]. split; [exact (proj1 (Forall_lookup _ _) HP _ _ El)|apply Forall_delete, HP].
    - rewrite app_length. cbn. split; [|split; [lia|eapply Forall_impl; [exact HP|cbn; lia]]].
      intros i nd Ei. apply lookup_app_Some in Ei as [Ei|[_ Ei]]; [exact (HL _ _ Ei)|]. apply list_lookup_singleton_Some in Ei as [_ <-]. auto. }
  destruct G as (G1 & G2 & G3). destruct (lookup_lt_is_Some_2 h n G2) as [nd Hn]. rewrite Hn. cbn [deref rbind]. destruct (G1 _ _ Hn) as (L64 & N1 & N2).
  rewrite aset_ok by (unfold zlen; lia). cbn [rbind]. eexists. split; [reflexivity|]. rewrite N1, N2.
  assert (lone (<[n:=DNode (<[Z.to_nat 0:=x]> (ddata nd)) 0 1 None None]> h)) by (apply lone_insert; cbn; auto; rewrite insert_length; exact L64).
  assert (Ht : take 1 (<[Z.to_nat 0:=x]> (ddata nd)) = [x]) by (destruct (ddata nd); [cbn in L64; lia|reflexivity]).
  unfold top. cbn [d_heap d_pool d_head d_tail length]. rewrite insert_length.
  split; (split; [assumption|]; split; [exact G3|]; exists n, (<[Z.to_nat 0:=x]> (ddata nd)); split; [reflexivity|]; split; [apply list_lookup_insert, G2|exact Ht]).
Qed.
Lemma top_back_step d xs c o : top d_tail d xs -> at_back o -> length (deque_step xs o).1 <= 64 ->
  exists d', d_step zero d (c, o) = Ret (d', (deque_step xs o).2) /\ top d_tail d' (deque_step xs o).1.
Proof.
  intros (HL & HP & HX) Ho HB. destruct xs as [|x0 xs0].
  - destruct o as [x|x| | | |]; cbn in Ho; try contradiction; unfold d_step; cbn [snd fst deque_step].
    + unfold d_push_back. rewrite HX. destruct (top_first c d x HL HP) as (d' & -> & R & _). cbn [rbind]. eauto.
    + unfold d_pop_back. rewrite HX. cbn [rbind]. eexists. split; [reflexivity|]. cbn. split; auto.
    + unfold d_peek_back. rewrite HX. cbn [rbind]. eexists. split; [reflexivity|]. split; auto.
  - set (xs := x0 :: xs0) in *. destruct HX as (n & data & ET & En & ED). destruct (HL _ _ En) as (L64 & _ & _). cbn [ddata] in L64.
    assert (LX : length xs <= 64) by (rewrite <- ED, take_length; lia). assert (LX0 : 0 < length xs) by (subst xs; cbn; lia).
    pose proof (lookup_lt_Some _ _ _ En) as Ln.
    destruct (exists_last (l := xs) ltac:(subst xs; discriminate)) as (ys & y & E).
    assert (Ly : length xs = S (length ys)) by (rewrite E, app_length; cbn; lia).
    assert (Hy : data !! length ys = Some y).
    { assert (Ht : take (length xs) data !! length ys = Some y) by (rewrite ED, E, lookup_app_r, Nat.sub_diag by lia; reflexivity). rewrite lookup_take in Ht by lia. exact Ht. }
    destruct o as [x|x| | | |]; cbn in Ho; try contradiction; unfold d_step; cbn [snd fst deque_step] in *.
    + rewrite app_length in HB. cbn [length] in HB. unfold d_push_back. rewrite ET, En. cbn [deref rbind ddata dstart dend dnext dprev].
      destruct (Z.eqb_spec (Z.of_nat (length xs)) chunk) as [Ec|Ec]; [unfold chunk in Ec; lia|]. rewrite aset_ok by (unfold zlen; lia). cbn [rbind]. eexists. split; [reflexivity|].
      unfold top. cbn [d_heap d_pool d_head d_tail]. split; [apply lone_insert; cbn; auto; rewrite insert_length; exact L64|]. rewrite insert_length. split; [exact HP|].
      assert (Hm : exists m dat, Some n = Some m /\ (<[n:=DNode (<[Z.to_nat (Z.of_nat (length xs)):=x]> data) 0 (Z.of_nat (length xs) + 1) None None]> (d_heap d)) !! m =
         Some (DNode dat 0 (Z.of_nat (length (xs ++ [x]))) None None) /\ take (length (xs ++ [x])) dat = xs ++ [x]).
      { rewrite Nat2Z.id. exists n, (<[length xs:=x]> data). split; [reflexivity|]. rewrite list_lookup_insert by exact Ln. rewrite app_length. cbn [length]. split; [do 2 f_equal; lia|].
        replace (length xs + 1) with (S (length xs)) by lia. rewrite (take_S_r _ _ x) by (apply list_lookup_insert; lia). rewrite take_insert by lia. rewrite ED. reflexivity. }
      subst xs. exact Hm.
    + rewrite E in HB |- *. rewrite take_len_pred, last_snoc in *. unfold d_pop_back. rewrite ET, En. cbn [deref rbind ddata dstart dend dnext dprev]. cbv zeta.
      rewrite Ly. replace (Z.of_nat (S (length ys)) - 1)%Z with (Z.of_nat (length ys)) by lia.
      rewrite (aget_Some _ _ y) by (rewrite ?Nat2Z.id; auto; lia). cbn [rbind].
      destruct (Z.eqb_spec 0 (Z.of_nat (length ys))) as [Ez|Ez].
      * assert (ys = []) as -> by (apply nil_length_inv; lia). cbn [rbind]. eexists. split; [reflexivity|]. unfold top. cbn [d_heap d_pool d_head d_tail].
        split; [apply lone_insert; cbn; auto|]. rewrite insert_length. split; [|reflexivity]. apply Forall_app. split; [exact HP|]. constructor; [exact Ln|constructor].
      * cbn [rbind]. eexists. split; [reflexivity|]. unfold top. cbn [d_heap d_pool d_head d_tail].
        split; [apply lone_insert; cbn; auto|]. rewrite insert_length. split; [exact HP|].
        assert (Hm : exists m dat, Some n = Some m /\ (<[n:=DNode data 0 (Z.of_nat (length ys)) None None]> (d_heap d)) !! m = Some (DNode dat 0 (Z.of_nat (length ys)) None None) /\ take (length ys) dat = ys).
        { exists n, data. split; [reflexivity|]. split; [apply list_lookup_insert, Ln|]. assert (Ht : take (length ys) (take (length xs) data) = ys) by (rewrite ED, E; apply take_app). rewrite take_take in Ht. rewrite Nat.min_l in Ht by lia. exact Ht. }
        destruct ys; [cbn in Ez; lia|]. exact Hm.
    + rewrite E. rewrite last_snoc. unfold d_peek_back. rewrite ET, En. cbn [deref rbind ddata dstart dend dnext dprev]. rewrite Ly. replace (Z.of_nat (S (length ys)) - 1)%Z with (Z.of_nat (length ys)) by lia.
      rewrite (aget_Some _ _ y) by (rewrite ?Nat2Z.id; auto; lia). cbn [rbind]. eexists. split; [reflexivity|]. rewrite <- E. subst xs. split; [exact HL|]. split; [exact HP|]. eauto.
Qed.
Lemma top_front_step d xs c o : top d_head d xs -> at_front o -> length xs <= 1 -> length (deque_step xs o).1 <= 1 ->
  exists d', d_step zero d (c, o) = Ret (d', (deque_step xs o).2) /\ top d_head d' (deque_step xs o).1.
Proof.
  intros (HL & HP & HX) Ho HB0 HB. destruct xs as [|x0 [|x1 xs]]; [| |cbn in HB0; lia].
  - destruct o as [x|x| | | |]; cbn in Ho; try contradiction; unfold d_step; cbn [snd fst deque_step].
    + unfold d_push_front. rewrite HX. destruct (top_first c d x HL HP) as (d' & -> & _ & R). cbn [rbind]. eauto.
    + unfold d_pop_front. rewrite HX. cbn [rbind]. eexists. split; [reflexivity|]. cbn. split; auto.
    + unfold d_peek_front. rewrite HX. cbn [rbind]. eexists. split; [reflexivity|]. split; auto.
  - destruct HX as (n & data & ET & En & ED). destruct (HL _ _ En) as (L64 & _ & _). cbn [ddata] in L64. cbn [length] in En, ED. pose proof (lookup_lt_Some _ _ _ En) as Ln.
    assert (Hy : data !! 0 = Some x0) by (destruct data; [cbn in L64; lia|injection ED as ->; reflexivity]).
    destruct o as [x|x| | | |]; cbn in Ho; try contradiction; unfold d_step; cbn [snd fst deque_step] in *.
    + cbn in HB. lia.
    + unfold d_pop_front. rewrite ET, En. cbn [deref rbind ddata dstart dend dnext dprev]. rewrite (aget_Some _ _ x0) by (auto; lia). cbn [rbind]. cbv zeta. cbn.
      eexists. split; [reflexivity|]. unfold top. cbn [d_heap d_pool d_head d_tail]. split; [apply lone_insert; cbn; auto|]. rewrite insert_length. split; [|reflexivity]. apply Forall_app. split; [exact HP|]. constructor; [exact Ln|constructor].
    + unfold d_peek_front. rewrite ET, En. cbn [deref rbind ddata dstart dend dnext dprev]. rewrite (aget_Some _ _ x0) by (auto; lia). cbn [rbind]. eexists. split; [reflexivity|]. split; [exact HL|]. split; [exact HP|]. eauto.
Qed.
Lemma stack_small (hist : list (nat * dop A)) :
  (Forall at_back hist.*2 /\ depth_at_most 64 hist.*2) \/ (Forall at_front hist.*2 /\ depth_at_most 1 hist.*2) ->
  exists s', run (d_step zero) d_new hist = (ideal_results deque_step [] hist.*2, Ret s').
Proof.
  intros [[HO HD]|[HO HD]].
  - apply (run_prefix (d_step zero) deque_step [] (fun pre d => top d_tail d (ideal_state deque_step [] pre)) (fun os => Forall at_back os /\ length (ideal_state deque_step [] os) <= 64)) with (pre := []).
    + intros pre s c o HR [_ _] [H1 H2]. rewrite ideal_state_snoc in *. apply Forall_app in H1 as [_ H1]. apply Forall_cons in H1 as [H1 _]. apply top_back_step; assumption.
    + split; [intros i nd E; destruct i; discriminate|]. split; [constructor|reflexivity].
    + cbn [app]. intros p q E. split; [rewrite E in HO; apply Forall_app in HO; tauto|]. exact (HD p q E).
  - apply (run_prefix (d_step zero) deque_step [] (fun pre d => top d_head d (ideal_state deque_step [] pre)) (fun os => Forall at_front os /\ length (ideal_state deque_step [] os) <= 1)) with (pre := []).
    + intros pre s c o HR [_ B] [H1 H2]. rewrite ideal_state_snoc in *. apply Forall_app in H1 as [_ H1]. apply Forall_cons in H1 as [H1 _]. apply top_front_step; assumption.
    + split; [intros i nd E; destruct i; discriminate|]. split; [constructor|reflexivity].
    + cbn [app]. intros p q E. split; [rewrite E in HO; apply Forall_app in HO; tauto|]. exact (HD p q E).
Qed.
End P.
