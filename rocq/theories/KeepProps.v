(** What containers keep of the elements that were removed from them (C183). *)
From Verif Require Import Base SplitMixModel SklSpec SklModel SklProofs SklRefine SklLevelProofs SklReachProofs SklProps SeqSpec RingSpec RingModel RingProofs SliceStackSpec GoSlice SliceStackModel.
From Coq Require Import Sorting.Sorted.

(** *** SkipListMap *)
(** what node x holds *)
Definition holds {K V} (h : list (sknode K V)) (x : nat) (e : K * V) : Prop := exists nd, h !! x = Some nd /\ (sk_key nd, sk_value nd) = e.
Section Skl.
Context {K V : Type} (zeroK : K) (zeroV : V) (ltb eqb : K -> K -> bool) (showK : K -> list Z) (showV : V -> list Z).
Context (SWO : strict_weak_order ltb eqb).
Notation step := (m_step zeroK zeroV ltb eqb showK showV).
Notation istep := (map_step ltb eqb showK showV).
Notation ideal hist := (sorted_entries ltb (ideal_state istep [] hist.*2)).

Lemma holds_ent (h : list (sknode K V)) x : x < length h -> holds h x (ent zeroK zeroV h x).
Proof. intros Hx. destruct (deref_node zeroK zeroV h x Hx) as (nd & E & Ek & Ev & _). exists nd. split; [exact E|]. unfold ent. rewrite Ek, Ev. reflexivity. Qed.
Lemma ent_holds (h : list (sknode K V)) x e : holds h x e -> ent zeroK zeroV h x = e.
Proof. intros (nd & E & <-). unfold ent, ky, vl. rewrite E. reflexivity. Qed.

Lemma keep_run seed hist : exists s locs, run step (skl_new zeroK zeroV seed) hist = (ideal_results istep [] hist.*2, Ret s) /\ Inv zeroK ltb s locs /\ Up zeroK zeroV s /\
  ideal hist = ent zeroK zeroV (s_heap s) <$> locs.
Proof using SWO.
  destruct (skl_refines_rel zeroK zeroV ltb eqb showK showV SWO seed hist) as (s & E & (locs & I & HP)). exists s, locs. split; [exact E|]. split; [exact I|]. split.
  - eapply (up_run zeroK zeroV ltb eqb showK showV SWO hist); [apply rel_new| |exact E]. apply up_new. intros x i. unfold hg. rewrite lookup_nil. lia.
  - exact (rel_entries zeroK zeroV ltb eqb SWO s locs _ I HP).
Qed.

(** After any history, from the map one reaches exactly its two sentinels, which hold zero
    values, and one node for each key that is present: what has been deleted, overwritten
    or cleared can be collected. *)
Theorem skiplist_keeps_nothing seed hist : exists s locs, (run step (skl_new zeroK zeroV seed) hist).2 = Ret s /\
  NoDup locs /\ Forall2 (holds (s_heap s)) locs (ideal hist) /\
  (forall x, reachable (s_heap s) [s_head s; s_tail s] x <-> x = s_head s \/ x = s_tail s \/ x ∈ locs) /\
  holds (s_heap s) (s_head s) (zeroK, zeroV) /\ holds (s_heap s) (s_tail s) (zeroK, zeroV).
Proof using SWO.
  destruct (keep_run seed hist) as (s & locs & E & I & U & Em). exists s, locs. rewrite E. split; [reflexivity|].
  pose proof (inv_nodup _ _ _ _ I) as N. apply NoDup_cons in N as [N1 N2]. apply NoDup_cons in N2 as [N2 N3].
  pose proof (inv_alloc _ _ _ _ I) as A. apply Forall_cons in A as [A1 A]. apply Forall_cons in A as [A2 A].
  split; [exact N3|]. split; [|split; [|split]].
  - rewrite Em. clear Em N2 N1 N3 I. induction A as [|x l Hx Hl IH]; constructor; [apply holds_ent; exact Hx|apply IH].
  - intros x. rewrite (reach_locs zeroK zeroV ltb showK showV s locs I U x), !elem_of_cons. reflexivity.
  - rewrite <- (proj1 (up_zero _ _ _ U)). apply holds_ent. exact A1.
  - rewrite <- (proj2 (up_zero _ _ _ U)). apply holds_ent. exact A2.
Qed.

(** "nor does an Iterator that was rewound keep anything": false.  Seek fills the array ctx of
    the Iterator (sklmapx.go 195, 200), which Rewind leaves alone: whatever the map and the
    key, ctx[0] is the node of the greatest smaller key, and still holds its key and value
    when all keys have been deleted and the map no longer reaches it. *)
Lemma del_keeps s locs ks : Inv zeroK ltb s locs -> exists rs s2 locs2, run step s ks = (rs, Ret s2) /\ Inv zeroK ltb s2 locs2 /\
  (Forall (fun o => exists k, o.2 = MDel k) ks -> s_head s2 = s_head s /\ s_tail s2 = s_tail s /\ length (s_heap s2) = length (s_heap s) /\ forall y, ent zeroK zeroV (s_heap s2) y = ent zeroK zeroV (s_heap s) y).
Proof using SWO.
  revert s locs. induction ks as [|[c o] ks IH]; intros s locs I.
  - exists [], s, locs. split; [reflexivity|]. split; [exact I|]. auto.
  - assert (R : Rel zeroK zeroV ltb s (ent zeroK zeroV (s_heap s) <$> locs)) by (exists locs; auto).
    destruct (rel_step zeroK zeroV ltb eqb showK showV SWO s _ c o R) as (s1 & E & locs1 & I1 & _).
    destruct (IH s1 locs1 I1) as (rs & s2 & locs2 & E2 & I2 & H2). cbn [run]. rewrite E, E2. eexists _, s2, locs2. split; [reflexivity|]. split; [exact I2|].
    intros F. apply Forall_cons in F as [[k Hk] F]. cbn in Hk. subst o. destruct (H2 F) as (-> & -> & -> & HE).
    destruct (split_at_key zeroK ltb eqb SWO (s_heap s) k locs (inv_sorted _ _ _ _ I)) as (L & R' & -> & HL & HR).
    pose proof (delete_inv zeroK zeroV ltb eqb s k L R' I HL HR) as Hd. cbn [m_step fst snd] in E.
    destruct (found zeroK eqb s k R') as [x|].
    + destruct Hd as (R2 & s3 & _ & E3 & H3 & H4 & _ & H5 & _ & H6). rewrite E3 in E. cbn in E. injection E as -> _. rewrite H3, H4, H5. repeat split. intros y. rewrite HE. apply H6.
    + rewrite Hd in E. cbn in E. injection E as -> _. auto.
Qed.
Theorem iterator_keeps_refuted seed hist k dels : Forall (fun o => exists k, o.2 = MDel k) dels -> ideal (hist ++ dels) = [] ->
  forall e, last (filter (fun e : K * V => ltb e.1 k = true) (ideal hist)) = Some e ->
  exists s f ctx n s2, (run step (skl_new zeroK zeroV seed) hist).2 = Ret s /\ sk_search ltb eqb s k = Ret (f, ctx) /\ ctx !! 0 = Some n /\
    (run step s dels).2 = Ret s2 /\ holds (s_heap s2) n e /\ ~ reachable (s_heap s2) [s_head s2; s_tail s2] n.
Proof using SWO.
  intros HD HE e He. destruct (keep_run seed hist) as (s & locs & E & I & U & Em).
  destruct (split_at_key zeroK ltb eqb SWO (s_heap s) k locs (inv_sorted _ _ _ _ I)) as (L & R & -> & HL & HR).
  destruct (search_spec zeroK zeroV ltb eqb s k L R I HL HR) as (ctx & Es & HC1 & HC2).
  assert (Hh : Forall (fun l => 1 <= hg (s_heap s) l <= 16) L) by (pose proof (inv_hg _ _ _ _ I) as H; apply Forall_app in H; tauto).
  assert (EL : filter (fun e : K * V => ltb e.1 k = true) (ideal hist) = ent zeroK zeroV (s_heap s) <$> L).
  { rewrite Em, fmap_app, filter_app.
    assert (F1 : forall l, Forall (fun y => ltb (ky zeroK (s_heap s) y) k = true) l -> filter (fun e : K * V => ltb e.1 k = true) (ent zeroK zeroV (s_heap s) <$> l) = ent zeroK zeroV (s_heap s) <$> l).
    { intros l Hl. induction Hl as [|x l Hx Hl IH]; [reflexivity|]. rewrite fmap_cons, filter_cons_True by exact Hx. rewrite IH. reflexivity. }
    assert (F2 : forall l, Forall (fun y => ltb (ky zeroK (s_heap s) y) k = false) l -> filter (fun e : K * V => ltb e.1 k = true) (ent zeroK zeroV (s_heap s) <$> l) = []).
    { intros l Hl. induction Hl as [|x l Hx Hl IH]; [reflexivity|]. rewrite fmap_cons, filter_cons_False by (cbn; congruence). exact IH. }
    rewrite F1, F2 by assumption. apply app_nil_r. }
  rewrite EL, fmap_last in He. destruct (last L) as [n|] eqn:EN; [|discriminate]. cbn in He. injection He as He.
  destruct (del_keeps s (L ++ R) dels I) as (rs2 & s2 & locs2 & E2 & I2 & H2). destruct (H2 HD) as (Hh2 & Ht2 & Hl2 & He2).
  assert (Hn : n ∈ L ++ R) by (apply elem_of_app; left; apply last_Some in EN as [l' ->]; apply elem_of_app; right; constructor).
  exists s, (found zeroK eqb s k R), ctx, n, s2. rewrite E. split; [reflexivity|]. split; [exact Es|]. split.
  { rewrite HC2 by lia. rewrite lv_0 by exact Hh. unfold last_or. rewrite EN. reflexivity. }
  rewrite E2. split; [reflexivity|]. split.
  { rewrite <- He, <- He2. apply holds_ent. rewrite Hl2. eapply inv_elem_bound; [exact I|]. do 2 apply elem_of_list_further. exact Hn. }
  assert (RR : run step (skl_new zeroK zeroV seed) (hist ++ dels) = (ideal_results istep [] hist.*2 ++ rs2, Ret s2)).
  { generalize dependent (skl_new zeroK zeroV seed). generalize (ideal_results istep [] hist.*2). clear -E2. induction hist as [|o hist IH]; intros l s0 E; cbn [run app] in *; [injection E as <- ->; rewrite E2; reflexivity|].
    destruct (step s0 o) as [[s1 r]| |]; [|discriminate..]. destruct (run step s1 hist) as [rs1 e1] eqn:E1. injection E as <- ->. rewrite (IH _ _ E1). reflexivity. }
  destruct (keep_run seed (hist ++ dels)) as (s3 & locs3 & E3 & I3 & U3 & Em3). rewrite RR in E3. injection E3 as _ <-.
  rewrite HE in Em3. destruct locs3; [|discriminate].
  rewrite (reach_locs zeroK zeroV ltb showK showV s2 [] I3 U3 n). rewrite Hh2, Ht2. pose proof (inv_nodup _ _ _ _ I) as N. apply NoDup_cons in N as [N1 N2]. apply NoDup_cons in N2 as [N2 _].
  rewrite !elem_of_cons, elem_of_nil. rewrite elem_of_cons in N1. intros [->|[->|[]]]; tauto.
Qed.
End Skl.
Print Assumptions skiplist_keeps_nothing.
Print Assumptions iterator_keeps_refuted.

(** the hypotheses of iterator_keeps_refuted are met: Set 1, Set 2, Seek 2, Del 1, Del 2 *)
Example iterator_keeps_case : let hist := [(0, MSet 1 10); (0, MSet 2 20)]%Z in let dels := [(0, MDel 1); (0, MDel 2)]%Z in
  let istep := map_step (V := Z) Z.ltb Z.eqb (fun _ => []) (fun _ => []) in
  Forall (fun o : Z * mop Z Z => exists k, o.2 = MDel k) dels /\ sorted_entries Z.ltb (ideal_state istep [] (hist ++ dels).*2) = [] /\
  last (filter (fun e : Z * Z => (e.1 <? 2)%Z = true) (sorted_entries Z.ltb (ideal_state istep [] hist.*2))) = Some (1, 10)%Z.
Proof. split; [|split; [vm_compute; reflexivity|vm_compute; reflexivity]]. repeat constructor; eexists; reflexivity. Qed.

(** *** Ring *)
(** the elements that Enqueue has accepted, in order *)
Fixpoint taken {A} (os : list (rop A)) (rs : list (ret A)) : list A :=
  match os, rs with
  | REnqueue x :: os, RBool true :: rs => x :: taken os rs
  | _ :: os, _ :: rs => taken os rs
  | _, _ => []
  end.
(** "Dequeue lets go of the element": false of every Ring and history: as long as no call has
    panicked, every element it ever accepted is still in its array, and the rest is zero. *)
Theorem ring_keeps_refuted {A} (zero : A) (n : nat) (os : list (rop A)) rs r : 0 < n -> r_history zero (Z.of_nat n) os = (rs, Ret (Some r)) ->
  rg_data r = taken os rs ++ replicate (n - length (taken os rs)) zero /\ length (taken os rs) <= n.
Proof.
  intros Hn. unfold r_history, r_new. destruct (Z.eqb_spec (Z.of_nat n) 0); [lia|]. destruct (Z.ltb_spec (Z.of_nat n) 0); [lia|]. rewrite Nat2Z.id.
  assert (G : forall os acc r0 rs r, length acc <= n -> rg_data r0 = acc ++ replicate (n - length acc) zero -> rg_cap r0 = (Z.of_nat n + 1)%Z -> rg_tail r0 = Z.of_nat (length acc) ->
    run r_step (Some r0) os = (rs, Ret (Some r)) -> rg_data r = (acc ++ taken os rs) ++ replicate (n - length (acc ++ taken os rs)) zero /\ length (acc ++ taken os rs) <= n).
  { clear. induction os as [|o os IH]; intros acc r0 rs r Ha Hd Hc Ht E; cbn [run] in E; [injection E as <- <-; cbn; rewrite !app_nil_r; auto|].
    destruct (r_step (Some r0) o) as [[p1 x]| |] eqn:E1; [|discriminate..]. destruct (run r_step p1 os) as [rs1 e1] eqn:E2. injection E as <- ->.
    destruct o as [v| | | | |]; cbn [r_step deref rbind] in E1.
    - unfold r_enqueue in E1. destruct (r_is_full r0); cbn [rbind] in E1; [injection E1 as <- <-; cbn [taken]; eapply IH; eassumption|].
      unfold put_, in_range, zlen in E1. rewrite Ht in E1. destruct ((0 <=? Z.of_nat (length acc))%Z && (Z.of_nat (length acc) <? Z.of_nat (length (rg_data r0)))%Z) eqn:B; cbn [rbind] in E1; [|discriminate].
      injection E1 as <- <-. apply andb_true_iff in B as [_ B]. apply Z.ltb_lt in B. rewrite Hd, app_length, replicate_length in B. cbn [taken].
      replace (acc ++ v :: taken os rs1) with ((acc ++ [v]) ++ taken os rs1) by (rewrite <- app_assoc; reflexivity).
      eapply IH; [| | | |exact E2]; cbn [rg_data rg_cap rg_tail]; [rewrite app_length; cbn; lia| |exact Hc|].
      + rewrite Hd, Nat2Z.id. rewrite insert_app_r_alt by lia. rewrite Nat.sub_diag, app_length. cbn [length]. destruct (n - length acc) as [|k] eqn:Q; [lia|]. cbn. rewrite <- app_assoc. cbn. do 3 f_equal. lia.
      + rewrite Hc, app_length. cbn [length]. rewrite Z.rem_small by lia. lia.
    - destruct (r_dequeue r0) as [[r1 v]| |] eqn:D; cbn in E1; [|discriminate..]. injection E1 as <- <-. cbn [taken]. unfold r_dequeue in D. destruct (r_is_empty r0); [injection D as <- <-; eapply IH; eassumption|].
      destruct (at_ _ _); cbn in D; [|discriminate..]. injection D as <- <-. eapply IH; [| | | |exact E2]; assumption.
    - destruct (r_peek r0); cbn in E1; [|discriminate..]. injection E1 as <- <-. cbn [taken]. eapply IH; eassumption.
    - injection E1 as <- <-. cbn [taken]. eapply IH; eassumption.
    - injection E1 as <- <-. cbn [taken]. eapply IH; eassumption.
    - injection E1 as <- <-. cbn [taken]. eapply IH; eassumption. }
  intros E. apply (G os [] _ rs r) in E; cbn in *; try lia; try reflexivity; [exact E|rewrite Nat.sub_0_r; reflexivity].
Qed.
Print Assumptions ring_keeps_refuted.
Example ring_keeps_case : let os := [REnqueue 7; REnqueue 8; RDequeue; RDequeue] in exists r, r_history 0 3 os = ([RBool true; RBool true; RVal (Some 7); RVal (Some 8)], Ret (Some r)) /\
  rg_data r = [7; 8; 0] /\ r_is_empty r = true.
Proof. eexists. split; [reflexivity|]. split; reflexivity. Qed.

(** *** Stack of slicex *)
(** "Pop lets go of the element": false of every stack that is not empty: the array that the
    stack still uses holds the element, at the place after its last one. *)
Theorem stack_keeps_refuted {A} (m : list (list A)) s s' x : k_pop m s = Ret (s', Some x) ->
  sl_arr s' = sl_arr s /\ sl_len s = S (sl_len s') /\ arr m (sl_arr s') !! (sl_off s' + sl_len s') = Some x.
Proof.
  unfold k_pop. destruct (Z.eqb_spec (Z.of_nat (sl_len s)) 0) as [|N]; [discriminate|]. unfold sl_get, sl_sub.
  destruct ((0 <=? Z.of_nat (sl_len s) - 1)%Z && (Z.of_nat (sl_len s) - 1 <? Z.of_nat (sl_len s))%Z); [|discriminate].
  destruct (contents m s !! Z.to_nat (Z.of_nat (sl_len s) - 1)) as [y|] eqn:E; cbn [deref rbind]; [|discriminate].
  match goal with |- context [if ?b then _ else _] => destruct b end; cbn [rbind]; [|discriminate]. intros [= <- <-]. cbn [sl_arr sl_len sl_off].
  split; [reflexivity|]. split; [lia|]. unfold contents, window in E. apply lookup_take_Some in E as [E _]. apply lookup_take_Some in E as [E _]. rewrite lookup_drop in E.
  rewrite <- E. f_equal. lia.
Qed.
Print Assumptions stack_keeps_refuted.
Example stack_keeps_case : exists m s s', run (k_step 0) (k_new []) [(3, KOp (Push 5)); (0, KOp (Push 6))] = ([RBool true; RBool true], Ret (m, s)) /\ k_pop m s = Ret (s', Some 6) /\ arr m (sl_arr s') = [5; 6; 0; 0].
Proof. eexists _, _, _. split; [reflexivity|]. split; reflexivity. Qed.
