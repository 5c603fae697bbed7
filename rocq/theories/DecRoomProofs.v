(** The decoupler (iox/decouplex/decouple.go) with never more than [size] messages on
    their way: proofs for DecRoomProps.v. *)
From Verif Require Import Base Conc Fair DecModel DecProofs DecProofs2 DecProofs3.
Local Open Scope Z.

(** the Writes that have begun, but for those of no bytes *)
Definition begun (tr : list dlab) : list nat := omap (fun l => match l with LWrite t => Some t | _ => None end) tr.
(** at no time are there more than [size] Writes that have begun and whose message has not been taken *)
Definition roomy (size : Z) (tr : list dlab) : Prop :=
  forall tr1 tr2, tr = tr1 ++ tr2 -> num (begun tr1) - num (taken tr1) <= size.

Section room.
Context (msg : nat -> list Z) (size : Z).

Definition done_pc (p : wpc) : bool := match p with WLen | WStored => true | _ => false end.
Definition at_ticket (k : Z) (p : wpc) : Prop :=
  match p with WLoad ts | WCas ts | WCopy ts | WStore ts => ts = k | WLen | WStored => True | _ => False end.
Definition lock_of (k : Z) (p : wpc) : Z :=
  match p with WLoad _ | WCas _ => lock_empty | WCopy _ | WStore _ => lock_busy | _ => k end.
Definition has_buf (p : wpc) : bool := match p with WStore _ | WLen | WStored => true | _ => false end.
Global Instance rpc_eq_dec : EqDecision rpc.
Proof. solve_decision. Defined.
Definition past (r : rpc) : Z := match r with RView | REmpty | RDec => 1 | _ => 0 end.
Definition gone (r : rpc) : Z := match r with RDec => 1 | _ => 0 end.

Record rinv (tr : list dlab) (s : cdec) : Prop := {
  r_nd : NoDup (adders tr);
  r_nb : NoDup (begun tr);
  r_out : forall t, t ∉ adders tr -> c_w s t = WIdle \/ c_w s t = WAdd \/ c_w s t = WDropped;
  r_beg : forall t, t ∈ begun tr <-> t ∈ adders tr \/ c_w s t = WAdd;
  r_read : d_read (c_d s) = num (taken tr);
  r_at : forall k t, adders tr !! k = Some t -> at_ticket (Z.of_nat k) (c_w s t);
  r_done : forall k t, adders tr !! k = Some t -> Z.of_nat k < num (taken tr) + past (c_r s) -> done_pc (c_w s t) = true;
  r_lock : forall k t, adders tr !! k = Some t -> num (taken tr) + gone (c_r s) <= Z.of_nat k ->
    d_lock (c_d s) (slot (c_d s) (Z.of_nat k)) = lock_of (Z.of_nat k) (c_w s t);
  r_free : forall i, 0 <= i < size -> (forall k, num (taken tr) + gone (c_r s) <= k < num (adders tr) -> slot (c_d s) k <> i) -> d_lock (c_d s) i = lock_empty;
  r_buf : forall k t, adders tr !! k = Some t -> num (taken tr) + gone (c_r s) <= Z.of_nat k -> has_buf (c_w s t) = true ->
    d_buf (c_d s) (slot (c_d s) (Z.of_nat k)) = msg t;
  r_view : viewed tr = map msg (take (length (viewed tr)) (adders tr));
  r_drops : forall t, t ∈ droppers tr -> msg t = [] }.

Lemma rinv_init : rinv [] (d_init size).
Proof.
  constructor; cbn; try reflexivity; try (intros; discriminate); try (intros; left; reflexivity); try apply NoDup_nil_2.
  - intros t. rewrite !elem_of_nil. intuition discriminate.
  - intros t H. inversion H.
Qed.

Lemma slot_inj d k k' : 0 < d_size d -> slot d k = slot d k' -> - d_size d < k - k' < d_size d -> k = k'.
Proof.
  unfold slot. intros Hs E H. rewrite (Z.div_mod k (d_size d)), (Z.div_mod k' (d_size d)), E in H |- * by lia.
  assert (k / d_size d = k' / d_size d) as ->; [|reflexivity].
  assert (- 1 < k / d_size d - k' / d_size d < 1) by nia. lia.
Qed.
Lemma lookup_num {A} (l : list A) k t : l !! k = Some t -> Z.of_nat k < num l.
Proof. intros H. apply lookup_lt_Some in H. unfold num. lia. Qed.
Lemma num_lookup {A} (l : list A) z : 0 <= z < num l -> exists t, l !! Z.to_nat z = Some t.
Proof. intros H. apply lookup_lt_is_Some. unfold num in H. lia. Qed.

Lemma storers_le tr s : cinv msg size tr s -> num (storers tr) <= num (adders tr).
Proof.
  intros I. unfold num. apply inj_le. apply submseteq_length. apply NoDup_submseteq; [exact (v_nodup _ _ _ _ I)|exact (v_sub _ _ _ _ I)].
Qed.
Lemma viewed_le tr s : cinv msg size tr s -> num (viewed tr) <= num (adders tr).
Proof.
  intros I. pose proof (storers_le tr s I). pose proof (v_le _ _ _ _ I). pose proof (v_more _ _ _ _ I). pose proof (v_viewed _ _ _ _ I).
  destruct (c_r s); try lia; (assert (num (taken tr) < num (storers tr)) by (apply H1; discriminate)); lia.
Qed.
Lemma adders_le tr s : rinv tr s -> num (adders tr) <= num (begun tr).
Proof.
  intros I. unfold num. apply inj_le. apply submseteq_length. apply NoDup_submseteq; [exact (r_nd _ _ I)|].
  intros t Ht. apply (r_beg _ _ I). left. exact Ht.
Qed.
Lemma find_ticket tr s t ts : rinv tr s -> ticket (c_w s t) = Some ts ->
  exists k, adders tr !! k = Some t /\ ts = Z.of_nat k /\ num (taken tr) + past (c_r s) <= Z.of_nat k.
Proof.
  intros I H. destruct (decide (t ∈ adders tr)) as [Ht|Ht].
  - apply elem_of_list_lookup in Ht as [k Hk]. exists k. split; [exact Hk|]. pose proof (r_at _ _ I k t Hk) as Ha. pose proof (r_done _ _ I k t Hk) as Hd.
    destruct (decide (Z.of_nat k < num (taken tr) + past (c_r s))) as [C|C]; [specialize (Hd C)|]; destruct (c_w s t); cbn in *; try discriminate; (split; [congruence|lia]).
  - destruct (r_out _ _ I t Ht) as [E|[E|E]]; rewrite E in H; discriminate.
Qed.
Lemma find_done tr s t : rinv tr s -> done_pc (c_w s t) = true -> exists k, adders tr !! k = Some t.
Proof.
  intros I H. apply elem_of_list_lookup. destruct (decide (t ∈ adders tr)) as [|Ht]; [assumption|].
  destruct (r_out _ _ I t Ht) as [E|[E|E]]; rewrite E in H; discriminate.
Qed.
Lemma gone_past r : 0 <= gone r <= past r.
Proof. destruct r; cbn; lia. Qed.
Lemma lock_values k : 0 <= k < lock_empty -> k <> lock_empty /\ k <> lock_busy /\ lock_empty <> lock_busy.
Proof. unfold lock_empty, lock_busy. lia. Qed.
(** no message: nothing but [Write] can be the next step of a call not in the list *)
Lemma not_in tr s t : rinv tr s -> c_w s t = WIdle \/ c_w s t = WAdd \/ c_w s t = WDropped -> t ∉ adders tr.
Proof.
  intros I H Ht. apply elem_of_list_lookup in Ht as [k Hk]. pose proof (r_at _ _ I k t Hk) as Ha. destruct H as [E|[E|E]]; rewrite E in Ha; exact Ha.
Qed.

Ltac upd := repeat match goal with
  | |- context [tset _ ?t _ ?u] => destruct (decide (u = t)) as [->|]; [rewrite ?tset_eq in *|rewrite ?tset_ne in * by assumption]
  | H : context [tset _ ?t _ ?u] |- _ => destruct (decide (u = t)) as [->|]; [rewrite ?tset_eq in *|rewrite ?tset_ne in * by assumption]
  end.
Ltac same N A B := match type of A with _ !! ?j = _ => let E := fresh in assert (E := NoDup_lookup _ _ _ _ N A B); subst j end.
Ltac reslot := repeat match goal with |- context [slot (Dec ?a ?b ?c (d_size ?d) ?e ?f) ?k] => change (slot (Dec a b c (d_size d) e f) k) with (slot d k) end.
Ltac tausame := unfold adders, begun, taken, viewed, droppers in *; rewrite ?omap_app in *; cbn [omap list_omap] in *; rewrite ?app_nil_r in *.
Lemma slot_with_lock d i v k : slot (with_lock d i v) k = slot d k.
Proof. reflexivity. Qed.
Lemma rinv_step tr s l s' : 0 < size < 2^64 -> cinv msg size tr s -> cinv msg size (tr ++ [l]) s' -> rinv tr s -> d_step msg s l s' ->
  num (begun (tr ++ [l])) - num (taken (tr ++ [l])) <= size -> num (begun (tr ++ [l])) <= 2^64 - 2 -> rinv (tr ++ [l]) s'.
Proof.
  intros Hsize C C' I H Hroom Hbound.
  pose proof (storers_le tr s C) as Hst. pose proof (adders_le tr s I) as Hab. pose proof (viewed_le tr s C) as Hvl.
  pose proof (v_size _ _ _ _ C) as Hds. pose proof (v_more _ _ _ _ C) as Hmore. pose proof (v_viewed _ _ _ _ C) as Hvn. pose proof (v_le _ _ _ _ C) as Hle.
  pose proof (num_nonneg (taken tr)) as Hnn.
  assert (Hb0 : num (begun tr) <= num (begun (tr ++ [l]))).
  { unfold begun, num. rewrite omap_app, app_length. lia. }
  assert (ND : forall (l : list nat) u, u ∉ l -> NoDup l -> NoDup (l ++ [u])).
  { intros k u Hu Hk. apply NoDup_app. split; [exact Hk|]. split; [|apply NoDup_singleton]. intros v Hv Hv'. apply elem_of_list_singleton in Hv' as ->. tauto. }
  destruct H; cbn [c_d c_w c_r] in *.
  - (* Write *)
    assert (Ht : t ∉ adders tr) by (apply (not_in tr _ t I); cbn; auto).
    destruct I as [I1 I2 I3 I4 I5 I6 I7 I8 I9 I10 I11 I12]. cbn [c_d c_w c_r] in *.
    constructor; unfold adders, begun, taken, viewed, droppers in *; rewrite ?omap_app; cbn [omap list_omap c_d c_w c_r]; rewrite ?app_nil_r; try assumption.
    + apply ND; [|exact I2]. rewrite I4. intuition congruence.
    + intros u Hu. upd; auto.
    + intros u. rewrite elem_of_app, elem_of_list_singleton, I4. upd; intuition congruence.
    + intros k u Hk. upd; [apply elem_of_list_lookup_2 in Hk; tauto|eauto].
    + intros k u Hk. upd; [apply elem_of_list_lookup_2 in Hk; tauto|eauto].
    + intros k u Hk. upd; [apply elem_of_list_lookup_2 in Hk; tauto|eauto].
    + intros k u Hk. upd; [apply elem_of_list_lookup_2 in Hk; tauto|eauto].
  - (* Write of nothing *)
    assert (Ht : t ∉ adders tr) by (apply (not_in tr _ t I); cbn; auto).
    destruct I as [I1 I2 I3 I4 I5 I6 I7 I8 I9 I10 I11 I12]. cbn [c_d c_w c_r] in *.
    constructor; unfold adders, begun, taken, viewed, droppers in *; rewrite ?omap_app; cbn [omap list_omap c_d c_w c_r]; rewrite ?app_nil_r; try assumption.
    + intros u Hu. upd; auto.
    + intros u. rewrite I4. upd; intuition congruence.
    + intros k u Hk. upd; [apply elem_of_list_lookup_2 in Hk; tauto|eauto].
    + intros k u Hk. upd; [apply elem_of_list_lookup_2 in Hk; tauto|eauto].
    + intros k u Hk. upd; [apply elem_of_list_lookup_2 in Hk; tauto|eauto].
    + intros k u Hk. upd; [apply elem_of_list_lookup_2 in Hk; tauto|eauto].
    + intros u. rewrite elem_of_app, elem_of_list_singleton. intros [Hu| ->]; eauto.
  - (* AddUint64 *)
    assert (Ht : t ∉ adders tr) by (apply (not_in tr _ t I); cbn; auto).
    assert (Hn : num (adders tr) + 1 <= num (begun tr)).
    { replace (num (adders tr) + 1) with (num (adders tr ++ [t])) by (rewrite num_app; reflexivity).
      unfold num. apply inj_le. apply submseteq_length. apply NoDup_submseteq; [apply ND; [exact Ht|exact (r_nd _ _ I)]|].
      intros u. rewrite elem_of_app, elem_of_list_singleton, (r_beg _ _ I). intros [Hu| ->]; auto. }
    assert (Ets : u64 (d_write d + 1) = num (adders tr)).
    { pose proof (v_write _ _ _ _ C) as Ew. cbn [c_d] in Ew. pose proof (num_nonneg (adders tr)).
      apply (u64_next _ _ Ew). lia. }
    rewrite Ets in *. destruct I as [I1 I2 I3 I4 I5 I6 I7 I8 I9 I10 I11 I12]. cbn [c_d c_w c_r d_read d_write d_len d_size d_lock d_buf] in *.
    assert (Eb : begun (tr ++ [LAdd t]) = begun tr) by (unfold begun; rewrite omap_app; cbn; apply app_nil_r).
    assert (Et : taken (tr ++ [LAdd t]) = taken tr) by (unfold taken; rewrite omap_app; cbn; apply app_nil_r).
    assert (Ea : adders (tr ++ [LAdd t]) = adders tr ++ [t]) by (unfold adders; rewrite omap_app; cbn; reflexivity).
    assert (Ev : viewed (tr ++ [LAdd t]) = viewed tr) by (unfold viewed; rewrite omap_app; cbn; apply app_nil_r).
    assert (Ed : droppers (tr ++ [LAdd t]) = droppers tr) by (unfold droppers; rewrite omap_app; cbn; apply app_nil_r).
    rewrite Eb, Et in *. pose proof (gone_past r) as Hgp.
    assert (LK : forall k u, (adders tr ++ [t]) !! k = Some u -> (adders tr !! k = Some u /\ u <> t) \/ (u = t /\ Z.of_nat k = num (adders tr))).
    { intros k u Hk. apply lookup_app_Some in Hk as [Hk2|[Hk1 Hk2]].
      2: { right. apply list_lookup_singleton_Some in Hk2 as [Hk2 ->]. split; [reflexivity|unfold num; lia]. }
      left. split; [exact Hk2|].
      intros ->. apply elem_of_list_lookup_2 in Hk2. tauto. }
    constructor; rewrite ?Eb, ?Et, ?Ea, ?Ev, ?Ed; cbn [c_d c_w c_r d_read d_write d_len d_size d_lock d_buf]; try assumption.
    + apply ND; assumption.
    + intros u. rewrite elem_of_app, elem_of_list_singleton. intros Hu. upd; [tauto|]. apply I3. tauto.
    + intros u. rewrite elem_of_app, elem_of_list_singleton, I4. upd; intuition congruence.
    + intros k u Hk. destruct (LK k u Hk) as [[Hk' Hu]|[-> Hk']]; [rewrite tset_ne by exact Hu; eauto|]. rewrite tset_eq. cbn. lia.
    + intros k u Hk Hlt. destruct (LK k u Hk) as [[Hk' Hu]|[-> Hk']]; [rewrite tset_ne by exact Hu; eauto|].
      exfalso. rewrite Hk' in Hlt. assert (past r = 0 \/ past r = 1 /\ r <> RIdle) as [E|[E E']] by (destruct r; cbn; auto; right; split; auto; discriminate); [lia|].
      specialize (Hmore E'). lia.
    + intros k u Hk Hge. unfold slot in *. cbn [d_size]. destruct (LK k u Hk) as [[Hk' Hu]|[-> Hk']]; [rewrite tset_ne by exact Hu; eauto|]. rewrite tset_eq. cbn [lock_of].
      apply I9; [rewrite <- Hds; apply Z.mod_pos_bound; lia|]. intros j Hj E. rewrite Hk' in E.
      assert (j = num (adders tr)); [|lia]. apply (slot_inj d); [lia|exact E|]. lia.
    + intros i Hi Hfree. apply I9; [exact Hi|]. intros k Hk. apply Hfree. rewrite num_app. change (num [t]) with 1. lia.
    + intros k u Hk Hge. unfold slot in *. cbn [d_size]. destruct (LK k u Hk) as [[Hk' Hu]|[-> Hk']]; [rewrite tset_ne by exact Hu; eauto|]. rewrite tset_eq. discriminate.
    + rewrite I11 at 1. rewrite take_app_le; [reflexivity|]. unfold num in Hvl. lia.
  - (* the slot is seen empty *)
    destruct (find_ticket tr _ t ts I) as (k & Hk & -> & Hge); [cbn; rewrite H; reflexivity|]. cbn [c_r] in Hge. pose proof (gone_past r) as Hgp.
    destruct I as [I1 I2 I3 I4 I5 I6 I7 I8 I9 I10 I11 I12]. cbn [c_d c_w c_r] in *.
    constructor; tausame; cbn [c_d c_w c_r]; try assumption.
    + intros u Hu. upd; [apply elem_of_list_lookup_2 in Hk; tauto|auto].
    + intros u. rewrite I4. upd; [apply elem_of_list_lookup_2 in Hk|]; intuition congruence.
    + intros j u Hj. upd; [(same I1 Hj Hk); reflexivity|eauto].
    + intros j u Hj Hlt. upd; [(same I1 Hj Hk); lia|eauto].
    + intros j u Hj Hge'. upd; [(same I1 Hj Hk); rewrite (I8 k t Hk Hge'), H; reflexivity|eauto].
    + intros j u Hj Hge'. upd; [discriminate|eauto].
  - (* it cannot be seen busy *)
    exfalso. destruct (find_ticket tr _ t ts I) as (k & Hk & -> & Hge); [cbn; rewrite H; reflexivity|]. cbn [c_r] in Hge. pose proof (gone_past r) as Hgp.
    pose proof (r_lock _ _ I k t Hk) as L. cbn [c_d c_w c_r] in L. rewrite L, H in H0 by lia. cbn in H0. unfold lock_empty, lock_busy in H0. lia.
  - exfalso. destruct (find_ticket tr _ t ts I) as (k & Hk & -> & Hge); [cbn; rewrite H; reflexivity|]. cbn [c_r] in Hge. pose proof (gone_past r) as Hgp.
    pose proof (r_lock _ _ I k t Hk) as L. cbn [c_d c_w c_r] in L. rewrite L, H in H0 by lia. cbn in H0. congruence.
  - (* CompareAndSwap *)
    destruct (find_ticket tr _ t ts I) as (k & Hk & -> & Hge); [cbn; rewrite H; reflexivity|]. cbn [c_r] in Hge. pose proof (gone_past r) as Hgp.
    destruct I as [I1 I2 I3 I4 I5 I6 I7 I8 I9 I10 I11 I12]. cbn [c_d c_w c_r] in *.
    constructor; tausame; cbn [c_d c_w c_r with_lock d_read d_size d_lock d_buf]; try assumption.
    + intros u Hu. upd; [apply elem_of_list_lookup_2 in Hk; tauto|auto].
    + intros u. rewrite I4. upd; [apply elem_of_list_lookup_2 in Hk|]; intuition congruence.
    + intros j u Hj. upd; [(same I1 Hj Hk); reflexivity|eauto].
    + intros j u Hj Hlt. upd; [(same I1 Hj Hk); lia|eauto].
    + intros j u Hj Hge'. rewrite !slot_with_lock. destruct (decide (u = t)) as [->|Hu].
      * rewrite tset_eq. same I1 Hj Hk. rewrite zset_eq. reflexivity.
      * rewrite tset_ne by exact Hu. rewrite zset_ne; [eauto|]. intros E. apply slot_inj in E; [|lia|apply lookup_num in Hj; apply lookup_num in Hk; lia].
        apply Nat2Z.inj in E. subst j. congruence.
    + intros i Hi Hfree. rewrite zset_ne; [apply I9; [exact Hi|exact Hfree]|]. intros ->. apply (Hfree (Z.of_nat k)); [apply lookup_num in Hk; lia|reflexivity].
    + intros j u Hj Hge'. upd; [discriminate|eauto].
  - (* it cannot fail *)
    exfalso. destruct (find_ticket tr _ t ts I) as (k & Hk & -> & Hge); [cbn; rewrite H; reflexivity|]. cbn [c_r] in Hge. pose proof (gone_past r) as Hgp.
    pose proof (r_lock _ _ I k t Hk) as L. cbn [c_d c_w c_r] in L. rewrite L, H in H0 by lia. cbn in H0. congruence.
  - (* copy *)
    destruct (find_ticket tr _ t ts I) as (k & Hk & -> & Hge); [cbn; rewrite H; reflexivity|]. cbn [c_r] in Hge. pose proof (gone_past r) as Hgp.
    destruct I as [I1 I2 I3 I4 I5 I6 I7 I8 I9 I10 I11 I12]. cbn [c_d c_w c_r] in *.
    constructor; tausame; cbn [c_d c_w c_r d_read d_size d_lock d_buf]; try assumption.
    + intros u Hu. upd; [apply elem_of_list_lookup_2 in Hk; tauto|auto].
    + intros u. rewrite I4. upd; [apply elem_of_list_lookup_2 in Hk|]; intuition congruence.
    + intros j u Hj. upd; [(same I1 Hj Hk); reflexivity|eauto].
    + intros j u Hj Hlt. upd; [(same I1 Hj Hk); lia|eauto].
    + intros j u Hj Hge'. reslot. upd; [(same I1 Hj Hk); rewrite (I8 k t Hk Hge'), H; reflexivity|eauto].
    + intros j u Hj Hge'. reslot. destruct (decide (u = t)) as [->|Hu].
      * same I1 Hj Hk. intros _. apply zset_eq.
      * rewrite tset_ne by exact Hu. intros Hb. rewrite zset_ne; [apply I10; assumption|]. intros E. apply (slot_inj d) in E; [|lia|apply lookup_num in Hj; apply lookup_num in Hk; lia].
        apply Nat2Z.inj in E. subst j. congruence.
  - (* store *)
    destruct (find_ticket tr _ t ts I) as (k & Hk & -> & Hge); [cbn; rewrite H; reflexivity|]. cbn [c_r] in Hge. pose proof (gone_past r) as Hgp.
    destruct I as [I1 I2 I3 I4 I5 I6 I7 I8 I9 I10 I11 I12]. cbn [c_d c_w c_r] in *.
    constructor; tausame; cbn [c_d c_w c_r with_lock d_read d_size d_lock d_buf]; try assumption.
    + intros u Hu. upd; [apply elem_of_list_lookup_2 in Hk; tauto|auto].
    + intros u. rewrite I4. upd; [apply elem_of_list_lookup_2 in Hk|]; intuition congruence.
    + intros j u Hj. upd; [exact Logic.I|eauto].
    + intros j u Hj Hlt. upd; [reflexivity|eauto].
    + intros j u Hj Hge'. rewrite !slot_with_lock. destruct (decide (u = t)) as [->|Hu].
      * rewrite tset_eq. same I1 Hj Hk. rewrite zset_eq. reflexivity.
      * rewrite tset_ne by exact Hu. rewrite zset_ne; [eauto|]. intros E. apply slot_inj in E; [|lia|apply lookup_num in Hj; apply lookup_num in Hk; lia].
        apply Nat2Z.inj in E. subst j. congruence.
    + intros i Hi Hfree. rewrite zset_ne; [apply I9; [exact Hi|exact Hfree]|]. intros ->. apply (Hfree (Z.of_nat k)); [apply lookup_num in Hk; lia|reflexivity].
    + intros j u Hj Hge'. rewrite slot_with_lock. upd; [(same I1 Hj Hk); intros _; apply I10; [exact Hk|exact Hge'|rewrite H; reflexivity]|eauto].
  - (* AddUint64 of len *)
    destruct (find_done tr _ t I) as (k & Hk); [cbn; rewrite H; reflexivity|].
    destruct I as [I1 I2 I3 I4 I5 I6 I7 I8 I9 I10 I11 I12]. cbn [c_d c_w c_r] in *.
    constructor; tausame; cbn [c_d c_w c_r d_read d_size d_lock d_buf]; try assumption.
    + intros u Hu. upd; [apply elem_of_list_lookup_2 in Hk; tauto|auto].
    + intros u. rewrite I4. upd; [apply elem_of_list_lookup_2 in Hk|]; intuition congruence.
    + intros j u Hj. upd; [exact Logic.I|eauto].
    + intros j u Hj Hlt. upd; [reflexivity|eauto].
    + intros j u Hj Hge'. reslot. upd; [(same I1 Hj Hk); rewrite (I8 k t Hk Hge'), H; reflexivity|eauto].
    + intros j u Hj Hge'. reslot. upd; [(same I1 Hj Hk); intros _; apply I10; [exact Hk|exact Hge'|rewrite H; reflexivity]|eauto].
  - exfalso. destruct (decide (t ∈ adders tr)) as [Ht|Ht].
    + apply elem_of_list_lookup in Ht as [k Hk]. pose proof (r_at _ _ I k t Hk) as Ha. cbn [c_w] in Ha. rewrite H in Ha. exact Ha.
    + destruct (r_out _ _ I t Ht) as [E|[E|E]]; cbn [c_w] in E; congruence.
  - exfalso. destruct (decide (t ∈ adders tr)) as [Ht|Ht].
    + apply elem_of_list_lookup in Ht as [k Hk]. pose proof (r_at _ _ I k t Hk) as Ha. cbn [c_w] in Ha. rewrite H in Ha. exact Ha.
    + destruct (r_out _ _ I t Ht) as [E|[E|E]]; cbn [c_w] in E; congruence.
  - (* Next: nothing there *)
    destruct I as [I1 I2 I3 I4 I5 I6 I7 I8 I9 I10 I11 I12]. cbn [c_d c_w c_r] in *. constructor; tausame; assumption.
  - destruct I as [I1 I2 I3 I4 I5 I6 I7 I8 I9 I10 I11 I12]. cbn [c_d c_w c_r] in *. constructor; tausame; assumption.
  - (* found *)
    destruct I as [I1 I2 I3 I4 I5 I6 I7 I8 I9 I10 I11 I12]. cbn [c_d c_w c_r gone past] in *. specialize (Hmore ltac:(discriminate)).
    constructor; tausame; cbn [c_d c_w c_r gone past]; try assumption.
    intros k u Hk Hlt. destruct (decide (Z.of_nat k < num (taken tr))) as [Hc|Hc]; unfold taken in Hc; [apply (I7 k u Hk); lia|].
    assert (Ek : d_read d = Z.of_nat k) by lia. pose proof (I8 k u Hk ltac:(lia)) as L. rewrite <- Ek in L.
    pose proof (I6 k u Hk) as Ha. destruct (w u); cbn in *; try contradiction; congruence.
  - (* view *)
    destruct I as [I1 I2 I3 I4 I5 I6 I7 I8 I9 I10 I11 I12]. cbn [c_d c_w c_r gone past] in *. specialize (Hmore ltac:(discriminate)).
    destruct (num_lookup (adders tr) (num (taken tr))) as [t Ht]; [lia|].
    assert (Eb : d_buf d (slot d (d_read d)) = msg t).
    { rewrite I5. replace (num (taken tr)) with (Z.of_nat (Z.to_nat (num (taken tr)))) at 1 by lia. apply I10; [exact Ht|lia|].
      pose proof (I7 _ _ Ht ltac:(lia)) as Hd. destruct (w t); try discriminate; reflexivity. }
    rewrite Eb in *.
    constructor; try (unfold adders, begun, taken, droppers in *; rewrite ?omap_app; cbn [omap list_omap]; rewrite ?app_nil_r; cbn [c_d c_w c_r gone past]; assumption).
    unfold viewed, adders in *. rewrite !omap_app. cbn [omap list_omap]. rewrite app_nil_r, app_length. cbn [length]. rewrite Nat.add_1_r.
    match type of Ht with ?l !! _ = _ => set (AD := l) in * end. match type of I11 with ?l = _ => set (VW := l) in * end.
    assert (El : length VW = Z.to_nat (num (taken tr))) by (unfold num at 1 in Hvn; change (omap _ tr) with VW in Hvn; lia).
    rewrite (take_S_r _ _ t) by (rewrite El; exact Ht). rewrite map_app. cbn. f_equal. exact I11.
  - (* the slot is given back *)
    destruct I as [I1 I2 I3 I4 I5 I6 I7 I8 I9 I10 I11 I12]. cbn [c_d c_w c_r gone past] in *. specialize (Hmore ltac:(discriminate)).
    constructor; tausame; cbn [c_d c_w c_r gone past with_lock d_read d_size d_lock d_buf]; try assumption.
    + intros k u Hk Hge. rewrite slot_with_lock. rewrite zset_ne; [apply I8; [exact Hk|lia]|]. intros E. apply slot_inj in E; [lia|lia|apply lookup_num in Hk; lia].
    + intros i Hi Hfree. destruct (decide (i = slot d (d_read d))) as [->|Hne]; [apply zset_eq|]. rewrite zset_ne by exact Hne. apply I9; [exact Hi|].
      intros k Hk. destruct (decide (k = num (taken tr))) as [->|]; unfold taken in *; [rewrite I5 in Hne; congruence|]. apply (Hfree k). lia.
    + intros k u Hk Hge. rewrite slot_with_lock. apply I10; [exact Hk|lia].
  - (* counted *)
    destruct I as [I1 I2 I3 I4 I5 I6 I7 I8 I9 I10 I11 I12]. cbn [c_d c_w c_r gone past] in *. specialize (Hmore ltac:(discriminate)).
    assert (Et : num (taken (tr ++ [LNext true])) = num (taken tr) + 1) by (unfold taken; rewrite omap_app; cbn; rewrite num_app; reflexivity).
    constructor; rewrite ?Et; try (unfold adders, begun, viewed, droppers in *; rewrite ?omap_app; cbn [omap list_omap]; rewrite ?app_nil_r; cbn [c_d c_w c_r gone past d_read d_size d_lock d_buf]; assumption).
    + cbn [c_d d_read]. rewrite I5. apply u64_small. lia.
    + intros k u Hk Hlt. cbn [c_r c_w past] in *. unfold adders in *. rewrite omap_app in Hk. cbn in Hk. rewrite app_nil_r in Hk. apply (I7 k u Hk). lia.
    + intros k u Hk Hge. cbn [c_r c_w c_d gone d_lock] in *. unfold adders in *. rewrite omap_app in Hk. cbn in Hk. rewrite app_nil_r in Hk. unfold slot. cbn [d_size]. apply (I8 k u Hk). lia.
    + intros i Hi Hfree. cbn [c_r c_w c_d gone d_lock] in *. apply I9; [exact Hi|]. intros k Hk. apply (Hfree k). unfold adders in *. rewrite omap_app. cbn. rewrite app_nil_r. lia.
    + intros k u Hk Hge. cbn [c_r c_w c_d gone d_buf] in *. unfold adders in *. rewrite omap_app in Hk. cbn in Hk. rewrite app_nil_r in Hk. unfold slot. cbn [d_size]. apply (I10 k u Hk). lia.
Qed.

Lemma adders_step_le tr s l s' : rinv tr s -> d_step msg s l s' -> num (adders (tr ++ [l])) <= num (begun (tr ++ [l])).
Proof.
  intros I H. pose proof (adders_le tr s I) as Hab.
  assert (Hb0 : num (begun tr) <= num (begun (tr ++ [l]))).
  { unfold begun, num. rewrite omap_app, app_length. lia. }
  destruct l; try (unfold adders in *; rewrite omap_app; cbn [omap list_omap]; rewrite app_nil_r; lia).
  inversion H; subst. assert (Ht : t ∉ adders tr) by (apply (not_in tr _ t I); cbn; auto).
  unfold adders, begun. rewrite !omap_app. cbn [omap list_omap]. rewrite app_nil_r. fold (adders tr) (begun tr).
  unfold num. apply inj_le. apply submseteq_length. apply NoDup_submseteq.
  - apply NoDup_app. split; [exact (r_nd _ _ I)|]. split; [|apply NoDup_singleton]. intros v Hv Hv'. apply elem_of_list_singleton in Hv' as ->. tauto.
  - intros u. rewrite elem_of_app, elem_of_list_singleton, (r_beg _ _ I). intros [Hu| ->]; auto.
Qed.
Lemma roomy_snoc tr l : roomy size (tr ++ [l]) -> roomy size tr.
Proof. intros H tr1 tr2 ->. apply (H tr1 (tr2 ++ [l])). rewrite app_assoc. reflexivity. Qed.
Lemma begun_snoc tr l : num (begun tr) <= num (begun (tr ++ [l])).
Proof. unfold begun, num. rewrite omap_app, app_length. lia. Qed.

Lemma rinv_steps tr s : 0 < size < 2^64 -> steps (d_step msg) (d_init size) tr s -> roomy size tr -> num (begun tr) <= 2^64 - 2 ->
  rinv tr s /\ cinv msg size tr s.
Proof.
  intros Hsize Htr. revert tr s Htr.
  assert (G : forall tr s, steps (d_step msg) (d_init size) tr s -> roomy size tr -> num (begun tr) <= 2^64 - 2 -> rinv tr s /\ num (adders tr) <= num (begun tr)).
  { apply (steps_trace_invariant (d_init size) (d_step msg) (fun tr s => roomy size tr -> num (begun tr) <= 2^64 - 2 -> rinv tr s /\ num (adders tr) <= num (begun tr))).
    - intros _ _. split; [apply rinv_init|]. cbn. lia.
    - intros tr s l s' Htr IH H Hr Hb. pose proof (begun_snoc tr l) as Hm. destruct (IH (roomy_snoc _ _ Hr) ltac:(lia)) as [I Ha].
      pose proof (adders_step_le tr s l s' I H) as Ha'. split; [|exact Ha'].
      assert (Htr' : steps (d_step msg) (d_init size) (tr ++ [l]) s') by (econstructor; eassumption).
      apply (rinv_step tr s l s'); try assumption.
      + apply (cinv_steps msg size tr s Hsize Htr). lia.
      + apply (cinv_steps msg size _ s' Hsize Htr'). lia.
      + apply (Hr (tr ++ [l]) []). rewrite app_nil_r. reflexivity. }
  intros tr s Htr Hr Hb. destruct (G tr s Htr Hr Hb) as [I Ha]. split; [exact I|]. apply (cinv_steps msg size tr s Hsize Htr). lia.
Qed.

(** *** liveness: the state with the trace that led to it *)
Definition state := (list dlab * cdec)%type.
Definition tstep (x : state) (l : dlab) (y : state) : Prop :=
  d_step msg x.2 l y.2 /\ y.1 = x.1 ++ [l] /\ roomy size y.1 /\ num (begun y.1) <= 2^64 - 2.
Definition tinit : state := ([], d_init size).
(** steps that are taken: all but the calls of Write *)
Definition go (s : cdec) (l : dlab) (s' : cdec) : Prop :=
  d_step msg s l s' /\ match l with LWrite _ => False | LDrop t => msg t <> [] | _ => True end.
Definition tgo (x : state) (l : dlab) (y : state) : Prop := go x.2 l y.2.

Context (Hsize : 0 < size < 2^64).
Lemma tstep_steps x : reach tinit tstep x -> steps (d_step msg) (d_init size) x.1 x.2 /\ roomy size x.1 /\ num (begun x.1) <= 2^64 - 2.
Proof.
  revert x. apply reach_invariant.
  - cbn [fst snd tinit]. split; [constructor|]. split; [|change (num (begun [])) with 0; lia]. intros tr1 tr2 E. symmetry in E. apply app_nil in E as [-> ->]. change (num (begun []) - num (taken [])) with 0. lia.
  - intros x l y (H1 & H2 & H3) (S1 & -> & S3 & S4). split; [econstructor; eassumption|]. auto.
Qed.
Lemma tinv x : reach tinit tstep x -> rinv x.1 x.2 /\ cinv msg size x.1 x.2.
Proof. intros H. destruct (tstep_steps x H) as (H1 & H2 & H3). apply rinv_steps; assumption. Qed.

Definition stage (p : wpc) : nat :=
  match p with WAdd => 0 | WLoad _ => 1 | WCas _ => 2 | WCopy _ => 3 | WStore _ => 4 | WLen => 5 | WStored => 6 | _ => 7 end.
Definition rstage (r : rpc) : nat := match r with RIdle => 0 | RWait => 1 | RView => 2 | REmpty => 3 | RDec => 4 end.

Lemma stage_step x l y t : reach tinit tstep x -> tstep x l y -> (stage (c_w x.2 t) < 6)%nat ->
  c_w y.2 t = c_w x.2 t \/ stage (c_w y.2 t) = S (stage (c_w x.2 t)).
Proof.
  intros Rx St Hs. assert (Ry : reach tinit tstep y) by (eapply reach_snoc; eassumption).
  destruct (tinv x Rx) as [Ix Cx]. destruct (tinv y Ry) as [Iy Cy]. destruct St as (H & Ey & _).
  assert (Hin : (0 < stage (c_w x.2 t))%nat -> t ∈ adders y.1).
  { intros H0. rewrite Ey. unfold adders. rewrite omap_app. apply elem_of_app. left. apply (v_began _ _ _ _ Cx). destruct (c_w x.2 t); cbn in *; try lia; reflexivity. }
  assert (Hno : t ∈ adders y.1 -> c_w y.2 t <> WAdd /\ c_w y.2 t <> WCheck).
  { intros Ht. apply elem_of_list_lookup in Ht as [k Hk]. pose proof (r_at _ _ Iy k t Hk) as Ha. destruct (c_w y.2 t); split; congruence || contradiction. }
  destruct x as [tr s], y as [tr' s']. cbn [fst snd] in *.
  destruct H; cbn [c_w] in *; upd; try (left; reflexivity); rewrite ?H in *; cbn [stage] in *; try lia; try (right; reflexivity); exfalso; destruct (Hno (Hin ltac:(lia))); congruence.
Qed.
Lemma can_by x t l s' : go x.2 l s' -> c_w s' t <> c_w x.2 t -> can_move tgo (fun x : state => c_w x.2 t) x.
Proof. intros H N. exists l, ([], s'). split; assumption. Qed.
Lemma stage_can x t : (stage (c_w x.2 t) < 6)%nat -> can_move tgo (fun x => c_w x.2 t) x.
Proof.
  destruct x as [tr [d w r]]. cbn [c_w snd]. intros H. pose proof (can_by (tr, CD d w r) t) as G. unfold go in G. cbn [c_w snd] in G.
  destruct (w t) eqn:W; cbn in H; try lia.
  - eapply G; [split; [apply ds_add; exact W|exact Logic.I]|]. cbn [c_w]. rewrite tset_eq. discriminate.
  - destruct (decide (d_lock d (slot d ts) = lock_empty)) as [E|E]; [eapply G; [split; [eapply ds_load_empty; eassumption|exact Logic.I]|cbn [c_w]; rewrite tset_eq; discriminate]|].
    destruct (decide (d_lock d (slot d ts) = lock_busy)) as [E'|E']; (eapply G; [split; [first [eapply ds_load_busy; eassumption|eapply ds_load_full; eassumption]|exact Logic.I]|cbn [c_w]; rewrite tset_eq; discriminate]).
  - destruct (decide (d_lock d (slot d ts) = lock_empty)) as [E|E]; (eapply G; [split; [first [eapply ds_cas; eassumption|eapply ds_cas_fail; eassumption]|exact Logic.I]|cbn [c_w]; rewrite tset_eq; discriminate]).
  - eapply G; [split; [eapply ds_copy; eassumption|exact Logic.I]|]. cbn [c_w]. rewrite tset_eq. discriminate.
  - eapply G; [split; [eapply ds_store; eassumption|exact Logic.I]|]. cbn [c_w]. rewrite tset_eq. discriminate.
  - eapply G; [split; [eapply ds_len; eassumption|exact Logic.I]|]. cbn [c_w]. rewrite tset_eq. discriminate.
Qed.
Lemma stored_step x l y t : tstep x l y -> c_w x.2 t = WStored -> c_w y.2 t = WStored.
Proof.
  destruct x as [tr s], y as [tr' s']. intros (H & _) E. cbn [fst snd] in *.
  destruct H; cbn [c_w] in *; upd; congruence.
Qed.
Lemma done_step x l y t : tstep x l y -> done_pc (c_w x.2 t) = true -> done_pc (c_w y.2 t) = true.
Proof.
  destruct x as [tr s], y as [tr' s']. intros (H & _) E. cbn [fst snd] in *.
  destruct H; cbn [c_w] in *; upd; rewrite ?H in *; try discriminate; assumption || reflexivity.
Qed.

(** the reader moves on through Next, and counts when it comes back *)
Lemma rstage_step x l y : tstep x l y -> c_r x.2 <> RIdle ->
  (c_r y.2 = c_r x.2 /\ taken y.1 = taken x.1) \/
  (c_r x.2 = RDec /\ c_r y.2 = RIdle /\ num (taken y.1) = num (taken x.1) + 1) \/
  (rstage (c_r y.2) = S (rstage (c_r x.2)) /\ taken y.1 = taken x.1).
Proof.
  destruct x as [tr s], y as [tr' s']. intros (H & -> & _) E. cbn [fst snd] in *. unfold taken in *. rewrite omap_app.
  destruct H; cbn [c_r omap list_omap rstage] in *; rewrite ?app_nil_r; auto; try congruence.
  right; left. rewrite num_app. auto.
Qed.

Section live.
Context (e : nat -> state) (ls : nat -> option dlab) (E : execution tstep tinit e ls).
Context (FW : forall t, weakly_fair tgo (fun x => c_w x.2 t) e).
Context (FR : weakly_fair tgo (fun x => c_r x.2) e).

Lemma writer_done t : forall n i, (stage (c_w (e i).2 t) + n = 6)%nat -> exists j, (i <= j)%nat /\ c_w (e j).2 t = WStored.
Proof.
  induction n as [|n IH]; intros i Hi.
  - exists i. split; [lia|]. destruct (c_w (e i).2 t); cbn in Hi; try lia. reflexivity.
  - destruct (leads_weak tstep tinit e ls E tgo (fun x => c_w x.2 t) (fun x => stage (c_w x.2 t) = stage (c_w (e i).2 t)) (fun x => stage (c_w x.2 t) = S (stage (c_w (e i).2 t))) (FW t)) with (i := i) as (j & Hj & Q).
    + intros x l y Rx Hx St. destruct (stage_step x l y t Rx St) as [Q|Q]; [lia| |right; congruence]. left. split; congruence.
    + intros x Rx Hx. apply stage_can. lia.
    + reflexivity.
    + destruct (IH j) as (j' & Hj' & Q'); [lia|]. exists j'. split; [lia|exact Q'].
Qed.
Lemma stored_always t i j : (i <= j)%nat -> c_w (e i).2 t = WStored -> c_w (e j).2 t = WStored.
Proof. intros Hj Hi. apply (always tstep tinit e ls E (fun x => c_w x.2 t = WStored)) with (i := i); [|exact Hi|exact Hj]. intros x l y _ Hx St. eapply stored_step; eassumption. Qed.
Lemma trace_grow i j : (i <= j)%nat -> exists tr, (e j).1 = (e i).1 ++ tr.
Proof.
  intros Hj. apply (always tstep tinit e ls E (fun x => exists tr, x.1 = (e i).1 ++ tr)) with (i := i); [|exists []; rewrite app_nil_r; reflexivity|exact Hj].
  intros x l y _ [tr Hx] (_ & -> & _). exists (tr ++ [l]). rewrite Hx, app_assoc. reflexivity.
Qed.
Lemma inv_at i : rinv (e i).1 (e i).2 /\ cinv msg size (e i).1 (e i).2.
Proof. apply tinv. apply (exec_reach tstep tinit e ls E). Qed.
Lemma adder_stored i k t : adders (e i).1 !! k = Some t -> exists j, (i <= j)%nat /\ c_w (e j).2 t = WStored.
Proof.
  intros Hk. destruct (inv_at i) as [I _]. pose proof (r_at _ _ I k t Hk) as Ha.
  apply (writer_done t (6 - stage (c_w (e i).2 t))). destruct (c_w (e i).2 t); cbn in *; try contradiction; lia.
Qed.
Lemma adders_grow i j k t : (i <= j)%nat -> adders (e i).1 !! k = Some t -> adders (e j).1 !! k = Some t.
Proof. intros Hj Hk. destruct (trace_grow i j Hj) as [tr ->]. unfold adders in *. rewrite omap_app. apply lookup_app_l_Some. exact Hk. Qed.

(** after [RView] Next comes back on its own *)
Lemma next_rest : forall n i, (2 <= rstage (c_r (e i).2))%nat -> (rstage (c_r (e i).2) + n = 4)%nat ->
  exists j, (i <= j)%nat /\ c_r (e j).2 = RIdle /\ num (taken (e j).1) = num (taken (e i).1) + 1.
Proof.
  induction n as [|n IH]; intros i Hr Hi.
  - destruct (leads_weak tstep tinit e ls E tgo (fun x => c_r x.2) (fun x => c_r x.2 = RDec /\ taken x.1 = taken (e i).1) (fun x => c_r x.2 = RIdle /\ num (taken x.1) = num (taken (e i).1) + 1) FR) with (i := i) as (j & Hj & Q).
    + intros x l y Rx [Hx1 Hx2] St. destruct (rstage_step x l y St) as [[Q1 Q2]|[(Q1 & Q2 & Q3)|[Q1 Q2]]]; [congruence| | |].
      * left. split; [split|]; congruence.
      * right. split; [exact Q2|]. rewrite Q3, Hx2. reflexivity.
      * rewrite Hx1 in Q1. destruct (c_r y.2); discriminate.
    + intros [tr [d w r]] Rx [Hx _]. cbn in Hx. subst r. eexists _, (tr, _). split; [split; [apply ds_dec|exact Logic.I]|]. cbn. discriminate.
    + split; [|reflexivity]. destruct (c_r (e i).2); cbn in *; try lia. reflexivity.
    + exists j. auto.
  - destruct (leads_weak tstep tinit e ls E tgo (fun x => c_r x.2) (fun x => c_r x.2 = c_r (e i).2 /\ taken x.1 = taken (e i).1) (fun x => rstage (c_r x.2) = S (rstage (c_r (e i).2)) /\ taken x.1 = taken (e i).1) FR) with (i := i) as (j & Hj & Q1 & Q2).
    + intros x l y Rx [Hx1 Hx2] St. destruct (rstage_step x l y St) as [[Q1 Q2]|[(Q1 & Q2 & Q3)|[Q1 Q2]]].
      * rewrite Hx1. intros H0. rewrite H0 in Hr. cbn in Hr. lia.
      * left. split; [split|]; congruence.
      * rewrite <- Hx1, Q1 in Hi. cbn in Hi. lia.
      * right. split; congruence.
    + intros [tr [d w r]] Rx [Hx _]. cbn in Hx. rewrite <- Hx in Hr, Hi. destruct r; cbn in Hr, Hi; try lia;
        (eexists _, (tr, _); split; [split; [first [apply ds_view|apply ds_empty]|exact Logic.I]|cbn; discriminate]).
    + split; reflexivity.
    + destruct (IH j) as (j' & Hj' & Q3 & Q4); [lia|lia|]. exists j'. split; [lia|]. split; [exact Q3|]. rewrite Q4, Q2. reflexivity.
Qed.
(** a Next that has begun comes back *)
Lemma next_returns i : c_r (e i).2 <> RIdle ->
  exists j, (i <= j)%nat /\ c_r (e j).2 = RIdle /\ num (taken (e j).1) = num (taken (e i).1) + 1.
Proof.
  intros Hr. destruct (decide (c_r (e i).2 = RWait)) as [Hw|Hw].
  2: { apply (next_rest (4 - rstage (c_r (e i).2))); destruct (c_r (e i).2); cbn in *; try congruence; lia. }
  destruct (inv_at i) as [I C]. pose proof (v_more _ _ _ _ C Hr) as Hm. pose proof (storers_le _ _ C) as Hs. pose proof (num_nonneg (taken (e i).1)) as Hn.
  destruct (num_lookup (adders (e i).1) (num (taken (e i).1))) as [t Ht]; [lia|].
  destruct (adder_stored i _ t Ht) as (j & Hj & Hst).
  (* until then the reader waits, or has gone on *)
  destruct (until tstep tinit e ls E (fun x => c_r x.2) (fun x => c_r x.2 = RWait /\ taken x.1 = taken (e i).1) (fun x => c_r x.2 = RView /\ taken x.1 = taken (e i).1)) with (i := i) (j := j) as [[[H1 H2] _]|(k & Hk & H1 & H2)].
  - intros x l y Rx [Hx1 Hx2] St. destruct (rstage_step x l y St) as [[Q1 Q2]|[(Q1 & Q2 & Q3)|[Q1 Q2]]]; [congruence| |congruence|].
    + left. split; [split|]; congruence.
    + right. rewrite Hx1 in Q1. destruct (c_r y.2); try discriminate. split; congruence.
  - split; [exact Hw|reflexivity].
  - exact Hj.
  - destruct (leads_weak tstep tinit e ls E tgo (fun x => c_r x.2)
      (fun x => c_r x.2 = RWait /\ taken x.1 = taken (e i).1 /\ adders x.1 !! Z.to_nat (num (taken (e i).1)) = Some t /\ c_w x.2 t = WStored)
      (fun x => c_r x.2 = RView /\ taken x.1 = taken (e i).1) FR) with (i := j) as (k & Hk & Q1 & Q2).
    + intros x l y Rx (Hx1 & Hx2 & Hx3 & Hx4) St. destruct (rstage_step x l y St) as [[Q1 Q2]|[(Q1 & Q2 & Q3)|[Q1 Q2]]]; [congruence| |congruence|].
      * left. split; [|exact Q1]. split; [congruence|]. split; [congruence|]. split; [|eapply stored_step; eassumption].
        destruct St as (_ & -> & _). unfold adders in *. rewrite omap_app. apply lookup_app_l_Some. exact Hx3.
      * right. rewrite Hx1 in Q1. destruct (c_r y.2); try discriminate. split; congruence.
    + intros x Rx (Hx1 & Hx2 & Hx3 & Hx4). destruct (tinv x Rx) as [Ix Cx]. destruct (tstep_steps x Rx) as (_ & _ & Hb). pose proof (adders_le _ _ Ix) as Ha.
      pose proof (r_lock _ _ Ix _ t Hx3) as L. rewrite Hx1, Hx2, Hx4 in L. cbn [gone lock_of] in L. rewrite Z2Nat.id in L by lia. specialize (L ltac:(lia)).
      pose proof (r_read _ _ Ix) as Rd. rewrite Hx2 in Rd. pose proof (lookup_num _ _ _ Hx3) as Hlt. rewrite Z2Nat.id in Hlt by lia.
      destruct (lock_values (num (taken (e i).1))) as (L1 & L2 & _); [unfold lock_empty; lia|].
      destruct x as [tr [d w r]]. cbn [fst snd c_d c_w c_r] in *. subst r. eexists LDTau, (tr, CD d w RView). split; [split; [apply ds_found; cbn [snd]; rewrite Rd; congruence|exact Logic.I]|]. cbn. discriminate.
    + split; [exact H1|]. split; [exact H2|]. split; [eapply adders_grow; eassumption|exact Hst].
    + destruct (next_rest 2 k) as (j' & Hj' & Q3 & Q4); [rewrite Q1; cbn; lia|rewrite Q1; reflexivity|]. exists j'. split; [lia|]. split; [exact Q3|]. rewrite Q4, Q2. reflexivity.
  - destruct (next_rest 2 k) as (j' & Hj' & Q3 & Q4); [rewrite H1; cbn; lia|rewrite H1; reflexivity|]. exists j'. split; [lia|]. split; [exact Q3|]. rewrite Q4, H2. reflexivity.
Qed.
Lemma taken_grow i j : (i <= j)%nat -> num (taken (e i).1) <= num (taken (e j).1).
Proof. intros Hj. destruct (trace_grow i j Hj) as [tr ->]. unfold taken, num. rewrite omap_app, app_length. lia. Qed.

(** every number drawn is taken *)
Lemma all_taken : forall m i, Z.of_nat m <= num (adders (e i).1) -> exists j, (i <= j)%nat /\ Z.of_nat m <= num (taken (e j).1).
Proof.
  induction m as [|m IH]; intros i Hm; [exists i; split; [lia|apply num_nonneg]|].
  destruct (IH i) as (j & Hj & Ht); [lia|].
  destruct (decide (Z.of_nat (S m) <= num (taken (e j).1))) as [|Hn]; [exists j; auto|].
  assert (Haj : Z.of_nat (S m) <= num (adders (e j).1)).
  { destruct (trace_grow i j Hj) as [tr Etr]. rewrite Etr. unfold adders, num in *. rewrite omap_app, app_length. lia. }
  (* all of the first S m are stored *)
  destruct (eventually_all e (fun k x => exists t, adders x.1 !! k = Some t /\ c_w x.2 t = WStored) (S m) j) as (j1 & Hj1 & Hall).
  { intros k Hk j' Hj'. destruct (num_lookup (adders (e j).1) (Z.of_nat k)) as [t Hkt]; [lia|]. rewrite Nat2Z.id in Hkt.
    pose proof (adders_grow j j' k t Hj' Hkt) as Hkt'. destruct (adder_stored j' k t Hkt') as (j2 & Hj2 & Hs). exists j2. split; [exact Hj2|]. exists t. split; [eapply adders_grow; eassumption|exact Hs]. }
  { intros k a b Hk Hab (t & H1 & H2). exists t. split; [eapply adders_grow; eassumption|eapply stored_always; eassumption]. }
  (* so that many are counted *)
  assert (Hcount : forall j2, (j1 <= j2)%nat -> Z.of_nat (S m) <= num (storers (e j2).1)).
  { intros j2 Hj2. destruct (tstep_steps (e j2) (exec_reach tstep tinit e ls E j2)) as (St & _). pose proof (finv_steps msg size _ _ St) as F.
    destruct (inv_at j2) as [I2 C2].
    assert (Hsub : take (S m) (adders (e j2).1) ⊆+ storers (e j2).1).
    { apply NoDup_submseteq; [pose proof (r_nd _ _ I2) as ND2; rewrite <- (take_drop (S m)) in ND2; apply NoDup_app in ND2; tauto|].
      intros t Hin. apply elem_of_list_lookup in Hin as [k Hk]. apply lookup_take_Some in Hk as [Hk Hkm].
      destruct (Hall k Hkm) as (t' & H1 & H2). pose proof (adders_grow j1 j2 k t' Hj2 H1) as H3. assert (t' = t) as -> by congruence.
      apply (f_sto _ _ F). eapply stored_always; eassumption. }
    apply submseteq_length in Hsub. rewrite take_length_le in Hsub.
    - unfold num. lia.
    - destruct (trace_grow j j2 ltac:(lia)) as [tr Etr]. rewrite Etr. unfold adders, num in *. rewrite omap_app, app_length. lia. }
  destruct (decide (Z.of_nat (S m) <= num (taken (e j1).1))) as [|Hn1]; [exists j1; split; [lia|assumption]|].
  pose proof (taken_grow j j1 Hj1) as Htg.
  destruct (decide (c_r (e j1).2 = RIdle)) as [Hid|Hid].
  - destruct (leads_weak tstep tinit e ls E tgo (fun x => c_r x.2)
      (fun x => c_r x.2 = RIdle /\ taken x.1 = taken (e j1).1 /\ Z.of_nat (S m) <= num (storers x.1)) (fun x => c_r x.2 = RWait /\ taken x.1 = taken (e j1).1) FR) with (i := j1) as (k & Hk & Q1 & Q2).
    + intros x l y Rx (Hx1 & Hx2 & Hx3) St. assert (Hsy : Z.of_nat (S m) <= num (storers y.1)).
      { destruct St as (_ & -> & _). unfold storers, num in *. rewrite omap_app, app_length. lia. }
      destruct x as [tr s], y as [tr' s']. destruct St as (H & Etr & _). cbn [fst snd] in *. subst tr'. unfold taken in *. rewrite omap_app in *.
      destruct H; cbn [c_r omap list_omap] in *; rewrite ?app_nil_r in *; try discriminate; auto.
    + intros x Rx (Hx1 & Hx2 & Hx3). destruct (tinv x Rx) as [Ix Cx]. pose proof (v_len _ _ _ _ Cx) as L. rewrite Hx2 in L.
      destruct x as [tr [d w r]]. cbn [fst snd c_d c_w c_r] in *. subst r. eexists LDTau, (tr, CD d w RWait). split; [split; [apply ds_next; lia|exact Logic.I]|]. cbn. discriminate.
    + split; [exact Hid|]. split; [reflexivity|]. apply Hcount. lia.
    + destruct (next_returns k) as (j' & Hj' & Q3 & Q4); [congruence|]. exists j'. split; [lia|]. rewrite Q4, Q2. lia.
  - destruct (next_returns j1 Hid) as (j' & Hj' & Q3 & Q4). exists j'. split; [lia|]. rewrite Q4. lia.
Qed.
End live.
End room.
