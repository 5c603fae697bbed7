From Verif Require Import Base Conc DecModel DecProofs.
Local Open Scope Z.

Section conc.
Context (msg : nat -> list Z).
Definition published (tr : list dlab) : list (list Z) := omap (fun l => match l with LPublish t => Some (msg t) | _ => None end) tr.
Definition viewed (tr : list dlab) : list (list Z) := omap (fun l => match l with LView b => Some b | _ => None end) tr.
Definition adders (tr : list dlab) : list nat := omap (fun l => match l with LAdd t => Some t | _ => None end) tr.
Definition storers (tr : list dlab) : list nat := omap (fun l => match l with LStored t => Some t | _ => None end) tr.
Definition taken (tr : list dlab) : list unit := omap (fun l => match l with LNext true => Some () | _ => None end) tr.
Definition num {A} (l : list A) : Z := Z.of_nat (length l).
Lemma num_app {A} (l k : list A) : num (l ++ k) = num l + num k.
Proof. unfold num. rewrite app_length. lia. Qed.
Lemma num_nonneg {A} (l : list A) : 0 <= num l.
Proof. unfold num. lia. Qed.

Definition slots (size : Z) : list Z := map Z.of_nat (seq 0 (Z.to_nat size)).
(** what a slot holds that the reader has not yet been shown *)
Definition holds (s : cdec) (i : Z) : option (list Z) :=
  if (d_lock (c_d s) i =? lock_empty) || (d_lock (c_d s) i =? lock_busy) then None else
  match c_r s with REmpty => if i =? slot (c_d s) (d_read (c_d s)) then None else Some (d_buf (c_d s) i) | _ => Some (d_buf (c_d s) i) end.
Definition contents (s : cdec) : list (list Z) := omap (holds s) (slots (d_size (c_d s))).

Lemma omap_same {A B} (g g' : A -> option B) (l : list A) : (forall i, i ∈ l -> g i = g' i) -> omap g l = omap g' l.
Proof. induction l as [|x l IH]; intros H; [reflexivity|]. cbn. rewrite (H x) by left. rewrite IH; [reflexivity|]. intros i Hi. apply H. right. exact Hi. Qed.
Lemma omap_one {A B} (g g' : A -> option B) (l : list A) i b : NoDup l -> i ∈ l -> g i = None -> g' i = Some b -> (forall j, j <> i -> g j = g' j) ->
  omap g' l ≡ₚ b :: omap g l.
Proof.
  intros N Hi E1 E2 E3. apply elem_of_list_split in Hi as (l1 & l2 & ->). apply NoDup_app in N as (N1 & N2 & N3). apply NoDup_cons in N3 as [N3 N4].
  rewrite !omap_app. cbn. rewrite E1, E2.
  rewrite (omap_same g g' l1), (omap_same g g' l2); [symmetry; apply Permutation_middle| |]; intros j Hj; apply E3; intros ->; [tauto|].
  apply (N2 i Hj). left.
Qed.
Lemma slots_nodup size : NoDup (slots size).
Proof. apply (NoDup_fmap_2 Z.of_nat). apply NoDup_seq. Qed.
Lemma in_slots size i : 0 <= i < size -> i ∈ slots size.
Proof. intros H. unfold slots. apply (elem_of_list_fmap Z.of_nat). exists (Z.to_nat i). split; [lia|]. apply elem_of_seq. lia. Qed.
Lemma slot_range d ts : 0 < d_size d -> 0 <= slot d ts < d_size d.
Proof. intros H. apply Z.mod_pos_bound. exact H. Qed.

Definition ticket (p : wpc) : option Z := match p with WLoad ts | WCas ts | WCopy ts | WStore ts => Some ts | _ => None end.
Definition holder (p : wpc) : option Z := match p with WCopy ts | WStore ts => Some ts | _ => None end.
Definition began (p : wpc) : bool := match p with WIdle | WAdd | WDropped => false | _ => true end.
Record cinv (size : Z) (tr : list dlab) (s : cdec) : Prop := {
  v_size : d_size (c_d s) = size;
  v_pos : 0 < size < 2^64;
  v_write : d_write (c_d s) = u64 (num (adders tr) - 1);
  v_ticket : forall t ts, ticket (c_w s t) = Some ts -> 0 <= ts < num (adders tr);
  v_busy : forall t ts, holder (c_w s t) = Some ts -> d_lock (c_d s) (slot (c_d s) ts) = lock_busy;
  v_one : forall t t' ts ts', holder (c_w s t) = Some ts -> holder (c_w s t') = Some ts' -> slot (c_d s) ts = slot (c_d s) ts' -> t = t';
  v_buf : forall t ts, c_w s t = WStore ts -> d_buf (c_d s) (slot (c_d s) ts) = msg t;
  v_view : c_r s = RView \/ c_r s = REmpty ->
    d_lock (c_d s) (slot (c_d s) (d_read (c_d s))) <> lock_empty /\ d_lock (c_d s) (slot (c_d s) (d_read (c_d s))) <> lock_busy;
  v_perm : published tr ≡ₚ viewed tr ++ contents s;
  v_len : d_len (c_d s) = num (storers tr) - num (taken tr);
  v_began : forall t, began (c_w s t) = true -> t ∈ adders tr;
  v_stored : forall t, t ∈ storers tr -> c_w s t = WStored;
  v_nodup : NoDup (storers tr);
  v_sub : forall t, t ∈ storers tr -> t ∈ adders tr;
  v_more : c_r s <> RIdle -> num (taken tr) < num (storers tr);
  v_le : num (taken tr) <= num (storers tr);
  v_viewed : num (viewed tr) = num (taken tr) + match c_r s with REmpty | RDec => 1 | _ => 0 end }.
Lemma cinv_init size : 0 < size < 2^64 -> cinv size [] (d_init size).
Proof.
  intros H. constructor; cbn; try reflexivity; try discriminate; try (intros; discriminate); try (intros; lia); try (intros [|]; discriminate).
  - unfold contents. cbn. induction (slots size); [reflexivity|]. cbn. unfold holds at 1. cbn. exact IHl.
  - intros t Ht. inversion Ht.
  - constructor.
  - intros t Ht. inversion Ht.
  - tauto.
Qed.
Ltac ts := repeat match goal with
  | |- context [tset _ ?t _ ?u] => destruct (decide (u = t)) as [->|]; [rewrite ?tset_eq in *|rewrite ?tset_ne in * by assumption]
  | H : context [tset _ ?t _ ?u] |- _ => destruct (decide (u = t)) as [->|]; [rewrite ?tset_eq in *|rewrite ?tset_ne in * by assumption]
  end.
Lemma holds_lock d w r d' w' r' i : d_lock d' i = d_lock d i -> d_buf d' i = d_buf d i -> (r = REmpty <-> r' = REmpty) ->
  (r = REmpty -> slot d' (d_read d') = slot d (d_read d)) -> holds (CD d' w' r') i = holds (CD d w r) i.
Proof.
  intros E1 E2 E3 E4. unfold holds. cbn [c_d c_r]. rewrite E1, E2. destruct (_ || _); [reflexivity|].
  destruct r, r'; try reflexivity; try (destruct E3 as [E3 E3']; first [discriminate (E3 eq_refl)|discriminate (E3' eq_refl)]). rewrite E4 by reflexivity. reflexivity.
Qed.
Lemma contents_same d w r d' w' r' : d_size d' = d_size d -> d_lock d' = d_lock d -> d_buf d' = d_buf d -> (r = REmpty <-> r' = REmpty) ->
  (r = REmpty -> slot d' (d_read d') = slot d (d_read d)) -> contents (CD d' w' r') = contents (CD d w r).
Proof.
  intros E0 E1 E2 E3 E4. unfold contents. cbn [c_d]. rewrite E0. apply omap_same. intros i _. apply holds_lock; try assumption; congruence.
Qed.
Lemma u64_pred z : 1 <= z < 2^64 -> u64 (z + (2^64 - 1)) = z - 1.
Proof. intros H. unfold u64. replace (z + (2^64 - 1)) with (z - 1 + 1 * 2^64) by lia. rewrite Z.mod_add by lia. apply Z.mod_small. lia. Qed.
Lemma cinv_step size tr s l s' : num (adders (tr ++ [l])) <= 2^64 - 2 -> cinv size tr s -> d_step msg s l s' -> cinv size (tr ++ [l]) s'.
Proof.
  intros B I H.
  assert (ST : num (storers tr) <= num (adders tr)).
  { unfold num. apply inj_le. apply submseteq_length. apply NoDup_submseteq; [apply (v_nodup _ _ _ I)|apply (v_sub _ _ _ I)]. }
  destruct I as [V1 V2 V3 V4 V5 V6 V7 V8 V9 V10 V11 V12 V13 V14 V15 V16 V17].
  pose proof (num_nonneg (adders tr)) as NA. pose proof (num_nonneg (taken tr)) as NT.
  assert (A0 : num (adders tr) <= 2^64 - 2).
  { revert B. unfold adders. rewrite omap_app, num_app. pose proof (num_nonneg (omap (fun l0 => match l0 with LAdd t => Some t | _ => None end) [l])). lia. }
  destruct H; cbn [c_d c_w c_r] in *.
  all: constructor; cbn [c_d c_w c_r];
    [exact V1|exact V2|..];
    unfold published, viewed, adders, storers, taken in *; rewrite ?omap_app in *; cbn [omap list_omap] in *; rewrite ?app_nil_r;
    try exact V3; try exact V10; try exact V13; try exact V16; try exact V14;
    try solve [erewrite contents_same; [exact V9|try reflexivity; try tauto; try (intros; discriminate); try (split; intros; discriminate)..]];
    try (intros; ts; cbn [ticket holder began] in *; solve [discriminate | eauto | congruence | eapply V11; match goal with H : _ = _ |- _ => rewrite H; reflexivity end]);
    try exact V17; try (intros; apply V15; congruence);
    try (intros u Hu; ts; [pose proof (V12 _ Hu); congruence|exact (V12 _ Hu)]);
    try (intros u us Hu; ts; cbn [ticket] in *; [injection Hu as <-; eapply V4; match goal with H : _ = _ |- _ => rewrite H; reflexivity end|exact (V4 _ _ Hu)]);
    try (intros [|]; discriminate).
  - (* add *) cbn [d_write]. rewrite V3, num_app. unfold u64. rewrite Zplus_mod_idemp_l. change (num [t]) with 1. f_equal. lia.
  - intros u us Hu. rewrite num_app in *. ts; cbn [ticket] in *.
    + injection Hu as <-. rewrite (u64_next _ _ V3) by (change (num [t]) with 1 in B; lia). change (num [t]) with 1. lia.
    + pose proof (V4 _ _ Hu). change (num [t]) with 1. lia.
  - intros u Hu. apply elem_of_app. ts; [right; left|left; exact (V11 _ Hu)].
  - intros u Hu. apply elem_of_app. left. exact (V14 _ Hu).
  - (* cas *) intros u us Hu. cbn. ts; cbn [holder] in *; [injection Hu as <-; apply zset_eq|]. change (slot (with_lock d (slot d ts) lock_busy) us) with (slot d us).
    destruct (decide (slot d us = slot d ts)) as [->|N]; [apply zset_eq|]. rewrite zset_ne by exact N. exact (V5 _ _ Hu).
  - intros u u' us us' Hu Hu'. change (slot (with_lock d (slot d ts) lock_busy) us) with (slot d us). change (slot (with_lock d (slot d ts) lock_busy) us') with (slot d us'). intros E.
    destruct (decide (u = t)) as [->|N1]; [rewrite tset_eq in Hu|rewrite tset_ne in Hu by exact N1];
      (destruct (decide (u' = t)) as [->|N2]; [rewrite tset_eq in Hu'|rewrite tset_ne in Hu' by exact N2]); cbn [holder] in *; try reflexivity.
    + injection Hu as <-. pose proof (V5 _ _ Hu') as Q. rewrite <- E in Q. unfold lock_empty, lock_busy in *. lia.
    + injection Hu' as <-. pose proof (V5 _ _ Hu) as Q. rewrite E in Q. unfold lock_empty, lock_busy in *. lia.
    + eapply V6; eassumption.
  - intros Hr. destruct (V8 Hr) as [Q1 Q2]. cbn. change (slot (with_lock d (slot d ts) lock_busy) (d_read d)) with (slot d (d_read d)).
    destruct (decide (slot d (d_read d) = slot d ts)) as [E|N]; [rewrite E in Q1; congruence|]. rewrite zset_ne by exact N. auto.
  - rewrite V9. unfold contents. cbn. apply Permutation_refl', f_equal, omap_same. intros i _.
    destruct (decide (i = slot d ts)) as [->|N].
    + unfold holds. cbn. rewrite zset_eq, H0, !Z.eqb_refl. reflexivity.
    + symmetry. apply holds_lock; cbn; try reflexivity. apply zset_ne. exact N.
  - (* copy *) intros u us Hu. cbn. ts; cbn [holder] in *; [injection Hu as <-; apply (V5 t); rewrite H; reflexivity|exact (V5 _ _ Hu)].
  - intros u u' us us' Hu Hu' E. cbn [slot d_size] in E. change (us mod d_size d = us' mod d_size d) in E.
    assert (K : forall v vs, holder (tset w t (WStore ts) v) = Some vs -> holder (w v) = Some vs).
    { intros v vs Hv. destruct (decide (v = t)) as [->|Nv]; [rewrite tset_eq in Hv; rewrite H; exact Hv|rewrite tset_ne in Hv by exact Nv; exact Hv]. }
    apply (V6 u u' us us'); [apply K; exact Hu|apply K; exact Hu'|exact E].
  - intros u us Hu. cbn. change (slot (Dec (d_read d) (d_write d) (d_len d) (d_size d) (d_lock d) (zset (d_buf d) (slot d ts) (msg t))) us) with (slot d us).
    ts; [injection Hu as <-; apply zset_eq|]. rewrite zset_ne; [exact (V7 _ _ Hu)|]. intros E.
    assert (u = t); [|congruence]. apply (V6 u t us ts); [rewrite Hu; reflexivity|rewrite H; reflexivity|exact E].
  - rewrite V9. unfold contents. cbn. apply Permutation_refl', f_equal, omap_same. intros i _.
    destruct (decide (i = slot d ts)) as [->|N].
    + unfold holds. cbn. rewrite (V5 t ts) by (rewrite H; reflexivity). rewrite Z.eqb_refl, orb_true_r. reflexivity.
    + symmetry. apply holds_lock; cbn; try reflexivity. apply zset_ne. exact N.
  - (* store *) intros u us Hu. cbn. change (slot (with_lock d (slot d ts) ts) us) with (slot d us). ts; cbn [holder] in *; [discriminate|].
    rewrite zset_ne; [exact (V5 _ _ Hu)|]. intros E. assert (u = t); [|congruence]. apply (V6 u t us ts); [exact Hu|rewrite H; reflexivity|exact E].
  - intros Hr. destruct (V8 Hr) as [Q1 Q2]. cbn. change (slot (with_lock d (slot d ts) ts) (d_read d)) with (slot d (d_read d)).
    destruct (decide (slot d (d_read d) = slot d ts)) as [E|N]; [|rewrite zset_ne by exact N; auto].
    rewrite E, (V5 t ts) in Q2 by (rewrite H; reflexivity). congruence.
  - rewrite V9. rewrite <- app_assoc. apply Permutation_app_head. rewrite Permutation_app_comm. cbn [app]. symmetry. unfold contents. cbn [c_d with_lock d_size].
    pose proof (V5 t ts ltac:(rewrite H; reflexivity)) as Bz. pose proof (V4 t ts ltac:(rewrite H; reflexivity)) as Tk.
    apply (omap_one _ _ _ (slot d ts)).
    + apply slots_nodup.
    + apply in_slots. apply slot_range. lia.
    + unfold holds. cbn. rewrite Bz, Z.eqb_refl, orb_true_r. reflexivity.
    + unfold holds. cbn. rewrite zset_eq.
      assert (E1 : (ts =? lock_empty) = false) by (apply Z.eqb_neq; unfold lock_empty; lia).
      assert (E2 : (ts =? lock_busy) = false) by (apply Z.eqb_neq; unfold lock_busy; lia).
      rewrite E1, E2. cbn [orb]. rewrite (V7 t ts H). destruct r; try reflexivity.
      change (slot (with_lock d (slot d ts) ts) (d_read d)) with (slot d (d_read d)).
      destruct (Z.eqb_spec (slot d ts) (slot d (d_read d))) as [E|]; [|reflexivity]. destruct (V8 ltac:(auto)) as [_ Q]. rewrite <- E in Q. congruence.
    + intros j N. symmetry. apply holds_lock; cbn; try reflexivity. apply zset_ne. exact N.
  - (* len *) cbn [d_len]. rewrite V10, num_app. change (num [t]) with 1.  replace (num _ + 1 - num _) with (num (omap (fun l => match l with LStored t => Some t | _ => None end) tr) - num (omap (fun l => match l with LNext true => Some () | _ => None end) tr) + 1) by lia. apply u64_small. lia.
  - intros u Hu. apply elem_of_app in Hu as [Hu|Hu]; ts; try reflexivity; [exact (V12 _ Hu)|]. apply elem_of_list_singleton in Hu. congruence.
  - apply NoDup_app. split; [exact V13|]. split; [|apply NoDup_singleton]. intros u Hu Hu'. apply elem_of_list_singleton in Hu' as ->. pose proof (V12 _ Hu). congruence.
  - intros u Hu. apply elem_of_app in Hu as [Hu|Hu]; [exact (V14 _ Hu)|]. apply elem_of_list_singleton in Hu as ->. apply V11. rewrite H. reflexivity.
  - intros Hr. rewrite num_app. specialize (V15 Hr). change (num [t]) with 1. lia.
  - rewrite num_app. change (num [t]) with 1. lia.
  - (* next *) intros _. lia.
  - (* view *) rewrite V9. rewrite <- app_assoc. apply Permutation_app_head. cbn [app]. unfold contents. cbn [c_d d_size].
    destruct (V8 ltac:(auto)) as [Q1 Q2]. apply Z.eqb_neq in Q1, Q2.
    apply (omap_one _ _ _ (slot d (d_read d))).
    + apply slots_nodup.
    + apply in_slots. apply slot_range. lia.
    + unfold holds. cbn. rewrite Q1, Q2, Z.eqb_refl. reflexivity.
    + unfold holds. cbn. rewrite Q1, Q2. reflexivity.
    + intros j N. unfold holds. cbn. destruct (_ || _); [reflexivity|]. apply Z.eqb_neq in N. rewrite N. reflexivity.
  - rewrite num_app. change (num [_]) with 1. lia.
  - (* empty *) destruct (V8 ltac:(auto)) as [Q1 Q2]. intros u us Hu. cbn. change (slot (with_lock d (slot d (d_read d)) lock_empty) us) with (slot d us).
    pose proof (V5 _ _ Hu) as Q. rewrite zset_ne; [exact Q|]. intros E. rewrite E in Q. congruence.
  - rewrite V9. unfold contents. cbn. apply Permutation_refl', f_equal, omap_same. intros i _. unfold holds. cbn.
    destruct (Z.eqb_spec i (slot d (d_read d))) as [->|N]; [rewrite zset_eq, Z.eqb_refl; cbn; destruct (_ || _); reflexivity|]. rewrite zset_ne by exact N. reflexivity.
  - (* dec *) cbn [d_len]. rewrite V10, num_app. change (num [()]) with 1. specialize (V15 ltac:(discriminate)). rewrite u64_pred; lia.
  - rewrite num_app. specialize (V15 ltac:(discriminate)). change (num [()]) with 1. lia.
  - rewrite num_app. change (num [()]) with 1. lia.
Qed.
Lemma cinv_steps size tr s : 0 < size < 2^64 -> steps (d_step msg) (d_init size) tr s -> num (adders tr) <= 2^64 - 2 -> cinv size tr s.
Proof.
  intros Hs. revert tr s. apply (steps_trace_invariant (d_init size) (d_step msg) (fun tr s => num (adders tr) <= 2^64 - 2 -> cinv size tr s)).
  - intros _. apply cinv_init. exact Hs.
  - intros tr s l s' _ IH H B. apply (cinv_step size tr s l s' B); [|exact H]. apply IH.
    revert B. unfold adders. rewrite omap_app, num_app. pose proof (num_nonneg (omap (fun l0 => match l0 with LAdd t => Some t | _ => None end) [l])). lia.
Qed.
End conc.
