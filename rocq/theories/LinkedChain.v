(** Reasoning about chains of linked nodes. *)
From Verif Require Import Base LinkedHeap.

Section Own.
Context {N : Type}.
Implicit Types (h : list N) (ls : list nat).

(** Ownership: the chain cells [ls] and the pool cells are distinct, allocated. *)
Definition own h ls (pool : list nat) :=
  NoDup (ls ++ pool) /\ Forall (fun l => l < length h) (ls ++ pool).

Lemma own_bound_length h ls pool : own h ls pool -> length ls <= length h.
Proof.
  intros [HN HF]. apply NoDup_app in HN as (HN & _ & _). apply Forall_app in HF as [HF _].
  assert (Hsub : ls ⊆+ seq 0 (length h)).
  { apply NoDup_submseteq; [exact HN|]. intros x Hx. rewrite Forall_forall in HF.
    apply elem_of_seq. specialize (HF _ Hx). lia. }
  apply submseteq_length in Hsub. rewrite seq_length in Hsub. exact Hsub.
Qed.

Lemma own_resize h h' ls pool : length h <= length h' -> own h ls pool -> own h' ls pool.
Proof. intros Hl [HN HF]. split; [exact HN|]. eapply Forall_impl; [exact HF|]. cbn; intros; lia. Qed.

Lemma own_perm h ls ls' pool pool' :
  ls ++ pool ≡ₚ ls' ++ pool' -> own h ls pool -> own h ls' pool'.
Proof. intros HP [HN HF]. split; rewrite <- HP; assumption. Qed.

Lemma own_release h l ls pool : own h (l :: ls) pool -> own h ls (pool ++ [l]).
Proof.
  apply own_perm. cbn. rewrite app_assoc. apply Permutation_cons_append.
Qed.
End Own.

Section Chain.
Context {A : Type}.
Implicit Types (h : list (node A)) (ls : list nat) (xs : list A).

(** [seg h p ls xs e]: following [next] from [p] visits the locations [ls],
    holding the values [xs], and then reaches [e]. *)
Fixpoint seg h (p : option nat) ls xs (e : option nat) : Prop :=
  match ls, xs with
  | [], [] => p = e
  | l :: ls', x :: xs' =>
      p = Some l /\ exists nx, h !! l = Some (Node x nx) /\ seg h nx ls' xs' e
  | _, _ => False
  end.
Definition chain h p ls xs := seg h p ls xs None.

Lemma seg_length h p ls xs e : seg h p ls xs e -> length ls = length xs.
Proof.
  revert p xs; induction ls as [|l ls IH]; intros p [|x xs]; cbn; try tauto.
  intros (-> & nx & _ & H). f_equal; eauto.
Qed.

Lemma seg_bound h p ls xs e : seg h p ls xs e -> Forall (fun l => l < length h) ls.
Proof.
  revert p xs; induction ls as [|l ls IH]; intros p [|x xs]; cbn; try tauto.
  - intros _; constructor.
  - intros (-> & nx & Hl & H). constructor; [|eauto].
    apply lookup_lt_Some in Hl; exact Hl.
Qed.

Lemma seg_app h p ls1 ls2 xs1 xs2 m e :
  seg h p ls1 xs1 m -> seg h m ls2 xs2 e -> seg h p (ls1 ++ ls2) (xs1 ++ xs2) e.
Proof.
  revert p xs1; induction ls1 as [|l ls IH]; intros p [|x xs]; cbn; try tauto.
  - intros ->; auto.
  - intros (-> & nx & Hl & H) H2. split; [reflexivity|]. exists nx; split; eauto.
Qed.

Lemma seg_app_inv h p ls xs1 xs2 e :
  seg h p ls (xs1 ++ xs2) e ->
  exists m ls1 ls2, ls = ls1 ++ ls2 /\ seg h p ls1 xs1 m /\ seg h m ls2 xs2 e.
Proof.
  revert p ls; induction xs1 as [|x xs1 IH]; intros p ls H.
  - exists p, [], ls. cbn in *. auto.
  - destruct ls as [|l ls]; cbn in H; [tauto|]. destruct H as (-> & nx & Hl & H).
    destruct (IH _ _ H) as (m & ls1 & ls2 & -> & H1 & H2).
    exists m, (l :: ls1), ls2. cbn. repeat split; eauto.
Qed.

Lemma seg_insert h p ls xs e k nd :
  k ∉ ls -> seg h p ls xs e -> seg (<[k := nd]> h) p ls xs e.
Proof.
  revert p xs; induction ls as [|l ls IH]; intros p [|x xs]; cbn; try tauto.
  intros Hk (-> & nx & Hl & H). apply not_elem_of_cons in Hk as [Hkl Hk].
  split; [reflexivity|]. exists nx. rewrite list_lookup_insert_ne by congruence. eauto.
Qed.

Lemma seg_grow h p ls xs e ex : seg h p ls xs e -> seg (h ++ ex) p ls xs e.
Proof.
  revert p xs; induction ls as [|l ls IH]; intros p [|x xs]; cbn; try tauto.
  intros (-> & nx & Hl & H).
  split; [reflexivity|]. exists nx. rewrite lookup_app_l; eauto using lookup_lt_Some.
Qed.

Lemma seg_snoc_inv h p ls xs x e :
  seg h p ls (xs ++ [x]) e ->
  exists ls1 t, ls = ls1 ++ [t] /\ seg h p ls1 xs (Some t) /\ h !! t = Some (Node x e).
Proof.
  intros H. apply seg_app_inv in H as (m & ls1 & ls2 & -> & H1 & H2).
  destruct ls2 as [|t [|? ?]]; cbn in H2; try tauto.
  - destruct H2 as (-> & nx & Ht & ->). eauto 10.
  - destruct H2 as (-> & nx & Ht & []).
Qed.

Lemma chain_nil h ls xs : chain h None ls xs -> ls = [] /\ xs = [].
Proof. destruct ls, xs; cbn; try tauto. intros [H _]; discriminate. Qed.

Lemma chain_cons h l ls xs :
  chain h (Some l) ls xs ->
  exists x nx ls' xs', ls = l :: ls' /\ xs = x :: xs' /\ h !! l = Some (Node x nx)
                       /\ chain h nx ls' xs'.
Proof.
  destruct ls, xs; cbn; try tauto; try discriminate.
  intros ([= ->] & nx & H & H'). eauto 10.
Qed.

(** What a Get can do. *)
Lemma pool_get_spec (zn : node A) c pool h n pool' h' :
  pool_get zn c pool h = (n, pool', h') ->
  Forall (fun l => l < length h) pool ->
  (h' = h /\ n ∈ pool /\ pool ≡ₚ n :: pool') \/
  (h' = h ++ [zn] /\ n = length h /\ pool' = pool).
Proof.
  unfold pool_get. destruct (pool !! c) as [l|] eqn:E; intros [= <- <- <-] _.
  - left. split; [reflexivity|]. split; [eapply elem_of_list_lookup_2; eauto|].
    apply delete_Permutation; exact E.
  - right; auto.
Qed.

Lemma pool_get_own (zn : node A) c pool h ls n pool' h' :
  pool_get zn c pool h = (n, pool', h') ->
  own h ls pool ->
  n ∉ ls /\ n < length h' /\ own h' (n :: ls) pool' /\
  (forall p xs e, seg h p ls xs e -> seg h' p ls xs e).
Proof.
  intros E [HN HF]. apply pool_get_spec in E; [|apply Forall_app in HF; tauto].
  destruct E as [(-> & Hin & HP) | (-> & -> & ->)].
  - rewrite HP in HN. rewrite HP in HF.
    assert (Hm : ls ++ n :: pool' ≡ₚ n :: ls ++ pool') by (symmetry; apply Permutation_middle).
    rewrite Hm in HN. rewrite Hm in HF.
    apply NoDup_cons in HN as [Hnot HN].
    repeat split.
    + intros Hc; apply Hnot, elem_of_app; auto.
    + apply Forall_cons in HF; tauto.
    + constructor; auto.
    + exact HF.
    + auto.
  - repeat split.
    + intros Hc. apply Forall_app in HF as [HF _].
      rewrite Forall_forall in HF. specialize (HF _ Hc). lia.
    + rewrite app_length; cbn; lia.
    + cbn. constructor; [|exact HN]. intros Hc. rewrite Forall_forall in HF.
      specialize (HF _ Hc). lia.
    + cbn. constructor; [rewrite app_length; cbn; lia|].
      eapply Forall_impl; [exact HF|]. intros y Hy; cbn in Hy; rewrite app_length; cbn; lia.
    + intros; apply seg_grow; auto.
Qed.

End Chain.
