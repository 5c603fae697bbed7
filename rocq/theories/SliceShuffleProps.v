(** C32, the distribution: every arrangement of distinct elements comes from exactly one
    sequence of choices of math/rand.Shuffle, so all are equally likely if the choices are. *)
From Verif Require Import Base SeqSpec GoSlice SliceSpec SliceModel SliceProofs SliceProofs2 SliceHistory SliceProps.

Section shuffle.
Context {A : Type}.
Implicit Types l : list A.
Lemma lswap_at l i j : i < length l -> j < length l -> lswap l i j !! i = l !! j.
Proof.
  intros Hi Hj. unfold lswap. destruct (lookup_lt_is_Some_2 l i Hi) as [a Ea]. destruct (lookup_lt_is_Some_2 l j Hj) as [b Eb]. rewrite Ea, Eb.
  destruct (decide (i = j)) as [->|N]; [rewrite list_lookup_insert by (rewrite insert_length; exact Hj); congruence|].
  rewrite list_lookup_insert_ne by auto. rewrite list_lookup_insert by exact Hi. reflexivity.
Qed.
Lemma lswap_above l i j k : j <= i -> i < k -> lswap l i j !! k = l !! k.
Proof.
  intros Hj Hk. unfold lswap. destruct (l !! i); [|reflexivity]. destruct (l !! j); [|reflexivity]. rewrite !list_lookup_insert_ne by lia. reflexivity.
Qed.
Lemma fisher_yates_above js i : forall l k, i < k -> fisher_yates js i l !! k = l !! k.
Proof.
  induction i as [|i IH]; intros l k Hk; [reflexivity|]. cbn [fisher_yates]. rewrite IH by lia. apply lswap_above; [|lia].
  pose proof (Nat.mod_upper_bound (js (S i)) (S (S i)) ltac:(lia)). lia.
Qed.
Lemma fisher_yates_inj i : forall l js js', NoDup l -> i < length l -> (forall k, js k <= k) -> (forall k, js' k <= k) ->
  fisher_yates js i l = fisher_yates js' i l -> forall k, 1 <= k <= i -> js k = js' k.
Proof.
  induction i as [|i IH]; intros l js js' N Hi H H' E k Hk; [lia|]. cbn [fisher_yates] in E.
  pose proof (H (S i)) as B. pose proof (H' (S i)) as B'. rewrite !Nat.mod_small in E by lia.
  assert (J : js (S i) = js' (S i)).
  { assert (X := f_equal (fun x => x !! S i) E). cbn beta in X. rewrite !fisher_yates_above, !lswap_at in X by lia.
    destruct (lookup_lt_is_Some_2 l (js (S i)) ltac:(lia)) as [a Ea]. rewrite Ea in X. symmetry in X. exact (proj1 (NoDup_alt l) N _ _ a Ea X). }
  destruct (decide (k = S i)) as [->|]; [exact J|]. rewrite J in E. apply (IH (lswap l (S i) (js' (S i)))); [rewrite lswap_perm; exact N|rewrite lswap_length; lia|exact H|exact H'|exact E|lia].
Qed.
End shuffle.

(** math/rand.Shuffle asks for one number j in [0, i] for each i from len - 1 down to 1: there
    are len! sequences of answers, and each of the len! arrangements of distinct elements is
    the result of exactly one of them *)
Theorem slice_shuffle_once :
  forall (A : Type) m (s : slice) (l' : list A), wf m s -> NoDup (contents m s) -> l' ≡ₚ contents m s ->
    exists js, (forall k, js k <= k) /\ (exists m', x_shuffle js m s = Ret m' /\ contents m' s = l') /\
      forall js' m', (forall k, js' k <= k) -> x_shuffle js' m s = Ret m' -> contents m' s = l' -> forall k, 1 <= k < length l' -> js' k = js k.
Proof.
  intros A m s l' W N HP. destruct (slice_shuffle_reaches_all A m s l' W HP) as (js0 & m0 & E0 & B0).
  destruct (x_shuffle_ok js0 m s W) as (m1 & E1 & B1). rewrite E0 in E1. injection E1 as <-.
  assert (C : forall m1 l1, became m s m1 s l1 -> contents m1 s = l1) by (intros m1 l1 Hb; apply Hb).
  set (js := fun k => js0 k mod S k). assert (L : forall k, js k <= k) by (intros k; pose proof (Nat.mod_upper_bound (js0 k) (S k) ltac:(lia)); unfold js; lia).
  assert (F : forall i (l : list A), fisher_yates js i l = fisher_yates js0 i l).
  { induction i as [|i IH]; intros l; [reflexivity|]. cbn [fisher_yates]. rewrite IH. unfold js at 1. rewrite Nat.mod_mod by lia. reflexivity. }
  destruct (x_shuffle_ok js m s W) as (m2 & E2 & B2). rewrite F in B2. exists js. split; [exact L|]. split.
  - exists m2. split; [exact E2|]. rewrite (C _ _ B2), <- (C _ _ B1). apply C. exact B0.
  - intros js' m' L' E' C' k Hk. destruct (x_shuffle_ok js' m s W) as (m3 & E3 & B3). rewrite E' in E3. injection E3 as <-.
    assert (Hl : length l' = length (contents m s)) by (rewrite HP; reflexivity).
    apply (fisher_yates_inj (length (contents m s) - 1) (contents m s)); [exact N|lia|exact L'|exact L| |lia].
    rewrite <- (C _ _ B3), C', F, <- (C _ _ B1). symmetry. apply C. exact B0.
Qed.
Print Assumptions slice_shuffle_once.
(** three elements: the choices 0 (of 0..2) and 1 (of 0..1) give 3 2 1 *)
Example slice_shuffle_once_ex : exists m s, wf m s /\ contents m s = [1; 2; 3] /\ exists m', x_shuffle (fun k => if decide (k = 2) then 0 else 1) m s = Ret m' /\ contents m' s = [3; 2; 1].
Proof. exists [[1; 2; 3]], (Sl 0 0 3 3). split; [split; [cbn; lia|reflexivity]|]. split; [reflexivity|]. eexists. split; reflexivity. Qed.
