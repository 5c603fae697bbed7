(** pdqsort: what the parts do to the segment [a, b) of the slice. *)
From Verif Require Import Base SortModel SortProofs PdqModel PdqStable.
From Coq Require Import Sorting.Sorted.

Section proofs.
Context {A : Type} (less : A -> A -> bool).
Notation le := (fun a b => less b a = false).
Implicit Types (s : list A) (a b i j : nat).

(** *** segments *)
Definition seg a b s s' : Prop := s' ≡ₚ s /\ forall k, (k < a \/ b <= k)%nat -> s' !! k = s !! k.
Definition sorted a b s : Prop := forall i j x y, (a <= i < j)%nat -> (j < b)%nat -> s !! i = Some x -> s !! j = Some y -> less y x = false.
Definition leftb s a b : Prop := forall i j x y, (i < a)%nat -> (a <= j < b)%nat -> s !! i = Some x -> s !! j = Some y -> less y x = false.
Definition allin (P : A -> Prop) a b s : Prop := forall k x, (a <= k < b)%nat -> s !! k = Some x -> P x.

Lemma seg_refl a b s : seg a b s s.
Proof. split; reflexivity. Qed.
Lemma seg_trans a b s1 s2 s3 : seg a b s1 s2 -> seg a b s2 s3 -> seg a b s1 s3.
Proof. intros [P1 H1] [P2 H2]. split; [rewrite P2; exact P1|]. intros k Hk. rewrite H2, H1 by exact Hk. reflexivity. Qed.
Lemma seg_mono a b a' b' s s' : (a <= a')%nat -> (b' <= b)%nat -> seg a' b' s s' -> seg a b s s'.
Proof. intros L1 L2 [P H]. split; [exact P|]. intros k Hk. apply H. lia. Qed.
Lemma seg_length a b s s' : seg a b s s' -> length s' = length s.
Proof. intros [P _]. apply Permutation_length. exact P. Qed.
Lemma cut3 s a b : (a <= b)%nat -> (b <= length s)%nat -> exists l u r, s = l ++ u ++ r /\ length l = a /\ length u = (b - a)%nat.
Proof.
  intros H1 H2. exists (take a s), (take (b - a) (drop a s)), (drop (b - a) (drop a s)). rewrite !take_drop.
  rewrite !take_length, drop_length. split_and!; [reflexivity|lia|lia].
Qed.
Lemma seg_split (l u r : list A) s' a b : a = length l -> b = (a + length u)%nat -> seg a b (l ++ u ++ r) s' -> exists w, s' = l ++ w ++ r /\ w ≡ₚ u.
Proof.
  intros -> -> S. pose proof (seg_length _ _ _ _ S) as L. rewrite !app_length in L. destruct S as [P H].
  destruct (cut3 s' (length l) (length l + length u)) as (l' & w & r' & -> & L1 & L2); [lia|lia|]. rewrite !app_length in L.
  assert (l' = l).
  { apply list_eq_same_length with (n := length l); [lia|lia|]. intros k x y Hk X Y. specialize (H k (or_introl Hk)).
    rewrite !lookup_app_l in H by lia. congruence. }
  assert (r' = r).
  { apply list_eq_same_length with (n := length r); [lia|lia|]. intros k x y Hk X Y. specialize (H (length l + length u + k)%nat ltac:(lia)).
    rewrite !lookup_app_r in H by lia. replace (length l + length u + k - length l - length u)%nat with k in H by lia.
    replace (length l + length u + k - length l' - length w)%nat with k in H by lia. congruence. }
  subst. exists w. split; [reflexivity|]. apply Permutation_app_inv_l in P. apply Permutation_app_inv_r in P. exact P.
Qed.
Lemma seg_of (l u w r : list A) a b : a = length l -> b = (a + length u)%nat -> w ≡ₚ u -> seg a b (l ++ u ++ r) (l ++ w ++ r).
Proof.
  intros -> -> P. pose proof (Permutation_length P) as L. split; [rewrite P; reflexivity|]. intros k [Hk|Hk].
  - rewrite !lookup_app_l by lia. reflexivity.
  - rewrite !lookup_app_r by lia. f_equal. lia.
Qed.
Lemma lookup_seg (l u r : list A) k x : (length l <= k < length l + length u)%nat -> (l ++ u ++ r) !! k = Some x -> u !! (k - length l)%nat = Some x.
Proof. intros Hk H. rewrite lookup_app_r in H by lia. rewrite lookup_app_l in H by lia. exact H. Qed.
Lemma seg_all P a b s s' : seg a b s s' -> (b <= length s)%nat -> allin P a b s -> allin P a b s'.
Proof.
  intros S L H k x Hk X. destruct (cut3 s a b) as (l & u & r & -> & L1 & L2); [lia|exact L|].
  destruct (seg_split l u r s' a b) as (w & -> & Q); [lia|lia|exact S|]. pose proof (Permutation_length Q) as Lw.
  apply lookup_seg in X; [|lia]. assert (x ∈ u) as Hx by (rewrite <- Q; eapply elem_of_list_lookup_2; exact X).
  apply elem_of_list_lookup in Hx as [q Hq]. pose proof (lookup_lt_Some _ _ _ Hq). apply (H (a + q)%nat x); [lia|]. rewrite lookup_app_r by lia.
  rewrite lookup_app_l by lia. rewrite <- Hq. f_equal. lia.
Qed.
Lemma leftb_seg a b s s' : seg a b s s' -> (b <= length s)%nat -> leftb s a b -> leftb s' a b.
Proof.
  intros S L H i j x y Hi Hj X Y. rewrite (proj2 S) in X by lia.
  revert j y Hj Y. change (allin (fun y => less y x = false) a b s'). apply (seg_all _ _ _ _ _ S L). intros j y Hj Y. exact (H i j x y Hi Hj X Y).
Qed.
Lemma sorted_list (l w r : list A) a b : a = length l -> b = (a + length w)%nat -> sorted a b (l ++ w ++ r) <-> StronglySorted le w.
Proof.
  intros -> ->. split.
  - intros H. apply ss_of_lookup. intros i j x y Hij X Y. pose proof (lookup_lt_Some _ _ _ X). pose proof (lookup_lt_Some _ _ _ Y).
    apply (H (length l + i)%nat (length l + j)%nat x y); [lia|lia| |]; rewrite lookup_app_r by lia; rewrite lookup_app_l by lia; [rewrite <- X|rewrite <- Y]; f_equal; lia.
  - intros H i j x y Hi Hj X Y. apply lookup_seg in X; [|lia]. apply lookup_seg in Y; [|lia]. apply (ss_lookup _ _ H (i - length l)%nat (j - length l)%nat); [lia|exact X|exact Y].
Qed.
Lemma sorted_same a b s s' : (forall k, (a <= k < b)%nat -> s' !! k = s !! k) -> sorted a b s -> sorted a b s'.
Proof. intros E H i j x y Hi Hj X Y. rewrite E in X, Y by lia. exact (H i j x y Hi Hj X Y). Qed.

(** *** exchanges *)
Lemma split2 s i j : (i < j)%nat -> (j < length s)%nat -> exists l x m y r, s = l ++ x :: m ++ y :: r /\ length l = i /\ (j = i + 1 + length m)%nat.
Proof.
  intros Hi Hj. destruct (lookup_lt_is_Some_2 s i) as [x X]; [lia|]. destruct (lookup_lt_is_Some_2 s j) as [y Y]; [lia|].
  destruct (elem_of_list_split_length _ _ _ X) as (l & t & -> & ->). rewrite lookup_app_r in Y by lia.
  destruct (j - length l)%nat as [|q] eqn:Q; [lia|]. cbn in Y. destruct (elem_of_list_split_length _ _ _ Y) as (m & r & -> & ->).
  exists l, x, m, y, r. split_and!; [reflexivity|reflexivity|lia].
Qed.
Lemma sswap_perm s i j s' : sswap s i j = Ret s' -> s' ≡ₚ s.
Proof.
  assert (G : forall i j, (i < j)%nat -> (j < length s)%nat -> sswap s i j = Ret s' -> s' ≡ₚ s).
  { clear i j. intros i j Hi Hj H. destruct (split2 s i j Hi Hj) as (l & x & m & y & r & -> & <- & ->).
    rewrite sswap_mid in H by lia. injection H as <-. apply Permutation_app_head. rewrite <- !Permutation_middle. apply perm_swap. }
  intros H. assert (B : (i < length s /\ j < length s)%nat).
  { unfold sswap, sget in H. destruct (s !! i) eqn:X; [|discriminate]. destruct (s !! j) eqn:Y; [|discriminate]. split; eapply lookup_lt_Some; eassumption. }
  destruct (Nat.lt_trichotomy i j) as [L|[->|L]].
  - apply (G i j); [lia|lia|exact H].
  - unfold sswap, sget in H. destruct (s !! j) as [x|] eqn:X; [|discriminate]. cbn in H. injection H as <-. rewrite !list_insert_id; [reflexivity|exact X|].
    rewrite list_insert_id; exact X.
  - rewrite sswap_comm in H. apply (G j i); [lia|lia|exact H].
Qed.
Lemma sswap_spec s i j : (i < length s)%nat -> (j < length s)%nat ->
  wp (sswap s i j) (fun s' => s' ≡ₚ s /\ s' !! i = s !! j /\ s' !! j = s !! i /\ forall k, k <> i -> k <> j -> s' !! k = s !! k).
Proof.
  intros Hi Hj. destruct (lookup_lt_is_Some_2 s i Hi) as [x X]. destruct (lookup_lt_is_Some_2 s j Hj) as [y Y].
  assert (E : sswap s i j = Ret (<[j:=x]> (<[i:=y]> s))) by (unfold sswap, sget; rewrite X, Y; reflexivity).
  exists (<[j:=x]> (<[i:=y]> s)). split; [exact E|]. split_and!.
  - exact (sswap_perm _ _ _ _ E).
  - destruct (decide (i = j)) as [->|N].
    + rewrite list_lookup_insert by (rewrite insert_length; exact Hj). congruence.
    + rewrite list_lookup_insert_ne by congruence. rewrite list_lookup_insert by exact Hi. congruence.
  - rewrite list_lookup_insert by (rewrite insert_length; exact Hj). congruence.
  - intros k K1 K2. rewrite !list_lookup_insert_ne by congruence. reflexivity.
Qed.
Lemma sswap_seg s a b i j : (a <= i < b)%nat -> (a <= j < b)%nat -> (b <= length s)%nat ->
  wp (sswap s i j) (fun s' => seg a b s s' /\ s' !! i = s !! j /\ s' !! j = s !! i /\ forall k, k <> i -> k <> j -> s' !! k = s !! k).
Proof.
  intros Hi Hj L. eapply wp_mono; [apply (sswap_spec s i j); lia|]. intros s' (P & H1 & H2 & H3). split_and!; try assumption.
  split; [exact P|]. intros k Hk. apply H3; lia.
Qed.
Lemma sless_ok s i j : (i < length s)%nat -> (j < length s)%nat -> exists x y, s !! i = Some x /\ s !! j = Some y /\ sless less s i j = Ret (less x y).
Proof.
  intros Hi Hj. destruct (lookup_lt_is_Some_2 s i Hi) as [x X]. destruct (lookup_lt_is_Some_2 s j Hj) as [y Y].
  exists x, y. split_and!; [exact X|exact Y|]. apply sless_spec; assumption.
Qed.

(** *** insertion sort *)
Lemma insertion_idx s a b : (a <= b)%nat -> (b <= length s)%nat -> wp (insertion less s a b) (fun s' => seg a b s s' /\ (strict_weak less -> sorted a b s')).
Proof.
  intros H1 H2. destruct (cut3 s a b H1 H2) as (l & u & r & -> & L1 & L2).
  eapply wp_mono; [apply insertion_spec; lia|]. intros s' (w & -> & P & S & _). pose proof (Permutation_length P). split.
  - apply seg_of; [lia|lia|exact P].
  - intros W. apply sorted_list; [lia|lia|exact (S W)].
Qed.

(** *** heap sort *)
Section heap.
Context (first : nat).
Definition node s i : option A := s !! (first + i)%nat.
Definition heap (lo hi : nat) s : Prop := forall i c x y, (lo <= i)%nat -> (c = 2 * i + 1 \/ c = 2 * i + 2)%nat -> (c < hi)%nat ->
  node s i = Some x -> node s c = Some y -> less x y = false.
Definition holed (lo root hi : nat) s : Prop :=
  (forall i c x y, (lo <= i)%nat -> i <> root -> (c = 2 * i + 1 \/ c = 2 * i + 2)%nat -> (c < hi)%nat -> node s i = Some x -> node s c = Some y -> less x y = false) /\
  (forall i c x y, (lo <= i)%nat -> (root = 2 * i + 1 \/ root = 2 * i + 2)%nat -> (c = 2 * root + 1 \/ c = 2 * root + 2)%nat -> (c < hi)%nat ->
    node s i = Some x -> node s c = Some y -> less x y = false).
Lemma sift_spec lo hi : forall fuel s root, (lo <= root)%nat -> (first + hi <= length s)%nat -> (hi - root < fuel)%nat ->
  wp (sift less fuel s root hi first) (fun s' => seg (first + root) (first + hi) s s' /\ (strict_weak less -> holed lo root hi s -> heap lo hi s')).
Proof.
  induction fuel as [|fuel IH]; intros s root Hr Hl Hf; [lia|]. cbn [sift].
  destruct (Nat.leb_spec hi (2 * root + 1)) as [L|L].
  { apply wp_ret. split; [apply seg_refl|]. intros W [H _] i c x y Hi Hc Hh X Y. apply (H i c x y); try assumption. lia. }
  set (child := (2 * root + 1)%nat) in *.
  assert (C : wp (if child + 1 <? hi then let! c := sless less s (first + child) (first + child + 1) in Ret (if c : bool then child + 1 else child)%nat else Ret child)
     (fun ch => (ch = 2 * root + 1 \/ ch = 2 * root + 2)%nat /\ (ch < hi)%nat /\
        (strict_weak less -> forall c x y, (c = 2 * root + 1 \/ c = 2 * root + 2)%nat -> (c < hi)%nat -> node s ch = Some x -> node s c = Some y -> less x y = false))).
  { destruct (Nat.ltb_spec (child + 1) hi) as [L'|L'].
    - destruct (sless_ok s (first + child) (first + child + 1)) as (x1 & x2 & X1 & X2 & ->); [unfold child in *; lia|unfold child in *; lia|]. cbn [rbind]. apply wp_ret.
      assert (X2' : node s (2 * root + 2) = Some x2) by (rewrite <- X2; unfold node, child; f_equal; lia).
      assert (X1' : node s (2 * root + 1) = Some x1) by exact X1.
      destruct (less x1 x2) eqn:E.
      + split; [unfold child; lia|]. split; [exact L'|]. intros W c x y [-> | ->] Hc X Y; replace (child + 1)%nat with (2 * root + 2)%nat in X by (unfold child; lia).
        * apply less_le; [exact W|]. congruence.
        * assert (x = y) as -> by congruence. apply (sw_irrefl _ W).
      + split; [left; reflexivity|]. split; [exact L|]. intros W c x y [-> | ->] Hc X Y; unfold child in X.
        * assert (x = y) as -> by congruence. apply (sw_irrefl _ W).
        * congruence.
    - apply wp_ret. split; [left; reflexivity|]. split; [exact L|]. intros W c x y [-> | ->] Hc X Y; unfold child in *; [|lia].
      assert (x = y) as -> by congruence. apply (sw_irrefl _ W). }
  apply wp_bind. eapply wp_mono; [exact C|]. clear C. intros ch (C1 & C2 & C3).
  destruct (sless_ok s (first + root) (first + ch)) as (x & y & X & Y & ->); [lia|lia|]. cbn [rbind]. destruct (less x y) eqn:E; cbn [negb].
  2:{ apply wp_ret. split; [apply seg_refl|]. intros W [H _] i c x0 y0 Hi Hc Hh X0 Y0. destruct (decide (i = root)) as [->|N]; [|apply (H i c x0 y0); assumption].
      unfold node in X0. rewrite X in X0. injection X0 as <-. pose proof (C3 W c y y0 Hc Hh Y Y0) as K. exact (sw_incomp _ W _ _ _ E K). }
  apply wp_bind. eapply wp_mono; [apply (sswap_seg s (first + root) (first + hi)); lia|]. intros s1 (S1 & G1 & G2 & G3).
  eapply wp_mono; [apply (IH s1 ch); [lia|rewrite (seg_length _ _ _ _ S1); exact Hl|lia]|]. intros s2 (S2 & H2). split.
  { eapply seg_trans; [exact S1|]. eapply seg_mono; [| |exact S2]; lia. }
  intros W [K1 K2]. apply H2; [exact W|].
  assert (N1 : node s1 root = Some y) by (unfold node; rewrite G1; exact Y).
  assert (N2 : node s1 ch = Some x) by (unfold node; rewrite G2; exact X).
  assert (N3 : forall k, k <> root -> k <> ch -> node s1 k = node s k) by (intros k D1 D2; apply G3; lia).
  split.
  - intros i c x0 y0 Hi Hn Hc Hh X0 Y0. destruct (decide (i = root)) as [->|Ni].
    + rewrite N1 in X0. injection X0 as <-. destruct (decide (c = ch)) as [->|Nc].
      * rewrite N2 in Y0. injection Y0 as <-. apply less_le; [exact W|exact E].
      * rewrite N3 in Y0 by lia. exact (C3 W c y y0 Hc Hh Y Y0).
    + rewrite N3 in X0 by assumption. destruct (decide (c = root)) as [->|Nc].
      * rewrite N1 in Y0. injection Y0 as <-. apply (K2 i ch x0 y); try assumption.
      * rewrite N3 in Y0 by lia. apply (K1 i c x0 y0); assumption.
  - intros i c x0 y0 Hi Hn Hc Hh X0 Y0. assert (i = root) as -> by lia. rewrite N1 in X0. injection X0 as <-.
    rewrite N3 in Y0 by lia. apply (K1 ch c y y0); [lia|lia|exact Hc|exact Hh|exact Y|exact Y0].
Qed.
Lemma sift_down_spec s lo hi : (first + hi <= length s)%nat ->
  wp (sift_down less s lo hi first) (fun s' => seg first (first + hi) s s' /\ (strict_weak less -> heap (S lo) hi s -> heap lo hi s')).
Proof.
  intros Hl. unfold sift_down. eapply wp_mono; [apply (sift_spec lo hi); [lia|exact Hl|lia]|]. intros s' [S H]. split; [eapply seg_mono; [| |exact S]; lia|].
  intros W K. apply H; [exact W|]. split.
  - intros i c x y Hi Hn. apply K. lia.
  - intros i c x y Hi Hn. lia.
Qed.
Lemma heap_build_spec hi : forall n s, (first + hi <= length s)%nat ->
  wp (heap_build less n s hi first) (fun s' => seg first (first + hi) s s' /\ (strict_weak less -> heap n hi s -> heap 0 hi s')).
Proof.
  induction n as [|n IH]; intros s Hl; cbn [heap_build].
  - apply wp_ret. split; [apply seg_refl|auto].
  - apply wp_bind. eapply wp_mono; [apply (sift_down_spec s n hi Hl)|]. intros s1 [S1 H1].
    eapply wp_mono; [apply IH; rewrite (seg_length _ _ _ _ S1); exact Hl|]. intros s2 [S2 H2]. split; [eapply seg_trans; eassumption|].
    intros W K. apply H2; [exact W|]. apply H1; assumption.
Qed.
Lemma heap_root hi s : strict_weak less -> (first + hi <= length s)%nat -> heap 0 hi s -> forall k x y, (k < hi)%nat -> node s 0 = Some x -> node s k = Some y -> less x y = false.
Proof.
  intros W Hl K k. induction k as [k IH] using lt_wf_ind. intros x y Hk X Y. destruct k as [|k].
  - assert (x = y) as -> by congruence. apply (sw_irrefl _ W).
  - assert (P : (k / 2 < S k)%nat) by (apply Nat.div_lt_upper_bound; lia).
    destruct (lookup_lt_is_Some_2 s (first + k / 2)) as [z Z]; [lia|].
    pose proof (IH (k / 2)%nat P x z ltac:(lia) X Z) as H1.
    pose proof (K (k / 2)%nat (S k) z y ltac:(lia)) as H2.
    assert (D : (S k = 2 * (k / 2) + 1 \/ S k = 2 * (k / 2) + 2)%nat).
    { pose proof (Nat.div_mod_eq k 2). pose proof (Nat.mod_upper_bound k 2 ltac:(lia)). lia. }
    exact (sw_incomp _ W _ _ _ H1 (H2 D Hk Z Y)).
Qed.
Lemma heap_pop_spec hi : forall n s, (n <= hi)%nat -> (first + hi <= length s)%nat ->
  wp (heap_pop less n s first) (fun s' => seg first (first + n) s s' /\
    (strict_weak less -> heap 0 n s -> sorted (first + n) (first + hi) s ->
       (forall i j x y, (i < n)%nat -> (n <= j < hi)%nat -> node s i = Some x -> node s j = Some y -> less y x = false) -> sorted first (first + hi) s')).
Proof.
  induction n as [|n IH]; intros s Hn Hl; cbn [heap_pop].
  - apply wp_ret. split; [apply seg_refl|]. intros W _ H _. rewrite Nat.add_0_r in H. exact H.
  - apply wp_bind. eapply wp_mono; [apply (sswap_seg s first (first + S n)); lia|]. intros s1 (S1 & G1 & G2 & G3). pose proof (seg_length _ _ _ _ S1) as L1.
    apply wp_bind. eapply wp_mono; [apply (sift_down_spec s1 0 n); lia|]. intros s2 [S2 H2]. pose proof (seg_length _ _ _ _ S2) as L2.
    eapply wp_mono; [apply (IH s2); lia|]. intros s3 [S3 H3]. split.
    { eapply seg_trans; [exact S1|]. eapply seg_trans; eapply seg_mono; [| |exact S2| | |exact S3]; lia. }
    intros W K So B.
    destruct (lookup_lt_is_Some_2 s first) as [x0 X0]; [lia|].
    assert (Root : forall k y, (k < S n)%nat -> node s k = Some y -> less x0 y = false).
    { intros k y Hk Y. apply (heap_root (S n) s W ltac:(lia) K k x0 y Hk); [unfold node; rewrite Nat.add_0_r; exact X0|exact Y]. }
    assert (E2 : forall k, (first + n <= k)%nat -> s2 !! k = s1 !! k) by (intros k Hk; apply (proj2 S2); lia).
    assert (E1 : forall k, (first + n < k)%nat -> s1 !! k = s !! k) by (intros k Hk; apply G3; lia).
    assert (M : s2 !! (first + n)%nat = Some x0) by (rewrite E2 by lia; rewrite G2; exact X0).
    apply H3; [exact W| | |].
    + apply H2; [exact W|]. intros i c x y Hi Hc Hh X Y. unfold node in X, Y. rewrite G3 in X, Y by lia. apply (K i c x y); [lia|exact Hc|lia|exact X|exact Y].
    + intros i j x y Hi Hj X Y. rewrite E2, E1 in Y by lia. destruct (decide (i = first + n)%nat) as [->|N].
      * rewrite M in X. injection X as <-. apply (B 0%nat (j - first)%nat x0 y); [lia|lia|unfold node; rewrite Nat.add_0_r; exact X0|].
        unfold node. replace (first + (j - first))%nat with j by lia. exact Y.
      * rewrite E2, E1 in X by lia. apply (So i j x y); [lia|lia|exact X|exact Y].
    + intros i j x y Hi Hj X Y. unfold node in X, Y. rewrite E2 in Y by lia.
      revert i x Hi X. assert (G : allin (fun x => less y x = false) first (first + n) s2).
      { apply (seg_all _ _ _ _ _ S2); [lia|]. intros k x Hk X.
        assert (Z : allin (fun x => less y x = false) first (first + S n) s1).
        { apply (seg_all _ _ _ _ _ S1); [lia|]. clear k x Hk X. intros k x Hk X. destruct (decide (j = n)) as [->|N].
          - rewrite G2, X0 in Y. injection Y as <-. apply (Root (k - first)%nat x); [lia|]. unfold node. replace (first + (k - first))%nat with k by lia. exact X.
          - rewrite E1 in Y by lia. apply (B (k - first)%nat j x y); [lia|lia| |exact Y]. unfold node. replace (first + (k - first))%nat with k by lia. exact X. }
        apply (Z k x); [lia|exact X]. }
      intros i x Hi X. apply (G (first + i)%nat x); [lia|exact X].
Qed.
End heap.
Lemma heap_sort_spec s a b : (a <= b)%nat -> (b <= length s)%nat -> wp (heap_sort less s a b) (fun s' => seg a b s s' /\ (strict_weak less -> sorted a b s')).
Proof.
  intros H1 H2. unfold heap_sort. assert (E : (a + (b - a) = b)%nat) by lia.
  apply wp_bind. eapply wp_mono; [apply (heap_build_spec a (b - a)); lia|]. rewrite E. intros s1 [S1 K1]. pose proof (seg_length _ _ _ _ S1) as L1.
  eapply wp_mono; [apply (heap_pop_spec a (b - a) (b - a) s1); lia|]. rewrite E. intros s2 [S2 K2]. split; [eapply seg_trans; eassumption|].
  intros W. apply K2; [exact W| | |].
  - apply K1; [exact W|]. intros i c x y Hi Hc Hh. exfalso. pose proof (Nat.div_mod_eq (b - a - 1) 2). pose proof (Nat.mod_upper_bound (b - a - 1) 2 ltac:(lia)). lia.
  - intros i j x y Hi Hj. lia.
  - intros i j x y Hi Hj. lia.
Qed.

(** *** partitions *)
Definition cond (neg flip : bool) (p x : A) : bool := xorb neg (if flip then less p x else less x p).
Lemma up_while_spec neg flip s a p j : s !! a = Some p -> (j < length s)%nat -> forall fuel i, (i <= S j)%nat -> (S j - i < fuel)%nat ->
  wp (up_while less fuel neg flip s a i j) (fun k => (i <= k <= S j)%nat /\ allin (fun x => cond neg flip p x = true) i k s /\
     ((k <= j)%nat -> forall x, s !! k = Some x -> cond neg flip p x = false)).
Proof.
  intros P Hj. induction fuel as [|fuel IH]; intros i Hi Hf; [lia|]. cbn [up_while]. destruct (Nat.leb_spec i j) as [L|L].
  2:{ apply wp_ret. split_and!; [lia|lia| |lia]. intros k x Hk. lia. }
  destruct (lookup_lt_is_Some_2 s i) as [x X]; [lia|].
  assert (E : (if flip then sless less s a i else sless less s i a) = Ret (if flip then less p x else less x p)) by (destruct flip; apply sless_spec; assumption).
  rewrite E. cbn [rbind]. fold (cond neg flip p x). destruct (cond neg flip p x) eqn:C.
  - eapply wp_mono; [apply IH; lia|]. intros k (K1 & K2 & K3). split_and!; [lia|lia| |exact K3].
    intros q y Hq Y. destruct (decide (q = i)) as [->|N]; [congruence|]. apply (K2 q y); [lia|exact Y].
  - apply wp_ret. split_and!; [lia|lia| |].
    + intros k y Hk. lia.
    + intros _ y Y. congruence.
Qed.
Lemma down_while_spec neg flip s a p i : s !! a = Some p -> (1 <= i)%nat -> forall fuel j, (j < length s)%nat -> (i <= S j)%nat -> (S j - i < fuel)%nat ->
  wp (down_while less fuel neg flip s a i j) (fun k => (i <= S k)%nat /\ (k <= j)%nat /\ allin (fun x => cond neg flip p x = true) (S k) (S j) s /\
     ((i <= k)%nat -> forall x, s !! k = Some x -> cond neg flip p x = false)).
Proof.
  intros P Hi. induction fuel as [|fuel IH]; intros j Hj Hij Hf; [lia|]. cbn [down_while]. destruct (Nat.leb_spec i j) as [L|L].
  2:{ apply wp_ret. split_and!; [lia|lia| |lia]. intros k x Hk. lia. }
  destruct (lookup_lt_is_Some_2 s j) as [x X]; [lia|].
  assert (E : (if flip then sless less s a j else sless less s j a) = Ret (if flip then less p x else less x p)) by (destruct flip; apply sless_spec; assumption).
  rewrite E. cbn [rbind]. fold (cond neg flip p x). destruct (cond neg flip p x) eqn:C.
  - eapply wp_mono; [apply IH; lia|]. intros k (K1 & K2 & K3 & K4). split_and!; [lia|lia| |exact K4].
    intros q y Hq Y. destruct (decide (q = j)) as [->|N]; [congruence|]. apply (K3 q y); [lia|exact Y].
  - apply wp_ret. split_and!; [lia|lia| |].
    + intros k y Hk. lia.
    + intros _ y Y. congruence.
Qed.
Record pinv (c : A -> bool) a b (p : A) s i j : Prop := {
  pi_a : s !! a = Some p; pi_i : (a < i)%nat; pi_ij : (i <= S j)%nat; pi_j : (j < b)%nat; pi_b : (b <= length s)%nat;
  pi_l : allin (fun x => c x = true) (S a) i s; pi_r : allin (fun x => c x = false) (S j) b s }.
Lemma part_step neg flip a b p s i j F : pinv (cond neg flip p) a b p s i j -> (length s < F)%nat ->
  wp (up_while less F neg flip s a i j) (fun i' => wp (down_while less F (negb neg) flip s a i' j) (fun j' =>
    if j' <? i' then i' = S j' /\ pinv (cond neg flip p) a b p s i' j'
    else wp (sswap s i' j') (fun s' => seg (S a) b s s' /\ pinv (cond neg flip p) a b p s' (S i') (j' - 1) /\ (S (j' - 1) - S i' < S j - i)%nat))).
Proof.
  intros [P1 P2 P3 P4 P5 P6 P7] HF.
  eapply wp_mono; [apply (up_while_spec neg flip s a p j P1); lia|]. intros i' (I1 & I2 & I3).
  eapply wp_mono; [apply (down_while_spec (negb neg) flip s a p i' P1); lia|]. intros j' (J1 & J2 & J3 & J4).
  assert (Neg : forall x, cond (negb neg) flip p x = negb (cond neg flip p x)) by (intros x; unfold cond; destruct neg, flip, (less p x), (less x p); reflexivity).
  assert (L' : allin (fun x => cond neg flip p x = true) (S a) i' s).
  { intros q x Hq X. destruct (decide (q < i)%nat); [apply (P6 q x); [lia|exact X]|apply (I2 q x); [lia|exact X]]. }
  assert (R' : allin (fun x => cond neg flip p x = false) (S j') b s).
  { intros q x Hq X. destruct (decide (q <= j)%nat); [|apply (P7 q x); [lia|exact X]]. specialize (J3 q x ltac:(lia) X). cbn beta in J3. rewrite Neg in J3. apply negb_true_iff in J3. exact J3. }
  destruct (Nat.ltb_spec j' i') as [L|L].
  - split; [lia|]. split; [exact P1|lia|lia|lia|exact P5|exact L'|exact R'].
  - destruct (lookup_lt_is_Some_2 s i') as [x X]; [lia|]. destruct (lookup_lt_is_Some_2 s j') as [y Y]; [lia|].
    pose proof (I3 ltac:(lia) x X) as Cx. pose proof (J4 ltac:(lia) y Y) as Cy. rewrite Neg in Cy. apply negb_false_iff in Cy.
    assert (i' <> j') by congruence.
    eapply wp_mono; [apply (sswap_seg s (S a) b); lia|]. intros s' (S' & G1 & G2 & G3). split; [exact S'|]. split; [|lia].
    pose proof (seg_length _ _ _ _ S') as Ls. split.
    + rewrite G3 by lia. exact P1.
    + lia.
    + lia.
    + lia.
    + lia.
    + intros q z Hq Z. destruct (decide (q = i')) as [->|N]; [congruence|]. rewrite G3 in Z by lia. apply (L' q z); [lia|exact Z].
    + intros q z Hq Z. destruct (decide (q = j')) as [->|N]; [congruence|]. rewrite G3 in Z by lia. apply (R' q z); [lia|exact Z].
Qed.
Lemma part_loop_spec a b p : forall fuel s i j, pinv (cond false false p) a b p s i j -> (S j - i < fuel)%nat ->
  wp (part_loop less fuel s a i j) (fun r => seg (S a) b s (fst r) /\ pinv (cond false false p) a b p (fst r) (S (snd r)) (snd r)).
Proof.
  induction fuel as [|fuel IH]; intros s i j P Hf; [lia|]. cbn [part_loop]. apply wp_bind.
  eapply wp_mono; [apply (part_step false false a b p s i j); [exact P|lia]|]. intros i' H. apply wp_bind. eapply wp_mono; [exact H|]. clear H. intros j' H. cbn beta in H.
  destruct (j' <? i').
  - destruct H as [-> H]. apply wp_ret. split; [apply seg_refl|exact H].
  - apply wp_bind. eapply wp_mono; [exact H|]. clear H. intros s' (S' & P' & L'). eapply wp_mono; [apply IH; [exact P'|lia]|].
    intros [s2 j2] [S2 P2]. split; [eapply seg_trans; [exact S'|exact S2]|exact P2].
Qed.
Lemma part_eq_loop_spec a b p : forall fuel s i j, pinv (cond true true p) a b p s i j -> (S j - i < fuel)%nat ->
  wp (part_eq_loop less fuel s a i j) (fun r => seg (S a) b s (fst r) /\ pinv (cond true true p) a b p (fst r) (snd r) (snd r - 1)).
Proof.
  induction fuel as [|fuel IH]; intros s i j P Hf; [lia|]. cbn [part_eq_loop]. apply wp_bind.
  eapply wp_mono; [apply (part_step true true a b p s i j); [exact P|lia]|]. intros i' H. apply wp_bind. eapply wp_mono; [exact H|]. clear H. intros j' H. cbn beta in H.
  destruct (j' <? i').
  - destruct H as [-> H]. apply wp_ret. split; [apply seg_refl|]. cbn [fst snd]. rewrite Nat.sub_1_r. exact H.
  - apply wp_bind. eapply wp_mono; [exact H|]. clear H. intros s' (S' & P' & L'). eapply wp_mono; [apply IH; [exact P'|lia]|].
    intros [s2 j2] [S2 P2]. split; [eapply seg_trans; [exact S'|exact S2]|exact P2].
Qed.
Definition parted a b s s' (mid : nat) : Prop := seg a b s s' /\ (a <= mid < b)%nat /\ exists p, s' !! mid = Some p /\
  allin (fun x => less x p = true) a mid s' /\ allin (fun x => less x p = false) (S mid) b s'.
Lemma part_end a b p s j : pinv (cond false false p) a b p s (S j) j -> wp (sswap s j a) (fun s' => parted a b s s' j).
Proof.
  assert (C : forall x, cond false false p x = less x p) by (intros x; unfold cond; apply xorb_false_l).
  intros [P1 P2 P3 P4 P5 P6 P7]. eapply wp_mono; [apply (sswap_seg s a b); lia|]. intros s' (S' & G1 & G2 & G3). split; [exact S'|]. split; [lia|].
  exists p. split; [congruence|]. split.
  - intros q x Hq X. destruct (decide (q = a)) as [->|N].
    + rewrite G2 in X. specialize (P6 j x ltac:(lia) X). cbn beta in P6. rewrite C in P6. exact P6.
    + rewrite G3 in X by lia. specialize (P6 q x ltac:(lia) X). cbn beta in P6. rewrite C in P6. exact P6.
  - intros q x Hq X. rewrite G3 in X by lia. specialize (P7 q x ltac:(lia) X). cbn beta in P7. rewrite C in P7. exact P7.
Qed.
Lemma parted_seg a b s0 s s' mid : seg a b s0 s -> parted a b s s' mid -> parted a b s0 s' mid.
Proof. intros S (S' & H). split; [eapply seg_trans; eassumption|exact H]. Qed.
Lemma partition_spec s a b pivot : (a <= pivot < b)%nat -> (b <= length s)%nat ->
  wp (partition less s a b pivot) (fun r => parted a b s (fst r) (fst (snd r))).
Proof.
  intros Hp Hl. unfold partition. apply wp_bind. eapply wp_mono; [apply (sswap_seg s a b); lia|]. intros s1 (S1 & G1 & G2 & G3).
  pose proof (seg_length _ _ _ _ S1) as L1. destruct (lookup_lt_is_Some_2 s1 a) as [p P]; [lia|].
  assert (Inv : pinv (cond false false p) a b p s1 (S a) (b - 1)).
  { split; try lia; [exact P| |]; intros q x Hq; lia. }
  apply wp_bind. eapply wp_mono; [apply (part_step false false a b p s1 (S a) (b - 1)); [exact Inv|lia]|]. intros i' H.
  apply wp_bind. eapply wp_mono; [exact H|]. clear H. intros j' H. cbn beta in H. destruct (j' <? i').
  - destruct H as [-> H]. apply wp_bind. eapply wp_mono; [apply (part_end a b p); exact H|]. intros s2 H2. apply wp_ret. exact (parted_seg _ _ _ _ _ _ S1 H2).
  - apply wp_bind. eapply wp_mono; [exact H|]. clear H. intros s2 (S2 & P2 & L2). apply wp_bind. pose proof (seg_length _ _ _ _ S2) as Ls.
    eapply wp_mono; [apply (part_loop_spec a b p); [exact P2|lia]|]. intros [s3 j3] [S3 P3]. cbn [fst snd] in *.
    apply wp_bind. eapply wp_mono; [apply (part_end a b p); exact P3|]. intros s4 H4. apply wp_ret. cbn [fst snd].
    eapply parted_seg; [|exact H4]. eapply seg_trans; [exact S1|]. eapply seg_trans; eapply seg_mono; [| |exact S2| | |exact S3]; lia.
Qed.
Lemma partition_equal_spec s a b pivot p : (a <= pivot < b)%nat -> (b <= length s)%nat -> s !! pivot = Some p ->
  wp (partition_equal less s a b pivot) (fun r => seg a b s (fst r) /\ (a < snd r <= b)%nat /\ fst r !! a = Some p /\
     allin (fun x => less p x = false) (S a) (snd r) (fst r) /\ allin (fun x => less p x = true) (snd r) b (fst r)).
Proof.
  intros Hp Hl P. unfold partition_equal. apply wp_bind. eapply wp_mono; [apply (sswap_seg s a b); lia|]. intros s1 (S1 & G1 & G2 & G3).
  pose proof (seg_length _ _ _ _ S1) as L1.
  assert (Inv : pinv (cond true true p) a b p s1 (S a) (b - 1)).
  { split; try lia; [congruence| |]; intros q x Hq; lia. }
  eapply wp_mono; [apply (part_eq_loop_spec a b p); [exact Inv|lia]|]. intros [s2 k] [S2 [P1 P2 P3 P4 P5 P6 P7]]. cbn [fst snd] in *. split_and!.
  - eapply seg_trans; [exact S1|]. eapply seg_mono; [| |exact S2]; lia.
  - lia.
  - lia.
  - exact P1.
  - intros q x Hq X. specialize (P6 q x Hq X). unfold cond in P6. cbn in P6. destruct (less p x); [discriminate|reflexivity].
  - intros q x Hq X. specialize (P7 q x ltac:(lia) X). unfold cond in P7. cbn in P7. destruct (less p x); [reflexivity|discriminate].
Qed.

(** *** breakPatterns, choosePivot, reverseRange *)
Context (next : Z -> Z).
Lemma npot_bound n : (1 <= n)%nat -> (0 < next_power_of_two n <= 2 * Z.of_nat n)%Z.
Proof.
  intros H. unfold next_power_of_two. pose proof (Z.log2_nonneg (Z.of_nat n)). rewrite Z.pow_add_r by lia. pose proof (Z.log2_spec (Z.of_nat n) ltac:(lia)) as [L _].
  pose proof (Z.pow_pos_nonneg 2 (Z.log2 (Z.of_nat n)) ltac:(lia) ltac:(lia)). lia.
Qed.
Lemma break_loop_spec a len : (1 <= len)%nat -> forall n s random idx, (a <= idx)%nat -> (idx + n <= a + len)%nat -> (a + len <= length s)%nat ->
  wp (break_loop next n s random a len idx) (fun s' => seg a (a + len) s s').
Proof.
  intros Hlen. induction n as [|n IH]; intros s random idx H1 H2 H3; cbn [break_loop]; [apply wp_ret, seg_refl|].
  set (r := u64 (next random)). set (o := Z.to_nat (Z.land r (next_power_of_two len - 1))).
  assert (Ho : (o < 2 * len)%nat).
  { unfold o. pose proof (npot_bound len Hlen) as [B1 B2].
    assert (Z.land r (next_power_of_two len - 1) < next_power_of_two len /\ 0 <= Z.land r (next_power_of_two len - 1))%Z; [|lia].
    assert (E : (next_power_of_two len - 1 = Z.ones (Z.log2 (Z.of_nat len) + 1))%Z) by (unfold next_power_of_two; rewrite Z.ones_equiv; lia).
    rewrite E. pose proof (Z.log2_nonneg (Z.of_nat len)). rewrite Z.land_ones by lia. unfold next_power_of_two in *.
    pose proof (Z.mod_pos_bound r (2 ^ (Z.log2 (Z.of_nat len) + 1)) B1). lia. }
  apply wp_bind. eapply wp_mono; [apply (sswap_seg s a (a + len)); [lia|destruct (Nat.leb_spec len o); lia|lia]|]. intros s1 (S1 & _).
  eapply wp_mono; [apply IH; [lia|lia|rewrite (seg_length _ _ _ _ S1); exact H3]|]. intros s2 S2. eapply seg_trans; eassumption.
Qed.
Lemma break_patterns_spec s a b : (a <= b)%nat -> (b <= length s)%nat -> wp (break_patterns next s a b) (fun s' => seg a b s s').
Proof.
  intros H1 H2. unfold break_patterns. destruct (Nat.leb_spec 8 (b - a)) as [L|L]; [|apply wp_ret, seg_refl].
  assert (Q : (2 <= (b - a) / 4 /\ 4 * ((b - a) / 4) <= b - a)%nat).
  { split; [apply Nat.div_le_lower_bound; lia|]. pose proof (Nat.div_mod_eq (b - a) 4). lia. }
  eapply wp_mono; [apply (break_loop_spec a (b - a)); lia|]. replace (a + (b - a))%nat with b by lia. auto.
Qed.
Lemma order2_spec s i j n : (i < length s)%nat -> (j < length s)%nat -> wp (order2 less s i j n) (fun r => fst r = (i, j) \/ fst r = (j, i)).
Proof.
  intros Hi Hj. unfold order2. destruct (sless_ok s j i Hj Hi) as (x & y & _ & _ & ->). cbn [rbind]. apply wp_ret. destruct (less x y); cbn; auto.
Qed.
Lemma median_spec s i j k n : (i < length s)%nat -> (j < length s)%nat -> (k < length s)%nat -> wp (median less s i j k n) (fun r => fst r = i \/ fst r = j \/ fst r = k).
Proof.
  intros Hi Hj Hk. unfold median. apply wp_bind. eapply wp_mono; [apply order2_spec; assumption|]. intros [[i1 j1] n1] H1. cbn [fst] in H1.
  assert (B1 : (i1 < length s /\ j1 < length s)%nat) by (destruct H1 as [E|E]; injection E as -> ->; lia).
  apply wp_bind. eapply wp_mono; [apply (order2_spec s j1 k); lia|]. intros [[j2 k2] n2] H2. cbn [fst] in H2.
  assert (B2 : (j2 < length s)%nat) by (destruct H2 as [E|E]; injection E as -> ->; lia).
  apply wp_bind. eapply wp_mono; [apply (order2_spec s i1 j2); lia|]. intros [[i3 j3] n3] H3. cbn [fst] in H3. apply wp_ret. cbn [fst].
  destruct H1 as [E1|E1]; injection E1 as -> ->; destruct H2 as [E2|E2]; injection E2 as -> ->; destruct H3 as [E3|E3]; injection E3 as -> ->; auto.
Qed.
Lemma choose_pivot_spec s a b : (8 <= b - a)%nat -> (b <= length s)%nat -> wp (choose_pivot less s a b) (fun r => (a <= fst r < b)%nat).
Proof.
  intros H1 H2. unfold choose_pivot. set (q := ((b - a) / 4)%nat).
  assert (Q : (2 <= q /\ 4 * q <= b - a)%nat).
  { unfold q. split; [apply Nat.div_le_lower_bound; lia|]. pose proof (Nat.div_mod_eq (b - a) 4). lia. }
  clearbody q. replace (8 <=? b - a) with true by (symmetry; apply Nat.leb_le; lia). cbn zeta.
  apply wp_bind. apply (wp_mono _ (fun r => (a <= fst r < b)%nat)).
  2:{ intros [j n] H. apply wp_ret. exact H. }
  apply wp_bind. apply (wp_mono _ (fun r => (a <= fst (fst (fst r)) < b)%nat /\ (a <= snd (fst (fst r)) < b)%nat /\ (a <= snd (fst r) < b)%nat)).
  - destruct (Nat.leb_spec 50 (b - a)) as [L|L].
    + unfold median_adjacent.
      apply wp_bind. eapply wp_mono; [apply median_spec; lia|]. intros [i1 n1] I1. apply wp_bind. eapply wp_mono; [apply median_spec; lia|]. intros [j1 n2] J1.
      apply wp_bind. eapply wp_mono; [apply median_spec; lia|]. intros [k1 n3] K1. apply wp_ret. cbn [fst snd] in *. lia.
    + apply wp_ret. cbn [fst snd]. lia.
  - intros [[[i j] k] n] H. cbn [fst snd] in H. eapply wp_mono; [apply median_spec; lia|]. intros [m n'] M. cbn [fst] in *. lia.
Qed.
Lemma reverse_range_spec a b : forall fuel s i j, (a <= i)%nat -> (j < b)%nat -> (b <= length s)%nat -> (j - i < fuel)%nat -> wp (reverse_range fuel s i j) (fun s' => seg a b s s').
Proof.
  induction fuel as [|fuel IH]; intros s i j H1 H2 H3 Hf; [lia|]. cbn [reverse_range]. destruct (Nat.ltb_spec i j) as [L|L]; [|apply wp_ret, seg_refl].
  apply wp_bind. eapply wp_mono; [apply (sswap_seg s a b); lia|]. intros s1 (S1 & _). eapply wp_mono; [apply IH; rewrite ?(seg_length _ _ _ _ S1); lia|].
  intros s2 S2. eapply seg_trans; eassumption.
Qed.

(** *** partialInsertionSort *)
Lemma skip_sorted_spec s b : (b <= length s)%nat -> forall fuel i, (1 <= i <= b)%nat -> (b - i < fuel)%nat ->
  wp (skip_sorted less fuel s i b) (fun k => (i <= k <= b)%nat /\ forall q x y, (i <= q < k)%nat -> s !! (q - 1)%nat = Some x -> s !! q = Some y -> less y x = false).
Proof.
  intros Hb. induction fuel as [|fuel IH]; intros i Hi Hf; [lia|]. cbn [skip_sorted]. destruct (Nat.ltb_spec i b) as [L|L].
  2:{ apply wp_ret. split; [lia|]. intros. lia. }
  destruct (sless_ok s i (i - 1)) as (y & x & Y & X & ->); [lia|lia|]. cbn [rbind]. destruct (less y x) eqn:E.
  - apply wp_ret. split; [lia|]. intros. lia.
  - eapply wp_mono; [apply IH; lia|]. intros k [K1 K2]. split; [lia|]. intros q x' y' Hq X' Y'. destruct (decide (q = i)) as [->|N]; [congruence|].
    apply (K2 q x' y'); [lia|exact X'|exact Y'].
Qed.
Lemma sorted_grow s a k : strict_weak less -> (k <= length s)%nat -> forall i, (a < i <= k)%nat -> sorted a i s ->
  (forall q x y, (i <= q < k)%nat -> s !! (q - 1)%nat = Some x -> s !! q = Some y -> less y x = false) -> sorted a k s.
Proof.
  intros W Hk i Hi S H. cut (forall n, (i + n <= k)%nat -> sorted a (i + n) s).
  { intros G. specialize (G (k - i)%nat ltac:(lia)). replace (i + (k - i))%nat with k in G by lia. exact G. }
  induction n as [|n IH]; intros Hn; [rewrite Nat.add_0_r; exact S|]. specialize (IH ltac:(lia)).
  intros p q x y Hp Hq X Y. destruct (decide (q < i + n)%nat); [apply (IH p q x y); [lia|lia|exact X|exact Y]|]. assert (q = i + n)%nat as -> by lia.
  destruct (lookup_lt_is_Some_2 s (i + n - 1)) as [z Z]; [lia|]. pose proof (H (i + n)%nat z y ltac:(lia) Z Y) as H1.
  destruct (decide (p = i + n - 1)%nat) as [->|N]; [congruence|]. pose proof (IH p (i + n - 1)%nat x z ltac:(lia) ltac:(lia) X Z) as H2.
  exact (sw_incomp _ W _ _ _ H1 H2).
Qed.
Lemma shift_left_ins : forall j s, shift_left less s j = ins_inner less s 0 j.
Proof.
  induction j as [|j IH]; intros s; [reflexivity|]. cbn [shift_left ins_inner]. replace (0 <? S j) with true by reflexivity.
  destruct (sless less s (S j) j) as [c| |]; [|reflexivity|reflexivity]. cbn [rbind]. destruct c; cbn [negb]; [|reflexivity].
  destruct (sswap s (S j) j) as [s'| |]; [|reflexivity|reflexivity]. cbn [rbind]. apply IH.
Qed.
Lemma shift_left_spec s a j b : (a <= j < b)%nat -> (b <= length s)%nat ->
  wp (shift_left less s j) (fun s' => s' ≡ₚ s /\ (strict_weak less -> leftb s a b -> seg a (S j) s s' /\ (sorted a j s -> sorted a (S j) s'))).
Proof.
  intros Hj Hb. rewrite shift_left_ins. destruct (lookup_lt_is_Some_2 s j) as [x X]; [lia|].
  destruct (elem_of_list_split_length _ _ _ X) as (t & r & -> & Lj).
  destruct (split_at t a) as (l & m & -> & Ll); [lia|]. rewrite app_length in *.
  pose proof (ins_inner_spec less [] (l ++ m) x r 0 j eq_refl ltac:(rewrite app_length; cbn; lia)) as H. cbn [app] in H.
  eapply wp_mono; [exact H|]. intros s' (u1 & u2 & -> & E & H1 & H2). split.
  { rewrite E. rewrite <- app_assoc. apply Permutation_app_head. rewrite Permutation_middle. reflexivity. }
  intros W Lb.
  assert (Hl : forall y, y ∈ l -> less x y = false).
  { intros y Hy. apply elem_of_list_lookup in Hy as [i Hi]. pose proof (lookup_lt_Some _ _ _ Hi). apply (Lb i j y x); [lia|lia| |exact X].
    rewrite <- app_assoc. apply lookup_app_l_Some. exact Hi. }
  assert (K : exists k, u1 = l ++ k /\ m = k ++ u2).
  { apply app_eq_inv in E as [(k & -> & ->)|(k & -> & ->)].
    - destruct k as [|y k].
      + exists []. rewrite !app_nil_r. split; reflexivity.
      + exfalso. pose proof (Hl y ltac:(apply elem_of_app; right; left)). pose proof (H1 y ltac:(left)). congruence.
    - exists k. split; reflexivity. }
  destruct K as (k & -> & ->). rewrite app_length in *.
  assert (E1 : (l ++ k ++ u2) ++ x :: r = l ++ ((k ++ u2) ++ [x]) ++ r) by (rewrite <- !app_assoc; reflexivity).
  assert (E2 : (l ++ k) ++ x :: u2 ++ r = l ++ (k ++ x :: u2) ++ r) by (rewrite <- !app_assoc; reflexivity).
  rewrite E1, E2. split.
  - apply seg_of; [lia|rewrite !app_length; cbn; lia|]. rewrite <- app_assoc. apply Permutation_app_head. rewrite <- Permutation_cons_append. reflexivity.
  - intros So. apply sorted_list; [lia|rewrite app_length; cbn; lia|].
    rewrite <- app_assoc in So. apply sorted_list in So; [|lia|rewrite app_length; lia].
    refine (proj1 (insert_place less k u2 x (fun _ => So) H1 _) W). intros y Hy. apply H2. rewrite last_app, Hy. reflexivity.
Qed.
Lemma shift_right_spec b : forall n s j, (1 <= j)%nat -> n = (b - j)%nat -> (b <= length s)%nat -> wp (shift_right less n s j) (fun s' => seg (j - 1) b s s').
Proof.
  induction n as [|n IH]; intros s j Hj Hn Hb; cbn [shift_right]; [apply wp_ret, seg_refl|].
  destruct (sless_ok s j (j - 1)) as (y & x & _ & _ & ->); [lia|lia|]. cbn [rbind]. destruct (less y x); cbn [negb]; [|apply wp_ret, seg_refl].
  apply wp_bind. eapply wp_mono; [apply (sswap_seg s (j - 1) b); lia|]. intros s1 (S1 & _). eapply wp_mono; [apply IH; rewrite ?(seg_length _ _ _ _ S1); lia|].
  intros s2 S2. eapply seg_trans; [exact S1|]. eapply seg_mono; [| |exact S2]; lia.
Qed.
Lemma partial_loop_spec a b : forall steps s i, (a < i <= b)%nat -> (b <= length s)%nat ->
  wp (partial_loop less steps s a i b) (fun r => fst r ≡ₚ s /\ (strict_weak less -> leftb s a b -> seg a b s (fst r) /\ (sorted a i s -> snd r = true -> sorted a b (fst r)))).
Proof.
  induction steps as [|steps IH]; intros s i Hi Hb; cbn [partial_loop].
  { apply wp_ret. split; [reflexivity|]. intros W Lb. split; [apply seg_refl|]. cbn. discriminate. }
  apply wp_bind. eapply wp_mono; [apply (skip_sorted_spec s b Hb); lia|]. intros k [K1 K2].
  destruct (Nat.eqb_spec k b) as [->|N].
  { apply wp_ret. split; [reflexivity|]. intros W Lb. split; [apply seg_refl|]. intros So _. cbn [fst]. apply (sorted_grow s a b W Hb i); assumption. }
  destruct (Nat.ltb_spec (b - a) 50) as [L|L].
  { apply wp_ret. split; [reflexivity|]. intros W Lb. split; [apply seg_refl|]. cbn. discriminate. }
  apply wp_bind. eapply wp_mono; [apply (sswap_seg s a b); lia|]. intros s1 (S1 & G1 & G2 & G3). pose proof (seg_length _ _ _ _ S1) as L1.
  apply wp_bind. apply (wp_mono _ (fun s2 => s2 ≡ₚ s1 /\ (strict_weak less -> leftb s1 a b -> seg a k s1 s2 /\ (sorted a (k - 1) s1 -> sorted a k s2)))).
  { destruct (Nat.leb_spec 2 (k - a)) as [L2|L2].
    - eapply wp_mono; [apply (shift_left_spec s1 a (k - 1) b); lia|]. replace (S (k - 1)) with k by lia. auto.
    - apply wp_ret. split; [reflexivity|]. intros W Lb. split; [apply seg_refl|]. intros _ p q x y Hp Hq. lia. }
  intros s2 [P2 H2]. pose proof (Permutation_length P2) as L2.
  apply wp_bind. apply (wp_mono _ (fun s3 => seg k b s2 s3)).
  { destruct (Nat.leb_spec 2 (b - k)) as [L3|L3]; [|apply wp_ret, seg_refl].
    eapply wp_mono; [apply (shift_right_spec b (b - S k) s2 (S k)); lia|]. cbn [Nat.sub]. rewrite Nat.sub_0_r. auto. }
  intros s3 S3. pose proof (seg_length _ _ _ _ S3) as L3. eapply wp_mono; [apply (IH s3 k); lia|]. intros [s4 d] [P4 H4]. cbn [fst snd] in *. split.
  { rewrite P4, (proj1 S3), P2. exact (proj1 S1). }
  intros W Lb. pose proof (leftb_seg _ _ _ _ S1 Hb Lb) as Lb1. destruct (H2 W Lb1) as [S2 So2].
  assert (S13 : seg a b s1 s3) by (eapply seg_trans; eapply seg_mono; [| |exact S2| | |exact S3]; lia).
  pose proof (leftb_seg _ _ _ _ S13 ltac:(lia) Lb1) as Lb3. destruct (H4 W Lb3) as [S4 So4]. split.
  { eapply seg_trans; [exact S1|]. eapply seg_trans; [exact S13|exact S4]. }
  intros So Hd. apply So4; [|exact Hd]. apply (sorted_same a k s2); [intros q Hq; apply (proj2 S3); lia|]. apply So2.
  apply (sorted_same a (k - 1) s); [intros q Hq; apply G3; lia|].
  assert (Sk : sorted a k s) by (apply (sorted_grow s a k W ltac:(lia) i); [lia|exact So|exact K2]).
  intros p q x y Hp Hq. apply Sk; lia.
Qed.
Lemma partial_insertion_spec s a b : (a < b)%nat -> (b <= length s)%nat ->
  wp (partial_insertion less s a b) (fun r => fst r ≡ₚ s /\ (strict_weak less -> leftb s a b -> seg a b s (fst r) /\ (snd r = true -> sorted a b (fst r)))).
Proof.
  intros H1 H2. eapply wp_mono; [apply (partial_loop_spec a b 5 s (S a)); lia|]. intros [s' d] [P H]. split; [exact P|]. intros W Lb. destruct (H W Lb) as [S So].
  split; [exact S|]. apply So. intros p q x y Hp Hq. lia.
Qed.

(** *** pdqsort *)
Lemma sorted_join s a b mid p : strict_weak less -> s !! mid = Some p -> (a <= mid < b)%nat -> allin (fun x => less x p = true) a mid s -> allin (fun x => less x p = false) (S mid) b s ->
  sorted a mid s -> sorted (S mid) b s -> sorted a b s.
Proof.
  intros W P Hm H1 H2 S1 S2 i j x y Hi Hj X Y.
  destruct (decide (j < mid)%nat); [apply (S1 i j x y); [lia|lia|exact X|exact Y]|].
  destruct (decide (mid < i)%nat); [apply (S2 i j x y); [lia|lia|exact X|exact Y]|].
  destruct (decide (i = mid)) as [->|N1].
  - rewrite P in X. injection X as <-. exact (H2 j y ltac:(lia) Y).
  - pose proof (H1 i x ltac:(lia) X) as Lx. cbn beta in Lx. apply less_le in Lx; [|exact W]. destruct (decide (j = mid)) as [->|N2].
    + congruence.
    + pose proof (H2 j y ltac:(lia) Y) as Ly. exact (sw_incomp _ W _ _ _ Ly Lx).
Qed.
Definition pdq_post a b s s' : Prop := s' ≡ₚ s /\ (strict_weak less -> leftb s a b -> seg a b s s' /\ sorted a b s').
(** the two halves, in either order *)
Lemma left_then_right a b s mid s1 s2 : (b <= length s)%nat -> parted a b s s mid -> pdq_post a mid s s1 -> pdq_post (S mid) b s1 s2 -> pdq_post a b s s2.
Proof.
  intros Hb (_ & Hm & p & P & HL & HR) [P1 H1] [P2 H2]. split; [rewrite P2; exact P1|]. intros W Lb.
  destruct H1 as [S1 So1]; [exact W|intros i j x y Hi Hj; apply Lb; lia|]. pose proof (seg_length _ _ _ _ S1) as L1.
  assert (HL1 : allin (fun x => less x p = true) a mid s1) by (apply (seg_all _ _ _ _ _ S1); [lia|exact HL]).
  assert (R1 : forall k, (mid <= k)%nat -> s1 !! k = s !! k) by (intros k Hk; apply (proj2 S1); lia).
  assert (Lb1 : leftb s1 a b) by (apply (leftb_seg a b s s1); [eapply seg_mono; [| |exact S1]; lia|exact Hb|exact Lb]).
  assert (HR1 : allin (fun x => less x p = false) (S mid) b s1) by (intros k x Hk X; rewrite R1 in X by lia; exact (HR k x Hk X)).
  destruct H2 as [S2 So2]; [exact W| |].
  { intros i j x y Hi Hj X Y. destruct (decide (i < a)%nat); [apply (Lb1 i j x y); [lia|lia|exact X|exact Y]|].
    pose proof (HR1 j y Hj Y) as Ly. cbn beta in Ly. destruct (decide (i = mid)) as [->|N]; [rewrite R1 in X by lia; congruence|].
    pose proof (HL1 i x ltac:(lia) X) as Lx. cbn beta in Lx. apply less_le in Lx; [|exact W]. exact (sw_incomp _ W _ _ _ Ly Lx). }
  split; [eapply seg_trans; eapply seg_mono; [| |exact S1| | |exact S2]; lia|].
  assert (R2 : forall k, (k <= mid)%nat -> s2 !! k = s1 !! k) by (intros k Hk; apply (proj2 S2); lia).
  apply (sorted_join s2 a b mid p W); [rewrite R2, R1 by lia; exact P|exact Hm| | | |exact So2].
  - intros k x Hk X. rewrite R2 in X by lia. exact (HL1 k x Hk X).
  - apply (seg_all _ _ _ _ _ S2); [lia|exact HR1].
  - apply (sorted_same a mid s1); [intros k Hk; apply R2; lia|exact So1].
Qed.
Lemma right_then_left a b s mid s1 s2 : (b <= length s)%nat -> parted a b s s mid -> pdq_post (S mid) b s s1 -> pdq_post a mid s1 s2 -> pdq_post a b s s2.
Proof.
  intros Hb (_ & Hm & p & P & HL & HR) [P1 H1] [P2 H2]. split; [rewrite P2; exact P1|]. intros W Lb.
  destruct H1 as [S1 So1]; [exact W| |].
  { intros i j x y Hi Hj X Y. destruct (decide (i < a)%nat); [apply (Lb i j x y); [lia|lia|exact X|exact Y]|].
    pose proof (HR j y Hj Y) as Ly. cbn beta in Ly. destruct (decide (i = mid)) as [->|N]; [congruence|].
    pose proof (HL i x ltac:(lia) X) as Lx. cbn beta in Lx. apply less_le in Lx; [|exact W]. exact (sw_incomp _ W _ _ _ Ly Lx). }
  pose proof (seg_length _ _ _ _ S1) as L1.
  assert (R1 : forall k, (k <= mid)%nat -> s1 !! k = s !! k) by (intros k Hk; apply (proj2 S1); lia).
  destruct H2 as [S2 So2]; [exact W|intros i j x y Hi Hj X Y; rewrite R1 in X, Y by lia; apply (Lb i j x y); [lia|lia|exact X|exact Y]|].
  split; [eapply seg_trans; eapply seg_mono; [| |exact S1| | |exact S2]; lia|].
  assert (R2 : forall k, (mid <= k)%nat -> s2 !! k = s1 !! k) by (intros k Hk; apply (proj2 S2); lia).
  apply (sorted_join s2 a b mid p W); [rewrite R2, R1 by lia; exact P|exact Hm| | |exact So2|].
  - apply (seg_all _ _ _ _ _ S2); [lia|]. intros k x Hk X. rewrite R1 in X by lia. exact (HL k x Hk X).
  - intros k x Hk X. rewrite R2 in X by lia. revert k x Hk X. apply (seg_all _ _ _ _ _ S1); [lia|exact HR].
  - apply (sorted_same (S mid) b s1); [intros k Hk; apply R2; lia|exact So1].
Qed.
(** the pivot is equivalent to the element before the segment *)
Lemma after_equal a b s mid s1 p z : (b <= length s)%nat -> (0 < a)%nat -> (a < mid <= b)%nat -> s !! (a - 1)%nat = Some z -> less z p = false ->
  s !! a = Some p -> allin (fun x => less p x = false) (S a) mid s -> allin (fun x => less p x = true) mid b s -> pdq_post mid b s s1 -> pdq_post a b s s1.
Proof.
  intros Hb Ha Hm Z Hz P HL HR [P1 H1]. split; [exact P1|]. intros W Lb.
  assert (HL' : allin (fun x => less p x = false) a mid s).
  { intros k x Hk X. destruct (decide (k = a)) as [->|N]; [assert (x = p) as -> by congruence; apply (sw_irrefl _ W)|]. apply (HL k x); [lia|exact X]. }
  assert (HZ : allin (fun x => less x p = false) a b s).
  { intros k x Hk X. pose proof (Lb (a - 1)%nat k z x ltac:(lia) Hk Z X) as L. exact (sw_incomp _ W _ _ _ L Hz). }
  destruct H1 as [S1 So1]; [exact W| |].
  { intros i j x y Hi Hj X Y. destruct (decide (i < a)%nat); [apply (Lb i j x y); [lia|lia|exact X|exact Y]|].
    pose proof (HR j y Hj Y) as Ly. cbn beta in Ly. apply less_le in Ly; [|exact W]. pose proof (HL' i x ltac:(lia) X) as Lx. exact (sw_incomp _ W _ _ _ Ly Lx). }
  assert (S : seg a b s s1) by (eapply seg_mono; [| |exact S1]; lia). split; [exact S|].
  assert (R1 : forall k, (k < mid)%nat -> s1 !! k = s !! k) by (intros k Hk; apply (proj2 S1); lia).
  assert (HZ1 : allin (fun x => less x p = false) a b s1) by (apply (seg_all _ _ _ _ _ S); [exact Hb|exact HZ]).
  intros i j x y Hi Hj X Y. destruct (decide (mid <= i)%nat); [apply (So1 i j x y); [lia|lia|exact X|exact Y]|].
  rewrite R1 in X by lia. pose proof (HL' i x ltac:(lia) X) as Lx. pose proof (HZ1 j y ltac:(lia) Y) as Ly. exact (sw_incomp _ W _ _ _ Ly Lx).
Qed.
Lemma pdq_post_seg a b s0 s s' : (b <= length s0)%nat -> (strict_weak less -> leftb s0 a b -> seg a b s0 s) -> s ≡ₚ s0 -> pdq_post a b s s' -> pdq_post a b s0 s'.
Proof.
  intros Hb HS P [P' H]. split; [rewrite P'; exact P|]. intros W Lb. specialize (HS W Lb). destruct H as [S' So]; [exact W|apply (leftb_seg a b s0); assumption|].
  split; [eapply seg_trans; eassumption|exact So].
Qed.
Lemma parted_self a b s s' mid : parted a b s s' mid -> parted a b s' s' mid.
Proof. intros (S & H). split; [apply seg_refl|exact H]. Qed.
Lemma pdq_loop_spec : forall fuel s a b limit bal par, (a <= b)%nat -> (b <= length s)%nat -> (b - a < fuel)%nat ->
  wp (pdq_loop less next fuel s a b limit bal par) (fun s' => pdq_post a b s s').
Proof.
  induction fuel as [|fuel IH]; intros s0 a b limit bal par Hab Hb Hf; [lia|]. cbn [pdq_loop].
  destruct (Nat.leb_spec (b - a) 12) as [L|L].
  { eapply wp_mono; [apply insertion_idx; assumption|]. intros s' [S So]. split; [exact (proj1 S)|]. intros W _. split; [exact S|exact (So W)]. }
  destruct (limit =? 0)%nat.
  { eapply wp_mono; [apply heap_sort_spec; assumption|]. intros s' [S So]. split; [exact (proj1 S)|]. intros W _. split; [exact S|exact (So W)]. }
  apply wp_bind. apply (wp_mono _ (fun s1 => seg a b s0 s1)).
  { destruct bal; cbn [negb]; [apply wp_ret, seg_refl|]. apply break_patterns_spec; assumption. }
  intros s1 S1. pose proof (seg_length _ _ _ _ S1) as L1. apply wp_bind. eapply wp_mono; [apply (choose_pivot_spec s1 a b); lia|]. intros [pivot h] Hp. cbn [fst] in Hp.
  apply wp_bind. apply (wp_mono _ (fun r => seg a b s0 (fst (fst r)) /\ (a <= snd (fst r) < b)%nat)).
  { destruct h; try (apply wp_ret; split; [exact S1|exact Hp]).
    apply wp_bind. eapply wp_mono; [apply (reverse_range_spec a b); lia|]. intros s2 S2. apply wp_ret. cbn [fst snd]. split; [eapply seg_trans; eassumption|lia]. }
  intros [[s2 pv] h'] [S2 Hpv]. cbn [fst snd] in *. clear S1 L1 s1 Hp pivot h. pose proof (seg_length _ _ _ _ S2) as L2.
  apply wp_bind. apply (wp_mono _ (fun r => fst r ≡ₚ s2 /\ (strict_weak less -> leftb s2 a b -> seg a b s2 (fst r) /\ (snd r = true -> sorted a b (fst r))))).
  { destruct (bal && par && _); [apply partial_insertion_spec; lia|]. apply wp_ret. split; [reflexivity|]. intros W _. split; [apply seg_refl|]. cbn. discriminate. }
  intros [s3 done] [P3 H3]. cbn [fst snd] in *. pose proof (Permutation_length P3) as L3.
  assert (S03 : strict_weak less -> leftb s0 a b -> seg a b s0 s3).
  { intros W Lb. eapply seg_trans; [exact S2|]. apply H3; [exact W|]. apply (leftb_seg a b s0); assumption. }
  assert (P03 : s3 ≡ₚ s0) by (rewrite P3; exact (proj1 S2)).
  destruct done.
  { apply wp_ret. split; [exact P03|]. intros W Lb. split; [exact (S03 W Lb)|]. apply H3; [exact W| |reflexivity]. apply (leftb_seg a b s0); assumption. }
  cut (wp (let! dup := if 0 <? a then let! c := sless less s3 (a - 1) pv in Ret (negb c) else Ret false in
           if dup : bool then let! (s, mid) := partition_equal less s3 a b pv in pdq_loop less next fuel s mid b (if negb bal then (limit - 1)%nat else limit) bal par
           else let! (s, (mid, already)) := partition less s3 a b pv in
                if (mid - a <? b - mid)%nat then let! s := pdq_loop less next fuel s a mid (if negb bal then (limit - 1)%nat else limit) true true in
                      pdq_loop less next fuel s (S mid) b (if negb bal then (limit - 1)%nat else limit) ((b - a) / 8 <=? mid - a) already
                else let! s := pdq_loop less next fuel s (S mid) b (if negb bal then (limit - 1)%nat else limit) true true in
                      pdq_loop less next fuel s a mid (if negb bal then (limit - 1)%nat else limit) ((b - a) / 8 <=? b - mid) already) (fun s' => pdq_post a b s3 s')).
  { intros G. eapply wp_mono; [exact G|]. intros s' Q. apply (pdq_post_seg a b s0 s3 s'); assumption. }
  apply wp_bind. apply (wp_mono _ (fun dup => dup = true -> (0 < a)%nat /\ exists z p, s3 !! (a - 1)%nat = Some z /\ s3 !! pv = Some p /\ less z p = false)).
  { destruct (Nat.ltb_spec 0 a) as [La|La]; [|apply wp_ret; discriminate]. destruct (sless_ok s3 (a - 1) pv) as (z & p & Z & P & ->); [lia|lia|]. cbn [rbind]. apply wp_ret.
    intros E. split; [exact La|]. exists z, p. split_and!; [exact Z|exact P|]. destruct (less z p); [discriminate|reflexivity]. }
  intros dup Hdup. destruct dup.
  - destruct (Hdup eq_refl) as (La & z & p & Z & P & Lz). apply wp_bind. eapply wp_mono; [apply (partition_equal_spec s3 a b pv p); [exact Hpv|lia|exact P]|].
    intros [s4 mid] (S4 & Hm & P4 & HL & HR). cbn [fst snd] in *. pose proof (seg_length _ _ _ _ S4) as L4. eapply wp_mono; [apply (IH s4 mid b); lia|]. intros s5 Q.
    apply (pdq_post_seg a b s3 s4 s5); [lia|intros _ _; exact S4|exact (proj1 S4)|]. apply (after_equal a b s4 mid s5 p z); try assumption; [lia|].
    rewrite (proj2 S4) by lia. exact Z.
  - apply wp_bind. eapply wp_mono; [apply (partition_spec s3 a b pv); [exact Hpv|lia]|]. intros [s4 [mid al]] Q4. cbn [fst snd] in Q4.
    pose proof Q4 as (S4 & Hm & _). pose proof (seg_length _ _ _ _ S4) as L4. apply parted_self in Q4.
    apply (wp_mono _ (fun s' => pdq_post a b s4 s')); [|intros s' Q; apply (pdq_post_seg a b s3 s4 s'); [lia|intros _ _; exact S4|exact (proj1 S4)|exact Q]].
    destruct (mid - a <? b - mid)%nat.
    + apply wp_bind. eapply wp_mono; [apply (IH s4 a mid); lia|]. intros s5 Q5. pose proof (Permutation_length (proj1 Q5)) as L5.
      eapply wp_mono; [apply (IH s5 (S mid) b); lia|]. intros s6 Q6. apply (left_then_right a b s4 mid s5 s6); [lia|exact Q4|exact Q5|exact Q6].
    + apply wp_bind. eapply wp_mono; [apply (IH s4 (S mid) b); lia|]. intros s5 Q5. pose proof (Permutation_length (proj1 Q5)) as L5.
      eapply wp_mono; [apply (IH s5 a mid); lia|]. intros s6 Q6. apply (right_then_left a b s4 mid s5 s6); [lia|exact Q4|exact Q5|exact Q6].
Qed.
Lemma sort_func_spec s : wp (sort_func less next s) (fun w => w ≡ₚ s /\ srt less w).
Proof.
  unfold sort_func. eapply wp_mono; [apply pdq_loop_spec; lia|]. intros w [P H]. split; [exact P|]. intros W.
  destruct H as [_ So]; [exact W|intros i j x y Hi; lia|]. apply ss_of_lookup. intros i j x y Hij X Y. apply (So i j x y); [lia| |exact X|exact Y].
  rewrite <- (Permutation_length P). eapply lookup_lt_Some; exact Y.
Qed.
End proofs.
