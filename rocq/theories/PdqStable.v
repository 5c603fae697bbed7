(** The stable sort: insertion sort of the blocks, and the merges by rotation. *)
From Verif Require Import Base SortModel SortProofs PdqModel.
From Coq Require Import Sorting.Sorted.

Definition wp {X} (r : res X) (Q : X -> Prop) : Prop := exists x, r = Ret x /\ Q x.
Lemma wp_ret {X} (x : X) (Q : X -> Prop) : Q x -> wp (Ret x) Q.
Proof. intros; exists x; auto. Qed.
Lemma wp_bind {X Y} (r : res X) (k : X -> res Y) Q : wp r (fun x => wp (k x) Q) -> wp (rbind r k) Q.
Proof. intros (x & -> & H). exact H. Qed.
Lemma wp_mono {X} (r : res X) (P Q : X -> Prop) : wp r P -> (forall x, P x -> Q x) -> wp r Q.
Proof. intros (x & -> & H) HPQ. exists x. auto. Qed.

Section proofs.
Context {A : Type} (less : A -> A -> bool).
Notation le := (fun a b => less b a = false).

Lemma sget_mid (l : list A) x r i : i = length l -> sget (l ++ x :: r) i = Ret x.
Proof. intros ->. unfold sget. rewrite lookup_app_r by lia. rewrite Nat.sub_diag. reflexivity. Qed.
Lemma sswap_mid (l : list A) x m y r i j : i = length l -> j = (length l + 1 + length m)%nat ->
  sswap (l ++ x :: m ++ y :: r) i j = Ret (l ++ y :: m ++ x :: r).
Proof.
  intros -> ->. unfold sswap. rewrite (sget_mid l) by reflexivity. cbn [rbind].
  replace (l ++ x :: m ++ y :: r) with ((l ++ x :: m) ++ y :: r) by (rewrite <- app_assoc; reflexivity).
  rewrite (sget_mid (l ++ x :: m)) by (rewrite app_length; cbn; lia). cbn [rbind]. f_equal.
  rewrite <- app_assoc. cbn [app]. rewrite (insert_app_r_alt l) by lia. rewrite Nat.sub_diag. change (<[0%nat:=y]> (x :: m ++ y :: r)) with (y :: m ++ y :: r).
  rewrite (insert_app_r_alt l) by lia. replace (length l + 1 + length m - length l)%nat with (S (length m)) by lia.
  change (<[S (length m):=x]> (y :: m ++ y :: r)) with (y :: <[length m:=x]> (m ++ y :: r)).
  rewrite (insert_app_r_alt m) by lia. rewrite Nat.sub_diag. reflexivity.
Qed.
Lemma sswap_comm (s : list A) i j : sswap s i j = sswap s j i.
Proof.
  unfold sswap, sget. destruct (s !! i) as [x|] eqn:X; destruct (s !! j) as [y|] eqn:Y; cbn [deref rbind]; try reflexivity.
  f_equal. destruct (decide (i = j)) as [->|N]; [congruence|]. apply list_insert_commute. congruence.
Qed.
Lemma sless_spec (s : list A) i j x y : s !! i = Some x -> s !! j = Some y -> sless less s i j = Ret (less x y).
Proof. intros E F. unfold sless, sget. rewrite E, F. reflexivity. Qed.

(** *** what is kept, if the comparison is a strict weak order *)
Definition srt (u : list A) : Prop := strict_weak less -> StronglySorted le u.
Definition stb (u w : list A) : Prop := strict_weak less -> forall a, List.filter (equivalent less a) w = List.filter (equivalent less a) u.
Lemma stb_refl u : stb u u.
Proof. intros _ a. reflexivity. Qed.
Lemma stb_trans u v w : stb u v -> stb v w -> stb u w.
Proof. intros H1 H2 W a. rewrite (H2 W), (H1 W). reflexivity. Qed.
Lemma stb_app u v u' v' : stb u u' -> stb v v' -> stb (u ++ v) (u' ++ v').
Proof. intros H1 H2 W a. rewrite !List.filter_app, (H1 W), (H2 W). reflexivity. Qed.
Lemma filter_none (f : A -> bool) l : (forall x, x ∈ l -> f x = false) -> List.filter f l = [].
Proof.
  induction l as [|x l IH]; intros H; [reflexivity|]. cbn. rewrite H by left. apply IH. intros y Hy. apply H. right. exact Hy.
Qed.
Lemma stb_swap u v : (forall x y, x ∈ u -> y ∈ v -> less y x = true) -> stb (u ++ v) (v ++ u).
Proof.
  intros H W a. rewrite !List.filter_app.
  destruct (List.filter (equivalent less a) u) as [|x fu] eqn:Fu; [rewrite app_nil_r; reflexivity|].
  rewrite (filter_none _ v); [rewrite app_nil_r; reflexivity|]. intros y Hy.
  assert (Hx : x ∈ u /\ equivalent less a x = true).
  { rewrite elem_of_list_In. apply filter_In. rewrite Fu. left. reflexivity. }
  destruct Hx as [Hx E]. apply equiv_true in E as [E1 E2].
  destruct (equivalent less a y) eqn:E; [|reflexivity]. apply equiv_true in E as [E3 E4].
  pose proof (sw_incomp _ W _ _ _ E4 E1) as E5. rewrite (H x y Hx Hy) in E5. discriminate.
Qed.
Lemma less_le x y : strict_weak less -> less x y = true -> less y x = false.
Proof.
  intros W H. destruct (less y x) eqn:E; [|reflexivity].
  pose proof (sw_trans _ W _ _ _ H E) as F. rewrite (sw_irrefl _ W) in F. discriminate.
Qed.
Lemma less_le_less x y z : strict_weak less -> less x y = true -> less z y = false -> less x z = true.
Proof.
  intros W H1 H2. destruct (less x z) eqn:E; [reflexivity|]. pose proof (sw_incomp _ W _ _ _ E H2). congruence.
Qed.
Lemma le_less_less x y z : strict_weak less -> less y x = false -> less y z = true -> less x z = true.
Proof.
  intros W H1 H2. destruct (less x z) eqn:E; [reflexivity|]. pose proof (sw_incomp _ W _ _ _ H1 E). congruence.
Qed.
Lemma ss_app (u v : list A) (R : A -> A -> Prop) : StronglySorted R (u ++ v) <->
  StronglySorted R u /\ StronglySorted R v /\ (forall x y, x ∈ u -> y ∈ v -> R x y).
Proof.
  induction u as [|a u IH]; cbn.
  - split; [intros H; split_and!; [constructor|exact H|intros x y Hx; inversion Hx]|tauto].
  - split.
    + intros H. apply StronglySorted_inv in H as [H1 H2]. apply IH in H1 as (H3 & H4 & H5). rewrite List.Forall_forall in H2. split_and!.
      * constructor; [exact H3|]. apply List.Forall_forall. intros x Hx. apply H2, in_app_iff. left. exact Hx.
      * exact H4.
      * intros x y Hx Hy. apply elem_of_cons in Hx as [->|Hx]; [apply H2, in_app_iff; right; apply elem_of_list_In; exact Hy|apply H5; assumption].
    + intros (H1 & H2 & H3). apply StronglySorted_inv in H1 as [H1 H4]. constructor.
      * apply IH. split_and!; try assumption. intros x y Hx. apply H3. right. exact Hx.
      * apply List.Forall_forall. intros x Hx. apply in_app_iff in Hx as [Hx|Hx].
        -- rewrite List.Forall_forall in H4. apply H4. exact Hx.
        -- apply H3; [left|apply elem_of_list_In; exact Hx].
Qed.
Lemma srt_app u v : srt (u ++ v) -> srt u /\ srt v.
Proof. intros H. split; intros W; apply ss_app in H; tauto. Qed.
Lemma srt_app_le u v x y : strict_weak less -> srt (u ++ v) -> x ∈ u -> y ∈ v -> less y x = false.
Proof. intros W H Hx Hy. specialize (H W). apply ss_app in H as (_ & _ & H). apply H; assumption. Qed.

(** *** insertion sort *)
Lemma ins_inner_spec (l u : list A) : forall x r a j, a = length l -> j = (length l + length u)%nat ->
  wp (ins_inner less (l ++ u ++ x :: r) a j) (fun s' => exists u1 u2, s' = l ++ u1 ++ x :: u2 ++ r /\ u = u1 ++ u2 /\
    (forall y, y ∈ u2 -> less x y = true) /\ (forall y, last u1 = Some y -> less x y = false)).
Proof.
  induction u as [|y u IH] using rev_ind; intros x r a j -> ->.
  - cbn [length]. rewrite Nat.add_0_r. assert (E : ins_inner less (l ++ [] ++ x :: r) (length l) (length l) = Ret (l ++ x :: r)).
    { destruct l as [|z l]; [reflexivity|]. cbn [length ins_inner]. rewrite Nat.ltb_irrefl. reflexivity. }
    rewrite E. apply wp_ret. exists [], []. split_and!; [reflexivity|reflexivity|intros y Hy; inversion Hy|intros y Hy; discriminate].
  - rewrite app_length. cbn [length]. replace (length l + (length u + 1))%nat with (S (length l + length u)) by lia. cbn [ins_inner].
    replace (length l <? S (length l + length u)) with true by (symmetry; apply Nat.ltb_lt; lia).
    rewrite (sless_spec _ _ _ x y).
    2:{ rewrite <- app_assoc. rewrite !lookup_app_r by lia. replace (S (length l + length u) - length l - length u)%nat with 1%nat by lia. reflexivity. }
    2:{ rewrite <- app_assoc. rewrite !lookup_app_r by lia. replace (length l + length u - length l - length u)%nat with 0%nat by lia. reflexivity. }
    cbn [rbind]. destruct (less x y) eqn:L.
    + apply wp_bind. rewrite sswap_comm. rewrite <- app_assoc. cbn [app].
      replace (l ++ u ++ y :: x :: r) with ((l ++ u) ++ y :: [] ++ x :: r) by (rewrite <- app_assoc; reflexivity).
      rewrite sswap_mid by (rewrite app_length; cbn; lia). apply wp_ret. rewrite <- app_assoc. cbn [app].
      eapply wp_mono; [apply IH; reflexivity|]. intros s' (u1 & u2 & -> & -> & H1 & H2).
      exists u1, (u2 ++ [y]). split_and!.
      * rewrite <- !app_assoc. reflexivity.
      * rewrite <- app_assoc. reflexivity.
      * intros z Hz. apply elem_of_app in Hz as [Hz|Hz]; [apply H1; exact Hz|]. apply elem_of_list_singleton in Hz as ->. exact L.
      * exact H2.
    + apply wp_ret. exists (u ++ [y]), []. split_and!.
      * cbn [app]. reflexivity.
      * rewrite app_nil_r. reflexivity.
      * intros z Hz. inversion Hz.
      * intros z Hz. rewrite last_snoc in Hz. congruence.
Qed.
Lemma last_le (u : list A) x : strict_weak less -> StronglySorted le u -> (forall y, last u = Some y -> less x y = false) -> forall y, y ∈ u -> less x y = false.
Proof.
  intros W S H y Hy. destruct u as [|z u _] using rev_ind; [inversion Hy|]. apply ss_app in S as (_ & _ & S).
  pose proof (H z (last_snoc _ _)) as Hz. apply elem_of_app in Hy as [Hy|Hy]; [|apply elem_of_list_singleton in Hy as ->; exact Hz].
  pose proof (S y z Hy ltac:(left)) as L. exact (sw_incomp _ W _ _ _ Hz L).
Qed.
Lemma insert_place u1 u2 x : srt (u1 ++ u2) -> (forall y, y ∈ u2 -> less x y = true) -> (forall y, last u1 = Some y -> less x y = false) ->
  srt (u1 ++ x :: u2) /\ stb ((u1 ++ u2) ++ [x]) (u1 ++ x :: u2).
Proof.
  intros S H1 H2. split.
  - intros W. specialize (S W). apply ss_app in S as (S1 & S2 & S3). apply ss_app. split_and!.
    + exact S1.
    + constructor; [exact S2|]. apply List.Forall_forall. intros y Hy. apply less_le; [exact W|]. apply H1, elem_of_list_In, Hy.
    + intros y z Hy Hz. apply elem_of_cons in Hz as [->|Hz]; [|apply S3; assumption]. exact (last_le _ _ W S1 H2 y Hy).
  - rewrite <- app_assoc. apply stb_app; [apply stb_refl|]. change (x :: u2) with ([x] ++ u2). apply stb_swap.
    intros y z Hy Hz. apply elem_of_list_singleton in Hz as ->. apply H1. exact Hy.
Qed.
Lemma ins_outer_spec (l : list A) : forall v u r a i n, a = length l -> i = (length l + length u)%nat -> n = length v -> srt u ->
  wp (ins_outer less n (l ++ u ++ v ++ r) a i) (fun s' => exists w, s' = l ++ w ++ r /\ w ≡ₚ u ++ v /\ srt w /\ stb (u ++ v) w).
Proof.
  induction v as [|x v IH]; intros u r a i n -> -> -> S.
  - cbn. apply wp_ret. exists u. rewrite app_nil_r. split_and!; [reflexivity|reflexivity|exact S|apply stb_refl].
  - cbn [length ins_outer app]. apply wp_bind. eapply wp_mono; [apply ins_inner_spec; reflexivity|].
    intros s' (u1 & u2 & -> & -> & H1 & H2). destruct (insert_place u1 u2 x S H1 H2) as [S' T'].
    replace (l ++ u1 ++ x :: u2 ++ v ++ r) with (l ++ (u1 ++ x :: u2) ++ v ++ r) by (rewrite <- app_assoc; reflexivity).
    eapply wp_mono; [apply (IH (u1 ++ x :: u2)); [reflexivity| |reflexivity|exact S']; rewrite !app_length; cbn; lia|].
    intros s' (w & -> & P & Sw & Tw). exists w. split_and!.
    + reflexivity.
    + rewrite P. rewrite <- !app_assoc. cbn. apply Permutation_app_head. rewrite Permutation_middle. reflexivity.
    + exact Sw.
    + eapply stb_trans; [|exact Tw]. change (x :: v) with ([x] ++ v). rewrite (app_assoc (u1 ++ u2)). apply stb_app; [exact T'|apply stb_refl].
Qed.
Lemma srt_nil : srt [].
Proof. intros _. constructor. Qed.
Lemma srt_one x : srt [x].
Proof. intros _. repeat constructor. Qed.
Lemma insertion_spec (l u r : list A) a b : a = length l -> b = (length l + length u)%nat ->
  wp (insertion less (l ++ u ++ r) a b) (fun s' => exists w, s' = l ++ w ++ r /\ w ≡ₚ u /\ srt w /\ stb u w).
Proof.
  intros -> ->. unfold insertion. destruct u as [|x u].
  - replace (length l + length (@nil A) - S (length l))%nat with 0%nat by (cbn; lia). apply wp_ret. exists []. split_and!; [reflexivity|reflexivity|apply srt_nil|apply stb_refl].
  - change (x :: u) with ([x] ++ u). rewrite <- app_assoc. apply ins_outer_spec; [reflexivity|cbn; lia|cbn; lia|apply srt_one].
Qed.

(** *** rotations *)
Lemma swap_range_spec : forall (u v l m r : list A) n a b, length v = length u -> n = length u -> a = length l -> b = (length l + length u + length m)%nat ->
  swap_range n (l ++ u ++ m ++ v ++ r) a b = Ret (l ++ v ++ m ++ u ++ r).
Proof.
  induction u as [|x u IH]; intros v l m r n a b E -> -> ->.
  - destruct v; [|discriminate]. reflexivity.
  - destruct v as [|y v]; [discriminate|]. cbn in E. injection E as E. cbn [length swap_range app].
    replace (l ++ x :: u ++ m ++ y :: v ++ r) with (l ++ x :: (u ++ m) ++ y :: v ++ r) by (rewrite <- app_assoc; reflexivity).
    rewrite sswap_mid; [|reflexivity|rewrite app_length; lia]. cbn [rbind].
    replace (l ++ y :: (u ++ m) ++ x :: v ++ r) with ((l ++ [y]) ++ u ++ (m ++ [x]) ++ v ++ r) by (rewrite <- !app_assoc; reflexivity).
    rewrite IH; [|exact E|reflexivity|rewrite app_length; cbn; lia|rewrite !app_length; cbn; lia]. rewrite <- !app_assoc. reflexivity.
Qed.
Lemma rotate_loop_spec : forall fuel (u v l r : list A) m i j, i = length u -> j = length v -> m = (length l + length u)%nat ->
  (1 <= i)%nat -> (1 <= j)%nat -> (i + j <= fuel)%nat -> rotate_loop fuel (l ++ u ++ v ++ r) m i j = Ret (l ++ v ++ u ++ r).
Proof.
  induction fuel as [|fuel IH]; intros u v l r m i j Ei Ej Em Hi Hj Hf; [lia|]. cbn [rotate_loop].
  destruct (Nat.eqb_spec i j) as [E|E].
  - replace (m - i)%nat with (length l) by lia. exact (swap_range_spec u v l [] r i (length l) m ltac:(lia) ltac:(lia) eq_refl ltac:(cbn; lia)).
  - destruct (Nat.ltb_spec j i) as [L|L].
    + replace (m - i)%nat with (length l) by lia.
      rewrite <- (take_drop j u) at 1. rewrite <- app_assoc.
      rewrite (swap_range_spec (take j u) v l (drop j u) r);
        [|rewrite take_length; lia|rewrite take_length; lia|reflexivity|rewrite take_length, drop_length; lia]. cbn [rbind].
      rewrite (app_assoc l v). rewrite IH; [|rewrite drop_length; lia|rewrite take_length; lia|rewrite app_length, drop_length; lia|lia|lia|lia].
      rewrite <- app_assoc. f_equal. f_equal. f_equal. rewrite app_assoc, take_drop. reflexivity.
    + replace (m - i)%nat with (length l) by lia.
      rewrite <- (take_drop (j - i) v) at 1. rewrite <- app_assoc.
      rewrite (swap_range_spec u (drop (j - i) v) l (take (j - i) v) r);
        [|rewrite drop_length; lia|lia|reflexivity|rewrite take_length; lia]. cbn [rbind].
      rewrite IH; [|rewrite drop_length; lia|rewrite take_length; lia|rewrite drop_length; lia|lia|lia|lia].
      f_equal. f_equal. rewrite app_assoc, take_drop. reflexivity.
Qed.
Lemma rotate_spec (u v l r : list A) a m b : a = length l -> m = (a + length u)%nat -> b = (m + length v)%nat -> (a < m)%nat -> (m < b)%nat ->
  rotate (l ++ u ++ v ++ r) a m b = Ret (l ++ v ++ u ++ r).
Proof. intros -> -> -> H1 H2. unfold rotate. apply rotate_loop_spec; lia. Qed.
Lemma carry_up_spec : forall (v l : list A) x r n k, n = length v -> k = length l -> carry_up n (l ++ x :: v ++ r) k = Ret (l ++ v ++ x :: r).
Proof.
  induction v as [|y v IH]; intros l x r n k -> ->; [reflexivity|]. cbn [length carry_up app].
  pose proof (sswap_mid l x [] y (v ++ r) (length l) (S (length l)) eq_refl ltac:(cbn; lia)) as E. cbn [app] in E. rewrite E. cbn [rbind].
  replace (l ++ y :: x :: v ++ r) with ((l ++ [y]) ++ x :: v ++ r) by (rewrite <- app_assoc; reflexivity).
  rewrite IH; [|reflexivity|rewrite app_length; cbn; lia]. rewrite <- app_assoc. reflexivity.
Qed.
Lemma carry_down_spec (u : list A) : forall l x r n k, n = length u -> k = (length l + length u)%nat -> carry_down n (l ++ u ++ x :: r) k = Ret (l ++ x :: u ++ r).
Proof.
  induction u as [|y u IH] using rev_ind; intros l x r n k -> ->; [reflexivity|]. rewrite app_length. cbn [length]. rewrite Nat.add_1_r. cbn [carry_down].
  rewrite sswap_comm. replace (l ++ (u ++ [y]) ++ x :: r) with ((l ++ u) ++ y :: [] ++ x :: r) by (rewrite <- !app_assoc; reflexivity).
  rewrite sswap_mid; [|rewrite app_length; lia|rewrite app_length; cbn; lia]. cbn [rbind app]. rewrite <- app_assoc.
  rewrite IH; [|lia|lia]. rewrite <- app_assoc. reflexivity.
Qed.

(** *** the binary searches: no order is needed *)
Lemma bsearch_spec (f : nat -> res bool) (g : nat -> bool) lo hi : (forall h, (lo <= h < hi)%nat -> f h = Ret (g h)) ->
  forall fuel i j, (lo <= i <= j)%nat -> (j <= hi)%nat -> (j - i < fuel)%nat ->
  wp (bsearch fuel f i j) (fun k => (i <= k <= j)%nat /\ ((i < k)%nat -> g (k - 1)%nat = true) /\ ((k < j)%nat -> g k = false)).
Proof.
  intros F. induction fuel as [|fuel IH]; intros i j Hij Hj Hf; [lia|]. cbn [bsearch].
  destruct (Nat.ltb_spec i j) as [L|L]; [|apply wp_ret; split_and!; intros; lia].
  assert (M : (i <= (i + j) / 2 < j)%nat).
  { split; [apply Nat.div_le_lower_bound; lia|apply Nat.div_lt_upper_bound; lia]. }
  rewrite F by lia. cbn [rbind]. destruct (g ((i + j) / 2)%nat) eqn:G.
  - eapply wp_mono; [apply IH; lia|]. intros k (K1 & K2 & K3). split_and!; try lia.
    + intros _. destruct (decide (k = S ((i + j) / 2))) as [->|N]; [|apply K2; lia]. cbn. rewrite Nat.sub_0_r. exact G.
    + exact K3.
  - eapply wp_mono; [apply IH; lia|]. intros k (K1 & K2 & K3). split_and!; try lia.
    + exact K2.
    + intros _. destruct (decide (k = ((i + j) / 2))%nat) as [->|N]; [exact G|apply K3; lia].
Qed.

(** *** symMerge *)
Lemma split_at (u : list A) n : (n <= length u)%nat -> exists u1 u2, u = u1 ++ u2 /\ length u1 = n.
Proof. intros H. exists (take n u), (drop n u). rewrite take_drop, take_length. split; [reflexivity|lia]. Qed.
Lemma lookup_at (l : list A) x r i : i = length l -> (l ++ x :: r) !! i = Some x.
Proof. intros ->. apply list_lookup_middle. reflexivity. Qed.
Lemma ss_perm_app (u v u' v' : list A) : u' ≡ₚ u -> v' ≡ₚ v -> (forall x y, x ∈ u -> y ∈ v -> less y x = false) ->
  StronglySorted le u' -> StronglySorted le v' -> StronglySorted le (u' ++ v').
Proof.
  intros P Q H S1 S2. apply ss_app. split_and!; try assumption. intros x y Hx Hy. apply H; [rewrite <- P|rewrite <- Q]; assumption.
Qed.
Lemma head_le (v : list A) x : strict_weak less -> StronglySorted le v -> (forall y, head v = Some y -> less y x = false) -> forall y, y ∈ v -> less y x = false.
Proof.
  intros W S H y Hy. destruct v as [|z v]; [inversion Hy|]. pose proof (H z eq_refl) as Hz.
  apply elem_of_cons in Hy as [->|Hy]; [exact Hz|]. apply StronglySorted_inv in S as [_ S]. rewrite List.Forall_forall in S.
  apply elem_of_list_In in Hy. specialize (S y Hy). cbn in S. exact (sw_incomp _ W _ _ _ S Hz).
Qed.
Definition merged (u v w : list A) : Prop := w ≡ₚ u ++ v /\ (srt u -> srt v -> srt w /\ stb (u ++ v) w).
Lemma merge_halves u1 u2 v1 v2 w1 w2 : merged u1 v1 w1 -> merged u2 v2 w2 ->
  (forall x y, last v1 = Some x -> head u2 = Some y -> less x y = true) ->
  (forall x y, last u1 = Some x -> head v2 = Some y -> less y x = false) ->
  merged (u1 ++ u2) (v1 ++ v2) (w1 ++ w2).
Proof.
  intros [P1 M1] [P2 M2] C1 C2. split.
  { rewrite P1, P2. rewrite <- !app_assoc. apply Permutation_app_head. rewrite !app_assoc. apply Permutation_app_tail, Permutation_app_comm. }
  intros Su Sv. destruct (srt_app _ _ Su) as [Su1 Su2]. destruct (srt_app _ _ Sv) as [Sv1 Sv2].
  destruct (M1 Su1 Sv1) as [W1 T1]. destruct (M2 Su2 Sv2) as [W2 T2].
  assert (B1 : strict_weak less -> forall x y, x ∈ u1 -> y ∈ v2 -> less y x = false).
  { intros W x y Hx Hy. destruct v2 as [|z v2]; [inversion Hy|].
    apply (head_le (z :: v2) x W (Sv2 W)); [|exact Hy]. intros y0 Hy0. apply (last_le u1 y0 W (Su1 W)); [|exact Hx].
    intros x0 Hx0. exact (C2 x0 y0 Hx0 Hy0). }
  assert (B2 : strict_weak less -> forall x y, x ∈ u2 -> y ∈ v1 -> less y x = true).
  { intros W x y Hx Hy. destruct u2 as [|z u2]; [inversion Hx|]. destruct v1 as [|t v1 _] using rev_ind; [inversion Hy|].
    pose proof (C1 t z (last_snoc _ _) eq_refl) as L.
    assert (Ly : less t y = false).
    { apply elem_of_app in Hy as [Hy|Hy]; [|apply elem_of_list_singleton in Hy as ->; apply (sw_irrefl _ W)].
      specialize (Sv1 W). apply ss_app in Sv1 as (_ & _ & Sv1). apply Sv1; [exact Hy|left]. }
    assert (Lx : less x z = false).
    { apply elem_of_cons in Hx as [->|Hx]; [apply (sw_irrefl _ W)|]. specialize (Su2 W). apply StronglySorted_inv in Su2 as [_ Su2].
      rewrite List.Forall_forall in Su2. apply elem_of_list_In in Hx. exact (Su2 x Hx). }
    eapply less_le_less; [exact W| |exact Lx]. eapply le_less_less; [exact W|exact Ly|exact L]. }
  split.
  - intros W. eapply ss_perm_app; [exact P1|exact P2| |exact (W1 W)|exact (W2 W)].
    intros x y Hx Hy. apply elem_of_app in Hx as [Hx|Hx]; apply elem_of_app in Hy as [Hy|Hy].
    + exact (srt_app_le u1 u2 x y W Su Hx Hy).
    + exact (B1 W x y Hx Hy).
    + apply less_le; [exact W|]. exact (B2 W y x Hy Hx).
    + exact (srt_app_le v1 v2 x y W Sv Hx Hy).
  - intros W. assert (T : stb ((u1 ++ u2) ++ v1 ++ v2) ((u1 ++ v1) ++ u2 ++ v2)).
    { rewrite <- !app_assoc. apply stb_app; [apply stb_refl|]. rewrite !app_assoc. apply stb_app; [|apply stb_refl]. apply stb_swap. exact (B2 W). }
    exact (stb_trans _ _ _ T (stb_app _ _ _ _ T1 T2) W).
Qed.
Lemma merged_nil_l v : merged [] v v.
Proof. split; [reflexivity|]. intros _ S. split; [exact S|apply stb_refl]. Qed.
Lemma merged_nil_r u : merged u [] u.
Proof. split; [rewrite app_nil_r; reflexivity|]. intros S _. split; [exact S|rewrite app_nil_r; apply stb_refl]. Qed.
Lemma lookup_l (l r : list A) i x : r !! i = Some x -> (l ++ r) !! (length l + i)%nat = Some x.
Proof. intros H. rewrite lookup_app_r by lia. replace (length l + i - length l)%nat with i by lia. exact H. Qed.
Lemma last_lookup_app (u1 u2 : list A) x : last u1 = Some x -> (u1 ++ u2) !! (length u1 - 1)%nat = Some x.
Proof. intros H. rewrite last_lookup in H. rewrite lookup_app_l; [|apply lookup_lt_Some in H; lia]. rewrite <- H. f_equal. lia. Qed.
Lemma head_lookup_app (u1 u2 : list A) x : head u2 = Some x -> (u1 ++ u2) !! length u1 = Some x.
Proof. intros H. destruct u2 as [|y u2]; [discriminate|]. cbn in H. injection H as ->. apply list_lookup_middle. reflexivity. Qed.
Lemma sym_merge_spec : forall fuel (u v l r : list A) a m b, a = length l -> m = (a + length u)%nat -> b = (m + length v)%nat ->
  (1 <= length u)%nat -> (1 <= length v)%nat -> (b - a < fuel)%nat ->
  wp (sym_merge less fuel (l ++ u ++ v ++ r) a m b) (fun s' => exists w, s' = l ++ w ++ r /\ merged u v w).
Proof.
  induction fuel as [|fuel IH]; intros u v l r a m b Ea Em Eb Hu Hv Hf; [lia|]. cbn [sym_merge].
  set (s := l ++ u ++ v ++ r).
  assert (Ls : length s = (length l + length u + length v + length r)%nat) by (unfold s; rewrite !app_length; lia).
  assert (Lu : forall c x, u !! c = Some x -> s !! (a + c)%nat = Some x).
  { intros c x E. subst a. apply lookup_l. apply lookup_app_l_Some. exact E. }
  assert (Lv : forall c x, v !! c = Some x -> s !! (m + c)%nat = Some x).
  { intros c x E. subst a m. unfold s. rewrite <- Nat.add_assoc. apply lookup_l, lookup_l. apply lookup_app_l_Some. exact E. }
  destruct (Nat.eqb_spec (m - a) 1) as [E1|E1].
  - destruct u as [|x [|? ?]]; cbn in Em; [lia| |cbn in Hu; lia].
    assert (X : s !! a = Some x) by (rewrite <- (Nat.add_0_r a); apply Lu; reflexivity).
    apply wp_bind. eapply wp_mono.
    { apply (bsearch_spec _ (fun h => match v !! (h - m)%nat with Some y => less y x | None => false end) m b); [|lia|lia|rewrite Ls; lia].
      intros h Hh. destruct (lookup_lt_is_Some_2 v (h - m)) as [y Y]; [lia|]. rewrite Y. apply sless_spec; [|exact X].
      replace h with (m + (h - m))%nat by lia. apply Lv. exact Y. }
    intros i (I1 & I2 & I3). destruct (split_at v (i - m)) as (v1 & v2 & -> & Lv1); [lia|].
    unfold s. cbn [app]. rewrite <- app_assoc. rewrite carry_up_spec; [|lia|exact Ea]. apply wp_ret.
    exists (v1 ++ x :: v2). split; [rewrite <- app_assoc; reflexivity|].
    change (x :: v2) with ([x] ++ v2). change [x] with ([] ++ [x]).
    change (merged [x] (v1 ++ v2) (v1 ++ [x] ++ v2)) with (merged ([] ++ [x]) (v1 ++ v2) (v1 ++ ([x] ++ v2))).
    split.
    { cbn. rewrite <- Permutation_middle. reflexivity. }
    intros _ Sv. destruct (srt_app _ _ Sv) as [Sv1 Sv2].
    assert (C1 : strict_weak less -> forall y, y ∈ v1 -> less y x = true).
    { intros W y Hy. destruct v1 as [|t v1 _] using rev_ind; [inversion Hy|]. rewrite app_length in Lv1; cbn in Lv1.
      specialize (I2 ltac:(lia)). replace (i - 1 - m)%nat with (length v1) in I2 by lia. rewrite <- app_assoc in I2. cbn [app] in I2.
      rewrite list_lookup_middle in I2 by reflexivity. apply elem_of_app in Hy as [Hy|Hy]; [|apply elem_of_list_singleton in Hy as ->; exact I2].
      eapply le_less_less; [exact W| |exact I2]. specialize (Sv1 W). apply ss_app in Sv1 as (_ & _ & Sv1). apply Sv1; [exact Hy|left]. }
    assert (C2 : strict_weak less -> forall y, y ∈ v2 -> less y x = false).
    { intros W. apply head_le; [exact W|exact (Sv2 W)|]. intros y Hy. destruct v2 as [|z v2]; [discriminate|]. injection Hy as ->.
      rewrite app_length in Eb. cbn in Eb. specialize (I3 ltac:(lia)). rewrite <- Lv1 in I3. rewrite list_lookup_middle in I3 by reflexivity. exact I3. }
    split.
    + intros W. apply ss_app. split_and!; [exact (Sv1 W)| |].
      * cbn. constructor; [exact (Sv2 W)|]. apply List.Forall_forall. intros y Hy. apply C2; [exact W|apply elem_of_list_In; exact Hy].
      * intros y z Hy Hz. cbn in Hz. apply elem_of_cons in Hz as [->|Hz]; [apply less_le; [exact W|apply C1; assumption]|].
        exact (srt_app_le v1 v2 y z W Sv Hy Hz).
    + intros W. cbn [app]. change (x :: v1 ++ v2) with ([x] ++ v1 ++ v2). change (x :: v2) with ([x] ++ v2). rewrite !app_assoc.
      refine (stb_app _ _ _ _ _ (stb_refl _) W). apply stb_swap. intros y z Hy Hz. apply elem_of_list_singleton in Hy as ->. apply C1; assumption.
  - destruct (Nat.eqb_spec (b - m) 1) as [E2|E2].
    + destruct v as [|y [|? ?]]; cbn in Eb; [lia| |cbn in Hv; lia].
      assert (Y : s !! m = Some y) by (rewrite <- (Nat.add_0_r m); apply Lv; reflexivity).
      apply wp_bind. eapply wp_mono.
      { apply (bsearch_spec _ (fun h => match u !! (h - a)%nat with Some x => negb (less y x) | None => false end) a m); [|lia|lia|rewrite Ls; lia].
        intros h Hh. destruct (lookup_lt_is_Some_2 u (h - a)) as [x X]; [lia|]. rewrite X. rewrite (sless_spec _ _ _ y x); [reflexivity|exact Y|].
        replace h with (a + (h - a))%nat by lia. apply Lu. exact X. }
      intros i (I1 & I2 & I3). destruct (split_at u (i - a)) as (u1 & u2 & -> & Lu1); [lia|]. rewrite app_length in *.
      unfold s. replace (l ++ (u1 ++ u2) ++ [y] ++ r) with ((l ++ u1) ++ u2 ++ y :: r) by (rewrite <- !app_assoc; reflexivity).
      rewrite carry_down_spec; [|lia|rewrite app_length; lia]. apply wp_ret.
      exists (u1 ++ y :: u2). split; [rewrite <- !app_assoc; reflexivity|]. split.
      { rewrite <- Permutation_cons_append. rewrite <- Permutation_middle. reflexivity. }
      intros Su _. destruct (srt_app _ _ Su) as [Su1 Su2].
      assert (C1 : forall x, last u1 = Some x -> less y x = false).
      { intros x Hx. pose proof (last_lookup_app u1 u2 x Hx) as K. rewrite last_lookup in Hx. apply lookup_lt_Some in Hx.
        specialize (I2 ltac:(lia)). replace (i - 1 - a)%nat with (length u1 - 1)%nat in I2 by lia. rewrite K in I2. destruct (less y x); [discriminate|reflexivity]. }
      assert (C2 : strict_weak less -> forall x, x ∈ u2 -> less y x = true).
      { intros W x Hx. destruct u2 as [|z u2]; [inversion Hx|]. cbn in Em. specialize (I3 ltac:(lia)). rewrite <- Lu1 in I3.
        rewrite list_lookup_middle in I3 by reflexivity. apply negb_false_iff in I3.
        apply elem_of_cons in Hx as [->|Hx]; [exact I3|]. eapply less_le_less; [exact W|exact I3|].
        specialize (Su2 W). apply StronglySorted_inv in Su2 as [_ Su2]. rewrite List.Forall_forall in Su2. apply elem_of_list_In in Hx. exact (Su2 x Hx). }
      split; intros W; [exact (proj1 (insert_place u1 u2 y Su (C2 W) C1) W)|exact (proj2 (insert_place u1 u2 y Su (C2 W) C1) W)].
    + set (mid := ((a + b) / 2)%nat). set (n := (mid + m)%nat).
      assert (Mid : (2 * mid <= a + b < 2 * mid + 2)%nat).
      { unfold mid. pose proof (Nat.div_mod_eq (a + b) 2). pose proof (Nat.mod_upper_bound (a + b) 2 ltac:(lia)). lia. }
      clearbody mid.
      assert (Lo : exists lo hi, (if mid <? m then (n - b, mid) else (a, m))%nat = (lo, hi) /\ (lo <= hi)%nat /\ (a <= lo)%nat /\ (hi <= m)%nat /\ (hi <= mid)%nat /\
        (n - lo <= b)%nat /\ (m <= n - hi)%nat /\ (hi = mid \/ hi = m) /\ (n - lo = b \/ lo = a)%nat).
      { destruct (Nat.ltb_spec mid m); [exists (n - b)%nat, mid|exists a, m]; unfold n; split_and!; try reflexivity; try lia. }
      destruct Lo as (lo & hi & -> & L1 & L2 & L3 & L4 & L5 & L6 & L7 & L8).
      apply wp_bind. eapply wp_mono.
      { apply (bsearch_spec _ (fun c => match v !! (n - 1 - c - m)%nat, u !! (c - a)%nat with Some y, Some x => negb (less y x) | _, _ => false end) lo hi); [|lia|lia|rewrite Ls; lia].
        intros c Hc. destruct (lookup_lt_is_Some_2 u (c - a)) as [x X]; [lia|]. destruct (lookup_lt_is_Some_2 v (n - 1 - c - m)) as [y Y]; [unfold n in *; lia|].
        rewrite X, Y. rewrite (sless_spec _ _ _ y x); [reflexivity| |].
        - replace (n - 1 - c)%nat with (m + (n - 1 - c - m))%nat by lia. apply Lv. exact Y.
        - replace c with (a + (c - a))%nat by lia. apply Lu. exact X. }
      intros start (I1 & I2 & I3). cbn zeta.
      destruct (split_at u (start - a)) as (u1 & u2 & -> & Lu1); [lia|]. destruct (split_at v (mid - start)) as (v1 & v2 & -> & Lv1); [unfold n in *; lia|].
      rewrite !app_length in *.
      assert (F1 : start = (a + length u1)%nat) by (clear -Lu1 I1 L2; lia).
      assert (F2 : mid = (start + length v1)%nat) by (clear -Lv1 I1 L4; lia).
      assert (F3 : m = (start + length u2)%nat) by (clear -F1 Em; lia).
      assert (F4 : (n - start = m + length v1)%nat) by (unfold n; clear -F2 F3; lia).
      assert (F5 : b = (n - start + length v2)%nat) by (clear -F4 Eb; lia).
      assert (I2' : (1 <= length u1)%nat -> (1 <= length v2)%nat -> match (v1 ++ v2) !! (length v1)%nat, (u1 ++ u2) !! (length u1 - 1)%nat with Some y, Some x => negb (less y x) | _, _ => false end = true).
      { intros G1 G2. specialize (I2 ltac:(clear -L8 F1 F5 G1 G2; lia)). replace (n - 1 - (start - 1) - m)%nat with (length v1) in I2 by (clear -F4 F1 G1; lia).
        replace (start - 1 - a)%nat with (length u1 - 1)%nat in I2 by (clear -F1; lia). exact I2. }
      assert (I3' : (1 <= length v1)%nat -> (1 <= length u2)%nat -> match (v1 ++ v2) !! (length v1 - 1)%nat, (u1 ++ u2) !! (length u1)%nat with Some y, Some x => negb (less y x) | _, _ => false end = false).
      { intros G1 G2. specialize (I3 ltac:(clear -L7 F2 F3 G1 G2 I1; lia)). replace (n - 1 - start - m)%nat with (length v1 - 1)%nat in I3 by (clear -F4; lia).
        replace (start - a)%nat with (length u1)%nat in I3 by (clear -F1; lia). exact I3. }
      assert (F6 : (2 <= m - a)%nat) by (clear -E1 Hu Em; lia). assert (F7 : (2 <= b - m)%nat) by (clear -E2 Hv Eb; lia).
      assert (F8 : (mid - a <= b - a - 2 /\ b - mid <= b - a - 2)%nat) by (clear -Mid F6 F7; lia).
      clear I2 I3 L1 L2 L3 L4 L5 L6 L7 L8 I1 Lu1 Lv1 Lu Lv Ls Em Eb Mid E1 E2 lo hi Hu Hv. revert F4 F5. generalize (n - start)%nat as en. intros en F4 F5. clear n.
      assert (Rot : (if (start <? m) && (m <? en) then rotate s start m en else Ret s) = Ret (l ++ u1 ++ v1 ++ u2 ++ v2 ++ r)).
      { unfold s. destruct (Nat.ltb_spec start m) as [A1|A1]; cbn [andb].
        - destruct (Nat.ltb_spec m en) as [A2|A2].
          + replace (l ++ (u1 ++ u2) ++ (v1 ++ v2) ++ r) with ((l ++ u1) ++ u2 ++ v1 ++ (v2 ++ r)) by (rewrite <- !app_assoc; reflexivity).
            rewrite rotate_spec; [rewrite <- !app_assoc; reflexivity|rewrite app_length; lia|lia|lia|lia|lia].
          + destruct v1; [|cbn [length] in *; lia]. rewrite <- !app_assoc. reflexivity.
        - destruct u2; [|cbn [length] in *; lia]. rewrite app_nil_r, <- !app_assoc. reflexivity. }
      rewrite Rot. cbn [rbind].
      assert (H1 : wp (if (a <? start) && (start <? mid) then sym_merge less fuel (l ++ u1 ++ v1 ++ u2 ++ v2 ++ r) a start mid else Ret (l ++ u1 ++ v1 ++ u2 ++ v2 ++ r))
                 (fun s' => exists w1, s' = l ++ w1 ++ u2 ++ v2 ++ r /\ merged u1 v1 w1)).
      { destruct (Nat.ltb_spec a start) as [A1|A1]; cbn [andb].
        - destruct (Nat.ltb_spec start mid) as [A2|A2].
          + apply IH; lia.
          + destruct v1; [|cbn [length] in *; lia]. apply wp_ret. exists u1. split; [reflexivity|apply merged_nil_r].
        - destruct u1; [|cbn [length] in *; lia]. apply wp_ret. exists v1. split; [reflexivity|apply merged_nil_l]. }
      apply wp_bind. eapply wp_mono; [exact H1|]. intros s1 (w1 & -> & M1). clear H1.
      pose proof (Permutation_length (proj1 M1)) as Lw1. rewrite app_length in Lw1.
      assert (H2 : wp (if (mid <? en) && (en <? b) then sym_merge less fuel (l ++ w1 ++ u2 ++ v2 ++ r) mid en b else Ret (l ++ w1 ++ u2 ++ v2 ++ r))
                 (fun s' => exists w2, s' = l ++ w1 ++ w2 ++ r /\ merged u2 v2 w2)).
      { destruct (Nat.ltb_spec mid en) as [A1|A1]; cbn [andb].
        - destruct (Nat.ltb_spec en b) as [A2|A2].
          + rewrite (app_assoc l w1). eapply wp_mono; [apply IH; try lia; rewrite app_length; lia|]. intros s' (w2 & -> & M2). exists w2. rewrite <- app_assoc. split; [reflexivity|exact M2].
          + destruct v2; [|cbn [length] in *; lia]. apply wp_ret. exists u2. split; [reflexivity|apply merged_nil_r].
        - destruct u2; [|cbn [length] in *; lia]. apply wp_ret. exists v2. split; [reflexivity|apply merged_nil_l]. }
      eapply wp_mono; [exact H2|]. intros s2 (w2 & -> & M2). exists (w1 ++ w2). split; [rewrite <- app_assoc; reflexivity|].
      apply merge_halves; [exact M1|exact M2| |].
      * intros x y Hx Hy. pose proof (last_lookup_app v1 v2 x Hx) as Kx. pose proof (head_lookup_app u1 u2 y Hy) as Ky.
        rewrite last_lookup in Hx. apply lookup_lt_Some in Hx. destruct u2 as [|z u2]; [discriminate|].
        specialize (I3' ltac:(clear -Hx; lia) ltac:(cbn; lia)). rewrite Kx, Ky in I3'. apply negb_false_iff in I3'. exact I3'.
      * intros x y Hx Hy. pose proof (last_lookup_app u1 u2 x Hx) as Kx. pose proof (head_lookup_app v1 v2 y Hy) as Ky.
        rewrite last_lookup in Hx. apply lookup_lt_Some in Hx. destruct v2 as [|z v2]; [discriminate|].
        specialize (I2' ltac:(clear -Hx; lia) ltac:(cbn; lia)). rewrite Kx, Ky in I2'. apply negb_true_iff in I2'. exact I2'.
Qed.

(** *** rounds of merges *)
Inductive chunks (size : nat) : list A -> Prop :=
| ch_last u : (length u <= size)%nat -> srt u -> chunks size u
| ch_cons u s : length u = size -> srt u -> chunks size s -> chunks size (u ++ s).
Lemma chunks_split size s : chunks size s -> (size <= length s)%nat -> exists u s', s = u ++ s' /\ length u = size /\ srt u /\ chunks size s'.
Proof.
  intros C L. inversion C as [u Hu Su|u s' Hu Su Hs]; subst.
  - exists s, []. rewrite app_nil_r. split_and!; [reflexivity|lia|exact Su|]. apply ch_last; [cbn; lia|apply srt_nil].
  - exists u, s'. split_and!; [reflexivity|reflexivity|exact Su|exact Hs].
Qed.
Lemma chunks_one size s : chunks size s -> (length s <= size)%nat -> srt s.
Proof.
  intros C L. inversion C as [u Hu Su|u s' Hu Su Hs]; subst; [exact Su|]. rewrite app_length in L. destruct s'; [rewrite app_nil_r; exact Su|cbn in L; lia].
Qed.
Lemma stable_blocks_spec : forall fuel s l a n, a = length l -> n = (a + length s)%nat -> (length s < fuel)%nat ->
  wp (stable_blocks less fuel (l ++ s) a n) (fun s' => exists w, s' = l ++ w /\ w ≡ₚ s /\ chunks 20 w /\ stb s w).
Proof.
  induction fuel as [|fuel IH]; intros s l a n Ea En Hf; [lia|]. cbn [stable_blocks]. destruct (Nat.leb_spec (a + 20) n) as [L|L].
  - destruct (split_at s 20) as (u & t & -> & Lu); [lia|]. rewrite app_length in *. apply wp_bind.
    eapply wp_mono; [apply insertion_spec; lia|]. intros s' (w & -> & P & S & T). pose proof (Permutation_length P) as Lw.
    rewrite app_assoc. eapply wp_mono; [apply IH; rewrite ?app_length; lia|]. intros s' (w' & -> & P' & C' & T').
    exists (w ++ w'). split_and!; [rewrite app_assoc; reflexivity|rewrite P, P'; reflexivity| |].
    + apply ch_cons; [lia|exact S|exact C'].
    + apply stb_app; assumption.
  - rewrite <- (app_nil_r s) at 1. eapply wp_mono; [apply insertion_spec; lia|]. intros s' (w & -> & P & S & T). exists w.
    rewrite app_nil_r. split_and!; [reflexivity|exact P| |exact T]. apply ch_last; [|exact S]. rewrite (Permutation_length P). lia.
Qed.
Lemma merge_round_spec size : (1 <= size)%nat -> forall fuel s l a n, a = length l -> n = (a + length s)%nat -> (length s < fuel)%nat -> chunks size s ->
  wp (merge_round less fuel (l ++ s) a size n) (fun s' => exists w, s' = l ++ w /\ w ≡ₚ s /\ chunks (2 * size) w /\ stb s w).
Proof.
  intros Hs. induction fuel as [|fuel IH]; intros s l a n Ea En Hf C; [lia|]. cbn [merge_round].
  destruct (Nat.leb_spec (a + 2 * size) n) as [L|L].
  - destruct (chunks_split _ _ C) as (u & s1 & -> & Lu & Su & C1); [lia|]. rewrite app_length in *.
    destruct (chunks_split _ _ C1) as (v & t & -> & Lv & Sv & C2); [lia|]. rewrite app_length in *. apply wp_bind.
    rewrite <- (app_assoc u v t) || idtac.
    eapply wp_mono; [apply sym_merge_spec; rewrite ?app_length; lia|]. intros s' (w & -> & P & M). destruct (M Su Sv) as [Sw Tw].
    pose proof (Permutation_length P) as Lw. rewrite app_length in Lw.
    rewrite app_assoc. eapply wp_mono; [apply IH; rewrite ?app_length; try lia; exact C2|]. intros s' (w' & -> & P' & C' & T').
    exists (w ++ w'). split_and!; [rewrite app_assoc; reflexivity|rewrite P, P', app_assoc; reflexivity| |].
    + apply ch_cons; [lia|exact Sw|exact C'].
    + rewrite app_assoc. apply stb_app; assumption.
  - destruct (Nat.ltb_spec (a + size) n) as [L'|L'].
    + destruct (chunks_split _ _ C) as (u & v & -> & Lu & Su & C1); [lia|]. rewrite app_length in *.
      assert (Sv : srt v) by (apply (chunks_one size); [exact C1|lia]).
      pose proof (sym_merge_spec (S (length l + (length u + length v))) u v l [] a (a + size) n ltac:(lia) ltac:(lia) ltac:(lia) ltac:(lia) ltac:(lia) ltac:(lia)) as Q.
      rewrite (app_nil_r v) in Q. rewrite ?app_length. eapply wp_mono; [exact Q|]. intros s' (w & -> & P & M).
      destruct (M Su Sv) as [Sw Tw]. exists w. rewrite app_nil_r. split_and!; [reflexivity|exact P| |exact Tw].
      apply ch_last; [|exact Sw]. rewrite (Permutation_length P), app_length. lia.
    + apply wp_ret. exists s. split_and!; [reflexivity|reflexivity| |apply stb_refl]. apply ch_last; [lia|]. apply (chunks_one size); [exact C|lia].
Qed.
Lemma merge_rounds_spec : forall fuel s size n, n = length s -> (1 <= size)%nat -> (n - size < fuel)%nat -> chunks size s ->
  wp (merge_rounds less fuel s size n) (fun w => w ≡ₚ s /\ srt w /\ stb s w).
Proof.
  induction fuel as [|fuel IH]; intros s size n En Hs Hf C; [lia|]. cbn [merge_rounds]. destruct (Nat.ltb_spec size n) as [L|L].
  - apply wp_bind. eapply wp_mono; [apply (merge_round_spec size Hs (S n) s []); [reflexivity|cbn; lia|lia|exact C]|].
    intros s' (w & -> & P & C' & T). cbn [app]. eapply wp_mono; [apply IH; [rewrite (Permutation_length P); exact En|lia|lia|exact C']|].
    intros w' (P' & S' & T'). split_and!; [rewrite P'; exact P|exact S'|exact (stb_trans _ _ _ T T')].
  - apply wp_ret. split_and!; [reflexivity| |apply stb_refl]. apply (chunks_one size); [exact C|lia].
Qed.
Lemma sort_stable_func_spec s : wp (sort_stable_func less s) (fun w => w ≡ₚ s /\ srt w /\ stb s w).
Proof.
  unfold sort_stable_func. apply wp_bind. eapply wp_mono; [apply (stable_blocks_spec (S (length s)) s []); [reflexivity|reflexivity|lia]|].
  intros s' (w & -> & P & C & T). cbn [app]. eapply wp_mono; [apply merge_rounds_spec; [rewrite (Permutation_length P); reflexivity|lia|lia|exact C]|].
  intros w' (P' & S' & T'). split_and!; [rewrite P'; exact P|exact S'|exact (stb_trans _ _ _ T T')].
Qed.
End proofs.
