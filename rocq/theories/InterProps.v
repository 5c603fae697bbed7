(** Properties of timex/intersectionx (C55-C57), for every order in which
    sort.Sort may leave tuples with equal offsets. *)
From Coq Require Import Sorting.Sorted.
From Verif Require Import Base InterSpec InterModel InterProofs.
Local Open Scope Z.

(** C55 *)
Theorem intersection_sound l a b : (2 <= length l)%nat -> Forall fits l -> inter l (a, b, true) ->
  let m := Z.of_nat (length l) in
  a <= b /\ exists f, 0 <= f < m / 2 /\ 1 <= m - 2 * f /\
    m - f <= count (fun i => covers i a) l /\ m - f <= count (fun i => covers i b) l /\
    m - 2 * f <= count (fun i => (lo i <=? a) && (b <=? hi i)) l /\
    count (fun i => (iv_off i <? a) || (b <? iv_off i)) l <= f.
Proof.
  intros Hl Hf Hi m. rewrite Forall_forall in Hf. inversion Hi as [i E|s Hn Hsort E]; subst; [cbn in Hl; lia|].
  destruct Hsort as [P Hs]. unfold intersection in E.
  assert (Em : Z.of_nat (length s) / 3 = m).
  { rewrite P, len_tuples. rewrite Z.mul_comm. apply Z.div_mul. lia. }
  rewrite Em in E. pose proof (typed_tuples l s P) as T.
  assert (Cm : count is_mid s = m).
  { rewrite (count_perm _ _ _ P), count_tuples. unfold is_mid. cbn.
    rewrite !count_false. rewrite (count_all (fun _ => true)) by reflexivity. lia. }
  assert (Hm2 : 0 <= m / 2) by (apply Z.div_pos; lia).
  destruct (loop_sound (Z.to_nat (m / 2)) s m 0 0 0 a b T Hs Cm ltac:(lia) ltac:(lia) E) as (f & Hfr & Hab & H1 & H2 & H3).
  split; [exact Hab|]. exists f. pose proof (Z.div_mod m 2 ltac:(lia)). pose proof (Z.mod_pos_bound m 2 ltac:(lia)).
  rewrite !(count_perm _ _ _ P), !count_tuples in H1. rewrite !(count_perm _ _ _ P), !count_tuples in H2. rewrite !(count_perm _ _ _ P), !count_tuples in H3. unfold is_start, is_mid, is_end in *. cbn in H1, H2, H3. rewrite !count_false in H1. rewrite !count_false in H2. rewrite !count_false in H3.
  assert (Ra : m - f <= count (fun i => covers i a) l).
  { etransitivity; [|apply (count_diff (fun i => i64 (iv_off i - iv_band i) <=? a) (fun i => i64 (iv_off i + iv_band i) <? a))]; [lia|].
    intros i Hi'. specialize (Hf i Hi'). rewrite fits_lo, fits_hi by exact Hf. unfold covers. intros -> Hlt. apply Z.ltb_ge in Hlt. cbn. apply Z.leb_le. lia. }
  assert (Rb : m - f <= count (fun i => covers i b) l).
  { etransitivity; [|apply (count_diff (fun i => b <=? i64 (iv_off i + iv_band i)) (fun i => b <? i64 (iv_off i - iv_band i)))]; [lia|].
    intros i Hi'. specialize (Hf i Hi'). rewrite fits_lo, fits_hi by exact Hf. unfold covers. intros -> Hlt. apply Z.ltb_ge in Hlt. rewrite andb_true_r. apply Z.leb_le. lia. }
  repeat split; try lia; try assumption.
  etransitivity; [|apply (count_and (fun i => covers i a) (fun i => covers i b))]; [fold m; lia|].
  intros i _. unfold covers. rewrite !andb_true_iff. tauto.
Qed.
Print Assumptions intersection_sound.
Theorem intersection_one i r : fits i -> inter [i] r -> r = (lo i, hi i, true).
Proof.
  intros Hf H. inversion H as [j E|s Hn _ E]; subst; [|cbn in Hn; congruence]. injection E as <-. rewrite fits_lo, fits_hi by exact Hf. reflexivity.
Qed.
Print Assumptions intersection_one.
(** no interval: not ok *)
Theorem intersection_none r : inter [] r -> r = (0, 0, false).
Proof.
  intros H. inversion H as [j E|s Hn [P _] E]; [discriminate|]. cbn in P. apply Permutation_nil_r in P. subst s. reflexivity.
Qed.
Print Assumptions intersection_none.

(** C56 *)
Lemma starts_first s : StronglySorted tle s -> (forall y z, y ∈ s -> z ∈ s -> is_start y = false -> is_start z = true -> z.1 < y.1) ->
  exists A B, s = A ++ B /\ (forall x, x ∈ A -> is_start x = true) /\ (forall x, x ∈ B -> is_start x = false).
Proof.
  intros Hs. induction Hs as [|y s Hs IH Hf]; intros H.
  - exists [], []. split; [reflexivity|]. split; intros x Hx; inversion Hx.
  - destruct (is_start y) eqn:Ey.
    + destruct IH as (A & B & -> & HA & HB); [intros u v Hu Hv; apply H; right; assumption|].
      exists (y :: A), B. split; [reflexivity|]. split; [|exact HB]. intros x Hx. apply elem_of_cons in Hx as [->|Hx]; auto.
    + exists [], (y :: s). split; [reflexivity|]. split; [intros x Hx; inversion Hx|]. intros x Hx. apply elem_of_cons in Hx as [->|Hx]; [exact Ey|].
      destruct (is_start x) eqn:Ex; [|reflexivity]. exfalso. rewrite Forall_forall in Hf. specialize (Hf x Hx). specialize (H y x ltac:(left) ltac:(right; exact Hx) Ey Ex). unfold tle in Hf. lia.
Qed.
Lemma ends_last s : StronglySorted tle s -> (forall y z, y ∈ s -> z ∈ s -> is_end y = false -> is_end z = true -> y.1 < z.1) ->
  exists A B, s = A ++ B /\ (forall x, x ∈ A -> is_end x = false) /\ (forall x, x ∈ B -> is_end x = true).
Proof.
  intros Hs. induction Hs as [|y s Hs IH Hf]; intros H.
  - exists [], []. split; [reflexivity|]. split; intros x Hx; inversion Hx.
  - destruct (is_end y) eqn:Ey.
    + exists [], (y :: s). split; [reflexivity|]. split; [intros x Hx; inversion Hx|]. intros x Hx. apply elem_of_cons in Hx as [->|Hx]; [exact Ey|].
      destruct (is_end x) eqn:Ex; [reflexivity|]. exfalso. rewrite Forall_forall in Hf. specialize (Hf x Hx). specialize (H x y ltac:(right; exact Hx) ltac:(left) Ex Ey). unfold tle in Hf. lia.
    + destruct IH as (A & B & -> & HA & HB); [intros u v Hu Hv; apply H; right; assumption|].
      exists (y :: A), B. split; [reflexivity|]. split; [|exact HB]. intros x Hx. apply elem_of_cons in Hx as [->|Hx]; auto.
Qed.
Lemma scan_starts A x R en mid low : (forall y, y ∈ A ++ [x] -> is_start y = true) ->
  scan_lower (en + Z.of_nat (length (A ++ [x]))) ((A ++ [x]) ++ R) en mid low = (x.1, mid).
Proof.
  revert en. induction A as [|[o ty] A IH]; intros en H.
  - destruct x as [o ty]. cbn [app length scan_lower]. specialize (H (o, ty) ltac:(left)). unfold is_start in H. apply Z.eqb_eq in H. cbn in H. subst ty.
    destruct (Z.leb_spec (en + Z.of_nat 1) (en - -1)); [reflexivity|lia].
  - cbn [app length scan_lower]. pose proof (H (o, ty) ltac:(left)) as E. unfold is_start in E. apply Z.eqb_eq in E. cbn in E. subst ty.
    rewrite app_length. cbn [length]. destruct (Z.leb_spec (en + Z.of_nat (S (length A + 1))) (en - -1)); [lia|].
    change (-1 =? 0) with false. cbv iota. specialize (IH (en - -1) ltac:(intros y Hy; apply H; right; exact Hy)).
    rewrite app_length in IH. cbn [length] in IH. replace (en + Z.of_nat (S (length A + 1))) with (en - -1 + Z.of_nat (length A + 1)) by lia. exact IH.
Qed.
Lemma scan_ends A x R en mid up : (forall y, y ∈ A ++ [x] -> is_end y = true) ->
  scan_upper (en + Z.of_nat (length (A ++ [x]))) ((A ++ [x]) ++ R) en mid up = (x.1, mid).
Proof.
  intros H. rewrite scan_upper_flip, !map_app. cbn [map].
  pose proof (scan_starts (map InterProofs.flip A) (InterProofs.flip x) (map InterProofs.flip R) en mid up) as G.
  rewrite !app_length, map_length in *. cbn [length] in *. apply G. intros y Hy.
  assert (Hy' : y ∈ map InterProofs.flip (A ++ [x])) by (rewrite map_app; exact Hy). apply elem_of_list_fmap in Hy' as (z & -> & Hz).
  specialize (H z Hz). unfold is_end in H. apply Z.eqb_eq in H. unfold is_start. cbn. rewrite H. reflexivity.
Qed.
Theorem intersection_full l r : (2 <= length l)%nat -> Forall fits l ->
  (forall i j, i ∈ l -> j ∈ l -> lo i < iv_off j < hi i) -> inter l r ->
  exists a b, r = (a, b, true) /\ (exists i, i ∈ l /\ a = lo i) /\ (exists i, i ∈ l /\ b = hi i) /\
    forall x, a <= x <= b <-> forall i, i ∈ l -> lo i <= x <= hi i.
Proof.
  intros Hl Hf Hin Hi. rewrite Forall_forall in Hf. inversion Hi as [i E|s Hn Hsort E]; subst; [cbn in Hl; lia|]. clear Hi Hn.
  destruct Hsort as [P Hs]. pose proof (typed_tuples l s P) as T.
  assert (El : forall x, x ∈ s -> exists i, i ∈ l /\ (x = (lo i, -1) \/ x = (iv_off i, 0) \/ x = (hi i, 1))).
  { intros x Hx. rewrite P in Hx. apply elem_of_list_In, in_concat in Hx as (t & Ht & Hx). apply in_map_iff in Ht as (i & <- & Hil). apply elem_of_list_In in Hil.
    exists i. split; [exact Hil|]. specialize (Hf i Hil). rewrite <- (fits_lo i Hf), <- (fits_hi i Hf). destruct Hx as [<-|[<-|[<-|[]]]]; auto. }
  assert (Er : forall i, i ∈ l -> (lo i, -1) ∈ s /\ (hi i, 1) ∈ s).
  { intros i Hil. rewrite P. specialize (Hf i Hil). rewrite <- (fits_lo i Hf), <- (fits_hi i Hf).
    split; apply elem_of_list_In, in_concat; exists (tuples i); (split; [apply in_map, elem_of_list_In, Hil|cbn; auto]). }
  assert (Em : Z.of_nat (length s) / 3 = Z.of_nat (length l)).
  { rewrite P, len_tuples. rewrite Z.mul_comm. apply Z.div_mul. lia. }
  assert (Cs : count is_start s = Z.of_nat (length l)).
  { rewrite (count_perm _ _ _ P), count_tuples. unfold is_start. cbn. rewrite !count_false. rewrite (count_all (fun _ => true)) by reflexivity. lia. }
  assert (Ce : count is_end s = Z.of_nat (length l)).
  { rewrite (count_perm _ _ _ P), count_tuples. unfold is_end. cbn. rewrite !count_false. rewrite (count_all (fun _ => true)) by reflexivity. lia. }
  assert (Hlh : forall i j, i ∈ l -> j ∈ l -> lo i < hi j) by (intros i j H1 H2; pose proof (Hin i i H1 H1); pose proof (Hin j i H2 H1); lia).
  (* the starts come first *)
  destruct (starts_first s Hs) as (A & B & Es & HA & HB).
  { intros y z Hy Hz Ey Ez. destruct (El y Hy) as (i & Hil & [->|[->| ->]]), (El z Hz) as (j & Hjl & [->|[->| ->]]); try discriminate; cbn; [apply Hin; assumption|apply Hlh; assumption]. }
  assert (LA : Z.of_nat (length A) = Z.of_nat (length l)).
  { rewrite <- Cs, Es, count_app, (count_all _ A HA), (count_none _ B HB). lia. }
  destruct (ends_last s Hs) as (C & D & Es2 & HC & HD).
  { intros y z Hy Hz Ey Ez. destruct (El y Hy) as (i & Hil & [->|[->| ->]]), (El z Hz) as (j & Hjl & [->|[->| ->]]); try discriminate; cbn; [apply Hlh; assumption|apply Hin; assumption]. }
  assert (LD : Z.of_nat (length D) = Z.of_nat (length l)).
  { rewrite <- Ce, Es2, count_app, (count_all _ D HD), (count_none _ C HC). lia. }
  destruct A as [|x A' _] using rev_ind; [cbn in LA; lia|].
  destruct D as [|y D]; [cbn in LD; lia|].
  assert (Hxs : x ∈ s) by (rewrite Es; apply elem_of_app; left; apply elem_of_app; right; left).
  assert (Hys : y ∈ s) by (rewrite Es2; apply elem_of_app; right; left).
  pose proof (HA x ltac:(apply elem_of_app; right; left)) as Hx. pose proof (HD y ltac:(left)) as Hy.
  assert (Xl : exists i, i ∈ l /\ x = (lo i, -1)) by (destruct (El x Hxs) as (i & Hil & [->|[->| ->]]); try discriminate; eauto).
  assert (Yl : exists i, i ∈ l /\ y = (hi i, 1)) by (destruct (El y Hys) as (i & Hil & [->|[->| ->]]); try discriminate; eauto).
  destruct Xl as (i & Hil & Ex), Yl as (j & Hjl & Ey).
  (* the first round succeeds *)
  assert (R : intersection s = (x.1, y.1, true)).
  { unfold intersection. rewrite Em. assert (1 <= Z.of_nat (length l) / 2) by (apply Z.div_le_lower_bound; lia).
    destruct (Z.to_nat (Z.of_nat (length l) / 2)) as [|n] eqn:En; [lia|]. cbn [inter_loop]. rewrite Z.sub_0_r.
    rewrite Es at 1. rewrite <- LA at 1. rewrite <- (Z.add_0_l (Z.of_nat (length (A' ++ [x])))). rewrite (scan_starts A' x B 0 0 0 HA).
    rewrite Es2 at 1. rewrite reverse_app, reverse_cons.
    rewrite <- LD at 1. replace (Z.of_nat (length (y :: D))) with (0 + Z.of_nat (length (reverse D ++ [y]))) by (rewrite app_length, reverse_length; cbn [length]; lia).
    rewrite (scan_ends (reverse D) y (reverse C) 0 0 0).
    2:{ intros z Hz. apply HD. apply elem_of_app in Hz as [Hz|Hz]; [right; rewrite elem_of_reverse in Hz; exact Hz|]. apply elem_of_list_singleton in Hz as ->. left. }
    pose proof (Hlh i j Hil Hjl). rewrite Ex, Ey. cbn [fst]. destruct (Z.leb_spec (lo i) (hi j)); [reflexivity|lia]. }
  assert (Mx : forall k, k ∈ l -> lo k <= x.1).
  { intros k Hk. destruct (Er k Hk) as [Hks _]. rewrite Es in Hks. rewrite elem_of_app in Hks. destruct Hks as [Hks|Hks]; [|specialize (HB _ Hks); discriminate].
    apply elem_of_app in Hks as [Hks|Hks]; [|apply elem_of_list_singleton in Hks; rewrite <- Hks; reflexivity].
    destruct (sorted_split s A' x B Hs) as [S1 _]; [rewrite Es, <- app_assoc; reflexivity|]. exact (S1 _ Hks). }
  assert (My : forall k, k ∈ l -> y.1 <= hi k).
  { intros k Hk. destruct (Er k Hk) as [_ Hks]. rewrite Es2 in Hks. rewrite elem_of_app in Hks. destruct Hks as [Hks|Hks]; [specialize (HC _ Hks); discriminate|].
    apply elem_of_cons in Hks as [Hks|Hks]; [rewrite <- Hks; reflexivity|].
    destruct (sorted_split s C y D Hs Es2) as [_ S2]. exact (S2 _ Hks). }
  exists x.1, y.1. split; [exact R|]. split; [exists i; rewrite Ex; auto|]. split; [exists j; rewrite Ey; auto|].
  intros z. split.
  - intros Hz k Hk. specialize (Mx k Hk). specialize (My k Hk). lia.
  - intros H. pose proof (H i Hil). pose proof (H j Hjl). rewrite Ex, Ey. cbn [fst]. lia.
Qed.
Print Assumptions intersection_full.
(** the hypotheses can be met, and the sort has a result *)
Lemma insert_perm x l : insert_tuple x l ≡ₚ x :: l.
Proof. induction l as [|y l IH]; cbn; [reflexivity|]. destruct (x.1 <? y.1); [reflexivity|]. rewrite IH. apply Permutation_swap. Qed.
Lemma insert_sorted x l : StronglySorted tle l -> StronglySorted tle (insert_tuple x l).
Proof.
  induction 1 as [|y l Hs IH Hf]; cbn; [repeat constructor|]. rewrite Forall_forall in Hf.
  destruct (Z.ltb_spec x.1 y.1).
  - constructor; [constructor; [exact Hs|apply Forall_forall; exact Hf]|]. apply Forall_forall. intros z Hz. apply elem_of_cons in Hz as [->|Hz]; unfold tle; [lia|]. specialize (Hf z Hz). unfold tle in Hf. lia.
  - constructor; [exact IH|]. apply Forall_forall. intros z Hz. rewrite insert_perm in Hz. apply elem_of_cons in Hz as [->|Hz]; [unfold tle; lia|apply Hf, Hz].
Qed.
Theorem insertion_sort_sorts l : sorts l (insertion_sort l).
Proof.
  unfold insertion_sort. assert (G : forall acc, StronglySorted tle acc -> foldl (fun acc x => insert_tuple x acc) acc l ≡ₚ acc ++ l /\ StronglySorted tle (foldl (fun acc x => insert_tuple x acc) acc l)).
  { induction l as [|x l IH]; intros acc Ha; cbn; [rewrite app_nil_r; auto|].
    destruct (IH (insert_tuple x acc) (insert_sorted x acc Ha)) as [P S]. split; [|exact S]. rewrite P, insert_perm. cbn. apply Permutation_middle. }
  destruct (G [] ltac:(constructor)) as [P S]. split; assumption.
Qed.
Print Assumptions insertion_sort_sorts.
(** Intersection with the small-slice sort of package sort *)
Definition inter_small (l : list interval) : Z * Z * bool :=
  match l with
  | [i] => (i64 (iv_off i - iv_band i), i64 (iv_off i + iv_band i), true)
  | _ => intersection (insertion_sort (concat (map tuples l)))
  end.
Theorem inter_small_inter l : inter l (inter_small l).
Proof. destruct l as [|i [|j l]]; [constructor 2; [discriminate|apply insertion_sort_sorts]|constructor; reflexivity|constructor 2; [discriminate|apply insertion_sort_sorts]]. Qed.
Print Assumptions inter_small_inter.
(** the three intervals of the package's own test, where the midpoints are inside, and
    a liar among four *)
Example intersection_ex :
  inter_small [IV 5 10; IV 2 5; IV 3 6] = (-3, 7, true) /\
  inter_small [IV 0 10; IV 1 10; IV 2 10; IV 100 1] = (-8, 10, true) /\
  inter_small [IV 0 1; IV 5 1] = (0, 0, false).
Proof. vm_compute. repeat split; reflexivity. Qed.
Example intersection_full_ex : forall i j, i ∈ [IV 5 10; IV 2 5; IV 3 6] -> j ∈ [IV 5 10; IV 2 5; IV 3 6] -> lo i < iv_off j < hi i.
Proof. intros i j Hi Hj. rewrite !elem_of_cons, elem_of_nil in Hi, Hj. destruct Hi as [->|[->|[->|[]]]], Hj as [->|[->|[->|[]]]]; unfold lo, hi; cbn; lia. Qed.
(** "interior" is needed: two equal intervals without width do not agree *)
Theorem intersection_touching_refuted : inter [IV 5 0; IV 5 0] (0, 0, false).
Proof. exact (inter_small_inter [IV 5 0; IV 5 0]). Qed.
Print Assumptions intersection_touching_refuted.

(** C57: false, because of midpoints that coincide with an end *)
Theorem intersection_order_refuted :
  ~ (forall l l' a b, l ≡ₚ l' -> inter l (a, b, true) -> forall r, inter l' r -> r = (a, b, true)).
Proof.
  intros H. specialize (H [IV 10 5; IV 5 5] [IV 5 5; IV 10 5] 5 10 (Permutation_swap _ _ _) (inter_small_inter [IV 10 5; IV 5 5]) _ (inter_small_inter [IV 5 5; IV 10 5])).
  vm_compute in H. discriminate.
Qed.
Print Assumptions intersection_order_refuted.
(** true if tuples of different types never coincide *)
Theorem intersection_order_partial l l' r r' : l ≡ₚ l' ->
  (forall x y, x ∈ concat (map tuples l) -> y ∈ concat (map tuples l) -> x.1 = y.1 -> x = y) ->
  inter l r -> inter l' r' -> r = r'.
Proof.
  intros P D H H'. pose proof (Permutation_length P) as L.
  inversion H as [i E|s Hn [Ps Ss] E]; inversion H' as [i' E'|s' Hn' [Ps' Ss'] E']; subst.
  - apply Permutation_singleton_inj in P. subst. reflexivity.
  - cbn in L. congruence.
  - cbn in L. congruence.
  - assert (PP : concat (map tuples l') ≡ₚ concat (map tuples l)).
    { rewrite <- !flat_map_concat_map. symmetry. apply Permutation_flat_map, P. }
    f_equal. clear -Ps Ss Ps' Ss' D PP.
    assert (PS : s ≡ₚ s') by (rewrite Ps, Ps'; symmetry; exact PP).
    assert (D' : forall x y, x ∈ s -> y ∈ s -> x.1 = y.1 -> x = y) by (intros x y; rewrite Ps; apply D).
    clear Ps Ps' D PP. revert s' Ss' PS. induction Ss as [|x s Ss IH Hf]; intros s' Ss' PS.
    + apply Permutation_nil_l in PS. congruence.
    + destruct Ss' as [|x' s' Ss' Hf']; [apply Permutation_nil_r in PS; discriminate|]. rewrite Forall_forall in Hf, Hf'.
      assert (Hx' : x' ∈ x :: s) by (rewrite PS; left). assert (Hx : x ∈ x' :: s') by (rewrite <- PS; left).
      assert (x = x') as <-.
      { apply D'; [left|exact Hx'|]. apply elem_of_cons in Hx' as [->|Hx']; [reflexivity|]. apply elem_of_cons in Hx as [->|Hx]; [reflexivity|].
        specialize (Hf _ Hx'). specialize (Hf' _ Hx). unfold tle in *. lia. }
      f_equal. apply IH; [intros y z Hy Hz; apply D'; right; assumption|exact Ss'|]. eapply Permutation_cons_inv, PS.
Qed.
Print Assumptions intersection_order_partial.
Example intersection_order_ex : inter_small [IV 5 10; IV 2 4; IV 3 6] = inter_small [IV 3 6; IV 5 10; IV 2 4].
Proof. vm_compute. reflexivity. Qed.
