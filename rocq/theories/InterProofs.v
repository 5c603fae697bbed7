From Coq Require Import Sorting.Sorted.
From Verif Require Import Base InterSpec InterModel.
Local Open Scope Z.

Section count.
  Context {A : Type}.
  Implicit Types (p q : A -> bool) (l : list A).
  Lemma count_app p l1 l2 : count p (l1 ++ l2) = count p l1 + count p l2.
  Proof. induction l1 as [|x l1 IH]; cbn; [reflexivity|]. fold (count p (l1 ++ l2)) (count p l1). lia. Qed.
  Lemma count_cons p x l : count p (x :: l) = (if p x then 1 else 0) + count p l.
  Proof. reflexivity. Qed.
  Lemma count_nonneg p l : 0 <= count p l.
  Proof. induction l as [|x l IH]; rewrite ?count_cons; [cbn; lia|]. destruct (p x); lia. Qed.
  Lemma count_perm p l1 l2 : l1 ≡ₚ l2 -> count p l1 = count p l2.
  Proof. induction 1; rewrite ?count_cons; lia. Qed.
  Lemma count_le p q l : (forall x, x ∈ l -> p x = true -> q x = true) -> count p l <= count q l.
  Proof.
    induction l as [|x l IH]; intros H; [reflexivity|]. rewrite !count_cons.
    specialize (IH ltac:(intros y Hy; apply H; right; exact Hy)). specialize (H x ltac:(left)).
    destruct (p x); [rewrite H by reflexivity; lia|]. destruct (q x); lia.
  Qed.
  Lemma count_ext p q l : (forall x, x ∈ l -> p x = q x) -> count p l = count q l.
  Proof.
    intros H. apply Z.le_antisymm; apply count_le; intros x Hx Hp; [rewrite <- H|rewrite H]; assumption.
  Qed.
  Lemma count_all p l : (forall x, x ∈ l -> p x = true) -> count p l = Z.of_nat (length l).
  Proof.
    induction l as [|x l IH]; intros H; [reflexivity|]. rewrite count_cons, (H x ltac:(left)), IH; [cbn; lia|]. intros y Hy. apply H. right. exact Hy.
  Qed.
  Lemma count_none p l : (forall x, x ∈ l -> p x = false) -> count p l = 0.
  Proof.
    induction l as [|x l IH]; intros H; [reflexivity|]. rewrite count_cons, (H x ltac:(left)), IH; [lia|]. intros y Hy. apply H. right. exact Hy.
  Qed.
  Lemma count_len p l : count p l <= Z.of_nat (length l).
  Proof. induction l as [|x l IH]; [reflexivity|]. rewrite count_cons. cbn [length]. destruct (p x); lia. Qed.
  Lemma count_diff p q r l : (forall x, x ∈ l -> p x = true -> q x = false -> r x = true) -> count p l - count q l <= count r l.
  Proof.
    induction l as [|x l IH]; intros H; [reflexivity|]. rewrite !count_cons.
    specialize (IH ltac:(intros y Hy; apply H; right; exact Hy)). specialize (H x ltac:(left)).
    destruct (p x), (q x); first [rewrite H by reflexivity; lia|destruct (r x); lia].
  Qed.
  Lemma count_and p q r l : (forall x, x ∈ l -> p x = true -> q x = true -> r x = true) ->
    count p l + count q l - Z.of_nat (length l) <= count r l.
  Proof.
    induction l as [|x l IH]; intros H; [reflexivity|]. rewrite !count_cons. cbn [length].
    specialize (IH ltac:(intros y Hy; apply H; right; exact Hy)). specialize (H x ltac:(left)).
    destruct (p x), (q x); first [rewrite H by reflexivity; lia|destruct (r x); lia].
  Qed.
  Lemma count_or_disj p q r l : (forall x, x ∈ l -> r x = true -> p x = true \/ q x = true) -> count r l <= count p l + count q l.
  Proof.
    induction l as [|x l IH]; intros H; [reflexivity|]. rewrite !count_cons.
    specialize (IH ltac:(intros y Hy; apply H; right; exact Hy)). specialize (H x ltac:(left)).
    destruct (r x); [|destruct (p x), (q x); lia]. destruct (H eq_refl) as [-> | ->]; [destruct (q x)|destruct (p x)]; lia.
  Qed.
End count.

(** *** the inner loops *)
Definition is_start (x : tuple) : bool := x.2 =? -1.
Definition is_mid (x : tuple) : bool := x.2 =? 0.
Definition is_end (x : tuple) : bool := x.2 =? 1.
Definition typed (s : list tuple) : Prop := forall x, x ∈ s -> x.2 = -1 \/ x.2 = 0 \/ x.2 = 1.
Lemma scan_lower_spec k s en mid low : typed s ->
  let '(low', mid') := scan_lower k s en mid low in
  (low' = low /\ mid' = mid + count is_mid s) \/
  (exists pre x post, s = pre ++ x :: post /\ low' = x.1 /\ mid' = mid + count is_mid pre /\
     k <= en + count is_start (pre ++ [x]) - count is_end (pre ++ [x])).
Proof.
  revert en mid. induction s as [|[o ty] s IH]; intros en mid T; cbn [scan_lower]; [left; cbn; lia|].
  assert (T' : typed s) by (intros x Hx; apply T; right; exact Hx).
  assert (Ty : - ty = (if is_start (o, ty) then 1 else 0) - (if is_end (o, ty) then 1 else 0)).
  { destruct (T (o, ty) ltac:(left)) as [E|[E|E]]; cbn in E; subst ty; reflexivity. }
  destruct (Z.leb_spec k (en - ty)) as [Hk|Hk].
  - right. exists [], (o, ty), s. cbn [app fst]. rewrite !count_cons. change (count is_mid []) with 0. change (count is_start []) with 0. change (count is_end []) with 0.
    repeat split; lia.
  - specialize (IH (en - ty) (if ty =? 0 then mid + 1 else mid) T'). destruct (scan_lower k s _ _ low) as [l' m'].
    assert (Em : (if ty =? 0 then mid + 1 else mid) = mid + (if is_mid (o, ty) then 1 else 0)).
    { unfold is_mid. cbn. destruct (ty =? 0); lia. }
    rewrite Em in IH. destruct IH as [[-> ->]|(pre & x & post & -> & -> & -> & IH)].
    + left. rewrite count_cons. lia.
    + right. exists ((o, ty) :: pre), x, post. cbn [app]. rewrite !count_cons. repeat split; lia.
Qed.
Definition flip (x : tuple) : tuple := (x.1, - x.2).
Lemma scan_upper_flip k s en mid up : scan_upper k s en mid up = scan_lower k (map flip s) en mid up.
Proof.
  revert en mid. induction s as [|[o ty] s IH]; intros en mid; cbn; [reflexivity|].
  replace (en - - ty) with (en + ty) by lia. destruct (k <=? en + ty); [reflexivity|].
  replace (- ty =? 0) with (ty =? 0) by (destruct (Z.eqb_spec ty 0), (Z.eqb_spec (- ty) 0); lia). apply IH.
Qed.
Lemma count_flip p l : count p (map flip l) = count (fun x => p (flip x)) l.
Proof. induction l as [|x l IH]; [reflexivity|]. cbn [map]. rewrite !count_cons, IH. reflexivity. Qed.
Lemma typed_flip s : typed s -> typed (map flip s).
Proof. intros T x Hx. apply elem_of_list_fmap in Hx as (y & -> & Hy). destruct (T y Hy) as [E|[E|E]]; cbn; rewrite E; auto. Qed.
Lemma scan_upper_spec k s en mid up : typed s ->
  let '(up', mid') := scan_upper k s en mid up in
  (up' = up /\ mid' = mid + count is_mid s) \/
  (exists pre x post, s = pre ++ x :: post /\ up' = x.1 /\ mid' = mid + count is_mid pre /\
     k <= en + count is_end (pre ++ [x]) - count is_start (pre ++ [x])).
Proof.
  intros T. rewrite scan_upper_flip. pose proof (scan_lower_spec k (map flip s) en mid up (typed_flip s T)) as H.
  destruct (scan_lower _ _ _ _ _) as [u m]. 
  assert (F1 : forall l, count is_mid (map flip l) = count is_mid l).
  { intros l. rewrite count_flip. apply count_ext. intros x _. unfold is_mid, flip. cbn. destruct (Z.eqb_spec (- x.2) 0), (Z.eqb_spec x.2 0); lia. }
  assert (F2 : forall l, count is_start (map flip l) = count is_end l).
  { intros l. rewrite count_flip. apply count_ext. intros x _. unfold is_start, is_end, flip. cbn. destruct (Z.eqb_spec (- x.2) (-1)), (Z.eqb_spec x.2 1); lia. }
  assert (F3 : forall l, count is_end (map flip l) = count is_start l).
  { intros l. rewrite count_flip. apply count_ext. intros x _. unfold is_start, is_end, flip. cbn. destruct (Z.eqb_spec (- x.2) 1), (Z.eqb_spec x.2 (-1)); lia. }
  destruct H as [[-> ->]|(pre & x & post & E & -> & -> & H)]; [left; rewrite F1; auto|right].
  assert (E' : exists pre' x' post', s = pre' ++ x' :: post' /\ pre = map flip pre' /\ x = flip x').
  { apply fmap_app_inv in E as (pre' & r & -> & E & ->). destruct r as [|x' post']; [discriminate|]. cbn in E. injection E as -> ->. exists pre', x', post'. auto. }
  destruct E' as (pre' & x' & post' & -> & -> & ->). exists pre', x', post'. rewrite F1.
  replace (map flip pre' ++ [flip x']) with (map flip (pre' ++ [x'])) in H by (rewrite map_app; reflexivity).
  rewrite F2, F3 in H. auto.
Qed.

(** *** soundness, in terms of counts of tuples *)
Definition sound_at (s : list tuple) (m f a b : Z) : Prop :=
  a <= b /\
  m - f <= count (fun x => is_start x && (x.1 <=? a)) s - count (fun x => is_end x && (x.1 <? a)) s /\
  m - f <= count (fun x => is_end x && (b <=? x.1)) s - count (fun x => is_start x && (b <? x.1)) s /\
  count (fun x => is_mid x && ((x.1 <? a) || (b <? x.1))) s <= f.
Lemma sorted_split s pre x post : StronglySorted tle s -> s = pre ++ x :: post ->
  (forall y, y ∈ pre -> y.1 <= x.1) /\ (forall y, y ∈ post -> x.1 <= y.1).
Proof.
  intros Hs ->. induction pre as [|z pre IH]; cbn in Hs.
  - apply StronglySorted_inv in Hs as [_ Hf]. rewrite Forall_forall in Hf. split; [intros y Hy; inversion Hy|]. intros y Hy. apply (Hf y). exact Hy.
  - apply StronglySorted_inv in Hs as [Hs Hf]. destruct (IH Hs) as [H1 H2]. split; [|exact H2].
    intros y Hy. apply elem_of_cons in Hy as [->|Hy]; [|apply H1, Hy]. rewrite Forall_forall in Hf. apply (Hf x). apply elem_of_app. right. left.
Qed.
Lemma round_sound s m f low up low' mid up' mid' :
  typed s -> StronglySorted tle s -> count is_mid s = m -> 0 <= f < m ->
  scan_lower (m - f) s 0 0 low = (low', mid) -> scan_upper (m - f) (reverse s) 0 mid up = (up', mid') ->
  low' <= up' -> mid' <= f -> sound_at s m f low' up'.
Proof.
  intros T Hs Hm Hf E1 E2 Hle Hmid.
  pose proof (scan_lower_spec (m - f) s 0 0 low T) as S1. rewrite E1 in S1.
  assert (T' : typed (reverse s)) by (intros x Hx; apply T; rewrite elem_of_reverse in Hx; exact Hx).
  pose proof (scan_upper_spec (m - f) (reverse s) 0 mid up T') as S2. rewrite E2 in S2.
  assert (Cr : forall p, count p (reverse s) = count p s) by (intros p; apply count_perm; apply reverse_Permutation).
  destruct S1 as [[_ ->]|(pre & x & post & Es & -> & -> & S1)].
  { exfalso. destruct S2 as [[_ ->]|(pre & x & post & Es & -> & -> & S2)]; [rewrite Cr in Hmid; pose proof (count_nonneg is_mid s)|pose proof (count_nonneg is_mid pre)]; lia. }
  destruct S2 as [[_ ->]|(pre2 & x2 & post2 & Es2 & -> & -> & S2)].
  { exfalso. rewrite Cr in Hmid. pose proof (count_nonneg is_mid pre). lia. }
  destruct (sorted_split s pre x post Hs Es) as [B1 B2].
  assert (Es3 : s = reverse post2 ++ x2 :: reverse pre2).
  { rewrite <- (reverse_involutive s), Es2, reverse_app, reverse_cons, <- app_assoc. reflexivity. }
  destruct (sorted_split s _ x2 _ Hs Es3) as [B3 B4].
  split; [exact Hle|]. split; [|split].
  - (* starts and ends up to x *)
    assert (P1 : count is_start (pre ++ [x]) <= count (fun y => is_start y && (y.1 <=? x.1)) s).
    { rewrite Es. replace (pre ++ x :: post) with ((pre ++ [x]) ++ post) by (rewrite <- app_assoc; reflexivity). rewrite (count_app _ (pre ++ [x])).
      pose proof (count_nonneg (fun y => is_start y && (y.1 <=? x.1)) post).
      enough (count is_start (pre ++ [x]) <= count (fun y => is_start y && (y.1 <=? x.1)) (pre ++ [x])) by lia.
      apply count_le. intros y Hy ->. cbn [andb]. apply Z.leb_le. apply elem_of_app in Hy as [Hy|Hy]; [apply B1, Hy|]. apply elem_of_list_singleton in Hy as ->. lia. }
    assert (P2 : count (fun y => is_end y && (y.1 <? x.1)) s <= count is_end (pre ++ [x])).
    { rewrite Es. replace (pre ++ x :: post) with ((pre ++ [x]) ++ post) by (rewrite <- app_assoc; reflexivity). rewrite (count_app _ (pre ++ [x])).
      rewrite (count_none _ post).
      2:{ intros y Hy. apply andb_false_intro2. apply Z.ltb_ge. apply B2, Hy. }
      rewrite Z.add_0_r. apply count_le. intros y _. rewrite andb_true_iff. tauto. }
    lia.
  - assert (Cs : forall p, count p s = count p (pre2 ++ [x2]) + count p post2).
    { intros p. rewrite <- Cr, Es2. replace (pre2 ++ x2 :: post2) with ((pre2 ++ [x2]) ++ post2) by (rewrite <- app_assoc; reflexivity). apply count_app. }
    assert (P1 : count is_end (pre2 ++ [x2]) <= count (fun y => is_end y && (x2.1 <=? y.1)) s).
    { rewrite Cs. pose proof (count_nonneg (fun y => is_end y && (x2.1 <=? y.1)) post2).
      enough (count is_end (pre2 ++ [x2]) <= count (fun y => is_end y && (x2.1 <=? y.1)) (pre2 ++ [x2])) by lia.
      apply count_le. intros y Hy ->. cbn [andb]. apply Z.leb_le. apply elem_of_app in Hy as [Hy|Hy]; [apply B4; rewrite elem_of_reverse; exact Hy|]. apply elem_of_list_singleton in Hy as ->. lia. }
    assert (P2 : count (fun y => is_start y && (x2.1 <? y.1)) s <= count is_start (pre2 ++ [x2])).
    { rewrite Cs. rewrite (count_none _ post2).
      2:{ intros y Hy. apply andb_false_intro2. apply Z.ltb_ge. apply B3. rewrite elem_of_reverse. exact Hy. }
      rewrite Z.add_0_r. apply count_le. intros y _. rewrite andb_true_iff. tauto. }
    lia.
  - assert (Q1 : count (fun y => is_mid y && (y.1 <? x.1)) s <= count is_mid pre).
    { rewrite Es, count_app, count_cons, Z.ltb_irrefl, andb_false_r. rewrite (count_none _ post).
      2:{ intros y Hy. apply andb_false_intro2. apply Z.ltb_ge. apply B2, Hy. }
      rewrite !Z.add_0_r. apply count_le. intros y _. rewrite andb_true_iff. tauto. }
    assert (Q2 : count (fun y => is_mid y && (x2.1 <? y.1)) s <= count is_mid pre2).
    { rewrite <- Cr, Es2, count_app, count_cons, Z.ltb_irrefl, andb_false_r. rewrite (count_none _ post2).
      2:{ intros y Hy. apply andb_false_intro2. apply Z.ltb_ge. apply B3. rewrite elem_of_reverse. exact Hy. }
      rewrite !Z.add_0_r. apply count_le. intros y _. rewrite andb_true_iff. tauto. }
    enough (count (fun y => is_mid y && ((y.1 <? x.1) || (x2.1 <? y.1))) s <= count (fun y => is_mid y && (y.1 <? x.1)) s + count (fun y => is_mid y && (x2.1 <? y.1)) s) by lia.
    apply count_or_disj. intros y _. rewrite !andb_true_iff, orb_true_iff. tauto.
Qed.
Lemma loop_sound fuel s m f low up a b : typed s -> StronglySorted tle s -> count is_mid s = m -> 0 <= f -> f + Z.of_nat fuel <= m / 2 ->
  inter_loop fuel s m f low up = (a, b, true) -> exists f', f <= f' < m / 2 /\ sound_at s m f' a b.
Proof.
  intros T Hs Hm. revert f low up. induction fuel as [|fuel IH]; intros f low up Hf Hb H; [discriminate|]. cbn [inter_loop] in H.
  destruct (scan_lower (m - f) s 0 0 low) as [low' mid] eqn:E1.
  destruct (scan_upper (m - f) (reverse s) 0 mid up) as [up' mid'] eqn:E2.
  destruct ((low' <=? up') && (mid' <=? f)) eqn:C.
  - injection H as <- <-. apply andb_true_iff in C as [C1 C2]. apply Z.leb_le in C1, C2.
    exists f. split; [lia|]. eapply round_sound; try eassumption.
    pose proof (Z.div_le_upper_bound m 2 m ltac:(lia)). assert (0 <= m) by (subst m; apply count_nonneg).
    assert (m / 2 <= m) by (apply Z.div_le_upper_bound; lia). lia.
  - destruct (IH (f + 1) low' up' ltac:(lia) ltac:(lia) H) as (f' & Hf' & S). exists f'. split; [lia|exact S].
Qed.

(** *** back to intervals *)
Lemma typed_tuples l s : s ≡ₚ concat (map tuples l) -> typed s.
Proof.
  intros P x Hx. rewrite P in Hx. clear P. induction l as [|i l IH]; [inversion Hx|]. cbn in Hx.
  rewrite !elem_of_cons in Hx. destruct Hx as [->|[->|[->|Hx]]]; cbn; auto.
Qed.
Lemma count_tuples p l : count p (concat (map tuples l)) =
  count (fun i => p (i64 (iv_off i - iv_band i), -1)) l + count (fun i => p (iv_off i, 0)) l + count (fun i => p (i64 (iv_off i + iv_band i), 1)) l.
Proof.
  induction l as [|i l IH]; [reflexivity|]. cbn [map concat]. rewrite count_app, IH. unfold tuples. rewrite !count_cons.
  change (count p []) with 0. lia.
Qed.
Lemma len_tuples l : Z.of_nat (length (concat (map tuples l))) = 3 * Z.of_nat (length l).
Proof. induction l as [|i l IH]; [reflexivity|]. cbn [map concat]. rewrite app_length. unfold tuples at 1. cbn [length]. lia. Qed.
Lemma fits_lo i : fits i -> i64 (iv_off i - iv_band i) = lo i. Proof. intros [H _]. apply i64_id, H. Qed.
Lemma fits_hi i : fits i -> i64 (iv_off i + iv_band i) = hi i. Proof. intros [_ H]. apply i64_id, H. Qed.
Lemma count_false {A} (l : list A) : count (fun _ => false) l = 0.
Proof. apply count_none. reflexivity. Qed.
