(** C160: the answer of Intersection, exactly, when no two different kinds of ends coincide. *)
From Coq Require Import Sorting.Sorted.
From Verif Require Import Base InterSpec InterModel InterProofs InterProps.
Local Open Scope Z.

(** *** Specification *)
(** how many intervals contain [x] *)
Definition cover (l : list interval) (x : Z) : Z := count (fun i => covers i x) l.
(** [a] and [b] are the first and the last point that at least [k] intervals contain *)
Definition hull (l : list interval) (k a b : Z) : Prop :=
  k <= cover l a /\ (forall x, x < a -> cover l x < k) /\ k <= cover l b /\ (forall x, b < x -> cover l x < k).
(** how many offsets are not between them *)
Definition strays (l : list interval) (a b : Z) : Z := count (fun i => (iv_off i <? a) || (b <? iv_off i)) l.
(** no start, offset or end is at the same place as one of another kind *)
Definition apart (l : list interval) : Prop :=
  forall i j, i ∈ l -> j ∈ l -> lo i <> hi j /\ lo i <> iv_off j /\ hi i <> iv_off j.
(** at most [f] of [m] are wrong: [m - f] agree on a point, and [f] offsets or fewer are astray *)
Definition agree (l : list interval) (f a b : Z) : Prop := hull l (Z.of_nat (length l) - f) a b /\ strays l a b <= f.

(** *** Lemmas *)
Definition tup (i : interval) : list tuple := [(lo i, -1); (iv_off i, 0); (hi i, 1)].
Definition noties (s : list tuple) : Prop := forall x y, x ∈ s -> y ∈ s -> x.1 = y.1 -> x.2 = y.2.
Definition net (s : list tuple) : Z := count is_start s - count is_end s.
Lemma net_app a b : net (a ++ b) = net a + net b.
Proof. unfold net. rewrite !count_app. lia. Qed.
Lemma net_one x : x.2 = -1 \/ x.2 = 0 \/ x.2 = 1 -> net [x] = - x.2.
Proof. unfold net, is_start, is_end. cbn. intros [->|[->| ->]]; reflexivity. Qed.
Lemma scan_first k s : typed s -> forall en mid low, en < k ->
  let '(low', mid') := scan_lower k s en mid low in
  (low' = low /\ mid' = mid + count is_mid s /\ forall p q, s = p ++ q -> en + net p < k) \/
  (exists pre x post, s = pre ++ x :: post /\ low' = x.1 /\ mid' = mid + count is_mid pre /\ x.2 = -1 /\
     k <= en + net (pre ++ [x]) /\ forall p q, pre = p ++ q -> en + net p < k).
Proof.
  induction s as [|x s IH]; intros T en mid low He.
  - cbn [scan_lower]. left. split; [reflexivity|]. split; [cbn; lia|]. intros p q E. symmetry in E. apply app_nil in E as [-> ->]. change (net []) with 0. lia.
  - destruct x as [o ty]. cbn [scan_lower]. assert (T' : typed s) by (intros x Hx; apply T; right; exact Hx).
    pose proof (T (o, ty) ltac:(left)) as Ty. pose proof (net_one (o, ty) Ty) as N1. cbn [snd] in *.
    destruct (Z.leb_spec k (en - ty)) as [Hk|Hk].
    + right. exists [], (o, ty), s. cbn [app fst snd]. split; [reflexivity|]. split; [reflexivity|]. split; [cbn; lia|]. split; [lia|]. split; [assert (N2 : k <= en + - ty) by lia; rewrite <- N1 in N2; exact N2|].
      intros p q E. symmetry in E. apply app_nil in E as [-> ->]. change (net []) with 0. lia.
    + specialize (IH T' (en - ty) (if ty =? 0 then mid + 1 else mid) low Hk). destruct (scan_lower k s _ _ low) as [l' m'].
      assert (Em : (if ty =? 0 then mid + 1 else mid) = mid + (if is_mid (o, ty) then 1 else 0)).
      { unfold is_mid. cbn. destruct (ty =? 0); lia. }
      rewrite Em in IH. destruct IH as [(-> & -> & IH)|(pre & x & post & -> & -> & -> & Hx & Hk2 & IH)].
      * left. rewrite count_cons. split; [reflexivity|]. split; [lia|]. intros [|y p] q E; [change (net []) with 0; lia|]. injection E as <- E. specialize (IH p q E). change ((o, ty) :: p) with ([(o, ty)] ++ p). rewrite net_app. lia.
      * right. exists ((o, ty) :: pre), x, post. cbn [app]. rewrite !count_cons. split; [reflexivity|]. split; [reflexivity|]. split; [lia|]. split; [exact Hx|].
        change ((o, ty) :: pre ++ [x]) with ([(o, ty)] ++ (pre ++ [x])). rewrite net_app. split; [lia|].
        intros [|y p] q E; [change (net []) with 0; lia|]. injection E as <- E. specialize (IH p q E). change ((o, ty) :: p) with ([(o, ty)] ++ p). rewrite net_app. lia.
Qed.
(** the tuples that satisfy a downward closed test come first *)
Lemma split_down (P : tuple -> bool) s : StronglySorted tle s -> (forall u v, u ∈ s -> v ∈ s -> u.1 <= v.1 -> P v = true -> P u = true) ->
  exists p q, s = p ++ q /\ (forall x, x ∈ p -> P x = true) /\ (forall x, x ∈ q -> P x = false).
Proof.
  induction 1 as [|x s Hs IH Hf]; intros HP; [exists [], []; repeat split; intros x Hx; inversion Hx|]. destruct (P x) eqn:Ex.
  - destruct IH as (p & q & -> & Hp & Hq); [intros u v Hu Hv; apply HP; right; assumption|]. exists (x :: p), q. split; [reflexivity|]. split; [|exact Hq]. intros y Hy. apply elem_of_cons in Hy as [->|Hy]; [exact Ex|apply Hp, Hy].
  - exists [], (x :: s). split; [reflexivity|]. split; [intros y Hy; inversion Hy|]. intros y Hy. destruct (P y) eqn:Ey; [|reflexivity]. rewrite <- Ex. symmetry. apply (HP x y); [left|exact Hy| |exact Ey].
    apply elem_of_cons in Hy as [->|Hy]; [lia|]. rewrite Forall_forall in Hf. apply Hf. exact Hy.
Qed.
Definition tcov (s : list tuple) (y : Z) : Z := count (fun x => is_start x && (x.1 <=? y)) s - count (fun x => is_end x && (x.1 <? y)) s.
(** the cover of a point is the net count of some prefix, all of it up to the point *)
Lemma tcov_prefix s y : typed s -> StronglySorted tle s -> noties s -> exists p q, s = p ++ q /\ tcov s y = net p /\ (forall x, x ∈ p -> x.1 <= y) /\ (forall x, x ∈ q -> is_end x = true -> y <= x.1).
Proof.
  intros T Hs N. destruct (split_down (fun x => (x.1 <? y) || (is_start x && (x.1 =? y))) s Hs) as (p & q & E & Hp & Hq).
  - intros u v Hu Hv L Pv. apply orb_true_iff in Pv. destruct Pv as [Pv|Pv].
    + apply Z.ltb_lt in Pv. destruct (Z.ltb_spec u.1 y); [reflexivity|lia].
    + apply andb_true_iff in Pv as [P1 P2]. apply Z.eqb_eq in P2. destruct (Z.ltb_spec u.1 y); [reflexivity|]. cbn [orb]. apply andb_true_iff. split; [|apply Z.eqb_eq; lia]. unfold is_start in *. rewrite (N u v Hu Hv); [exact P1|lia].
  - exists p, q. split; [exact E|]. split.
    + unfold tcov, net. rewrite E, !count_app. rewrite (count_none _ q), (count_none (fun x => is_end x && (x.1 <? y)) q).
      * rewrite !Z.add_0_r. f_equal.
        -- apply count_ext. intros x Hx. specialize (Hp x Hx). apply orb_true_iff in Hp. destruct (is_start x); [|reflexivity]. cbn [andb] in *. rewrite Z.ltb_lt, Z.eqb_eq in Hp. destruct (Z.leb_spec x.1 y); lia.
        -- apply count_ext. intros x Hx. specialize (Hp x Hx). apply orb_true_iff in Hp. unfold is_end, is_start in *. destruct (Z.eqb_spec x.2 1) as [E1|]; [|reflexivity]. cbn [andb]. rewrite E1 in Hp. cbn in Hp. rewrite Z.ltb_lt in Hp. destruct (Z.ltb_spec x.1 y); lia.
      * intros x Hx. specialize (Hq x Hx). apply orb_false_iff in Hq as [Q _]. rewrite Q. apply andb_false_r.
      * intros x Hx. specialize (Hq x Hx). apply orb_false_iff in Hq as [Q1 Q2]. destruct (is_start x); [|reflexivity]. cbn [andb] in *. apply Z.ltb_ge in Q1. apply Z.eqb_neq in Q2. apply Z.leb_gt. lia.
    + split.
      * intros x Hx. specialize (Hp x Hx). apply orb_true_iff in Hp. rewrite Z.ltb_lt, andb_true_iff, Z.eqb_eq in Hp. lia.
      * intros x Hx _. specialize (Hq x Hx). apply orb_false_iff in Hq as [Q1 _]. apply Z.ltb_ge in Q1. exact Q1.
Qed.
Lemma scan_cover k s mid low : typed s -> StronglySorted tle s -> noties s -> 1 <= k ->
  let '(low', mid') := scan_lower k s 0 mid low in
  (low' = low /\ mid' = mid + count is_mid s /\ forall y, tcov s y < k) \/
  (k <= tcov s low' /\ (forall y, y < low' -> tcov s y < k) /\ mid' = mid + count (fun x => is_mid x && (x.1 <? low')) s).
Proof.
  intros T Hs N Hk. pose proof (scan_first k s T 0 mid low ltac:(lia)) as S. destruct (scan_lower k s 0 mid low) as [low' mid'].
  destruct S as [(-> & -> & S)|(pre & x & post & E & -> & -> & Hx & S1 & S2)].
  - left. split; [reflexivity|]. split; [reflexivity|]. intros y. destruct (tcov_prefix s y T Hs N) as (p & q & E & -> & _). apply (S p q E).
  - right. destruct (sorted_split s pre x post Hs E) as [B1 B2]. split; [|split].
    + assert (Es : s = (pre ++ [x]) ++ post) by (rewrite <- app_assoc; exact E). unfold tcov. rewrite Es, !(count_app _ (pre ++ [x])).
      pose proof (count_nonneg (fun y => is_start y && (y.1 <=? x.1)) post) as C1.
      rewrite (count_none (fun y => is_end y && (y.1 <? x.1)) post). 2:{ intros y Hy. apply andb_false_intro2. apply Z.ltb_ge. apply B2, Hy. }
      assert (C2 : count (fun y => is_end y && (y.1 <? x.1)) (pre ++ [x]) <= count is_end (pre ++ [x])) by (apply count_le; intros y _; rewrite andb_true_iff; tauto).
      assert (C3 : count is_start (pre ++ [x]) <= count (fun y => is_start y && (y.1 <=? x.1)) (pre ++ [x])).
      { apply count_le. intros y Hy ->. cbn [andb]. apply Z.leb_le. apply elem_of_app in Hy as [Hy|Hy]; [apply B1, Hy|]. apply elem_of_list_singleton in Hy as ->. lia. }
      unfold net in S1. lia.
    + intros y Hy. destruct (tcov_prefix s y T Hs N) as (p & q & Ep & -> & Hp & _).
      assert (Hpre : exists r, pre = p ++ r).
      { rewrite E in Ep. apply app_eq_inv in Ep as [(r & -> & _)|(r & -> & Er)]; [eauto|]. destruct r as [|z r]; [exists []; rewrite !app_nil_r; reflexivity|]. injection Er as -> _. exfalso. specialize (Hp z). assert (z ∈ pre ++ z :: r) by (apply elem_of_app; right; left). specialize (Hp H). lia. }
      destruct Hpre as (r & Er). specialize (S2 p r Er). lia.
    + f_equal. rewrite E, count_app, count_cons, Z.ltb_irrefl, andb_false_r, (count_none _ post). 2:{ intros y Hy. apply andb_false_intro2. apply Z.ltb_ge. apply B2, Hy. }
      rewrite !Z.add_0_r. apply count_ext. intros y Hy. unfold is_mid. destruct (Z.eqb_spec y.2 0) as [E0|]; [|reflexivity]. cbn [andb]. symmetry. apply Z.ltb_lt.
      specialize (B1 y Hy). destruct (Z.eq_dec y.1 x.1) as [E1|]; [|lia]. exfalso. assert (y.2 = x.2); [|lia]. apply N; [rewrite E; apply elem_of_app; auto|rewrite E; apply elem_of_app; right; left|exact E1].
Qed.
(** in terms of intervals *)
Lemma count_tup p l : count p (concat (map tup l)) = count (fun i => p (lo i, -1)) l + count (fun i => p (iv_off i, 0)) l + count (fun i => p (hi i, 1)) l.
Proof. induction l as [|i l IH]; [reflexivity|]. cbn [map concat]. rewrite count_app, IH. unfold tup. rewrite !count_cons. change (count p []) with 0. lia. Qed.
Lemma tup_elem l x : x ∈ concat (map tup l) -> exists i, i ∈ l /\ (x = (lo i, -1) \/ x = (iv_off i, 0) \/ x = (hi i, 1)).
Proof.
  intros Hx. apply elem_of_list_In, in_concat in Hx as (t & Ht & Hx). apply in_map_iff in Ht as (i & <- & Hil). apply elem_of_list_In in Hil. exists i. split; [exact Hil|]. destruct Hx as [<-|[<-|[<-|[]]]]; auto.
Qed.
Lemma tup_typed l s : s ≡ₚ concat (map tup l) -> typed s.
Proof. intros P x Hx. rewrite P in Hx. apply tup_elem in Hx as (i & _ & [->|[->| ->]]); cbn; auto. Qed.
Lemma tup_noties l s : apart l -> s ≡ₚ concat (map tup l) -> noties s.
Proof.
  intros A P x y Hx Hy. rewrite P in Hx, Hy. apply tup_elem in Hx as (i & Hi & Ex). apply tup_elem in Hy as (j & Hj & Ey). destruct (A i j Hi Hj) as (A1 & A2 & A3). destruct (A j i Hj Hi) as (B1 & B2 & B3).
  destruct Ex as [->|[->| ->]], Ey as [->|[->| ->]]; cbn; congruence.
Qed.
Lemma count_sub {A} (p q r : A -> bool) l : (forall x, x ∈ l -> (q x = true -> p x = true) /\ r x = p x && negb (q x)) -> count p l - count q l = count r l.
Proof.
  induction l as [|x l IH]; intros H; [reflexivity|]. rewrite !count_cons. specialize (IH ltac:(intros y Hy; apply H; right; exact Hy)). destruct (H x ltac:(left)) as [H1 ->]. destruct (p x), (q x); cbn; try specialize (H1 eq_refl); (lia || discriminate).
Qed.
Lemma tcov_cover l s y : (forall i, i ∈ l -> 0 <= iv_band i) -> s ≡ₚ concat (map tup l) -> tcov s y = cover l y.
Proof.
  intros B P. unfold tcov. rewrite !(count_perm _ _ _ P), !count_tup. unfold is_start, is_end. cbn. rewrite !count_false. unfold cover. enough (count (fun i => lo i <=? y) l - count (fun i => hi i <? y) l = count (fun i => covers i y) l) by lia. apply count_sub.
  intros i Hi. specialize (B i Hi). unfold covers, lo, hi. split; [rewrite Z.ltb_lt, Z.leb_le; lia|]. f_equal. apply eq_true_iff_eq. rewrite negb_true_iff, Z.ltb_ge, Z.leb_le. reflexivity.
Qed.
Lemma mids_below l s y : s ≡ₚ concat (map tup l) -> count (fun x => is_mid x && (x.1 <? y)) s = count (fun i => iv_off i <? y) l.
Proof. intros P. rewrite (count_perm _ _ _ P), count_tup. unfold is_mid. cbn. rewrite !count_false. lia. Qed.
Lemma mids_all l s : s ≡ₚ concat (map tup l) -> count is_mid s = Z.of_nat (length l).
Proof. intros P. rewrite (count_perm _ _ _ P), count_tup. unfold is_mid. cbn. rewrite !count_false, (count_all (fun _ => true)) by reflexivity. lia. Qed.
Lemma lower_exact l s k mid low : (forall i, i ∈ l -> 0 <= iv_band i) -> apart l -> s ≡ₚ concat (map tup l) -> StronglySorted tle s -> 1 <= k ->
  let '(low', mid') := scan_lower k s 0 mid low in
  (low' = low /\ mid' = mid + Z.of_nat (length l) /\ forall y, cover l y < k) \/
  (k <= cover l low' /\ (forall y, y < low' -> cover l y < k) /\ mid' = mid + count (fun i => iv_off i <? low') l).
Proof.
  intros B A P Hs Hk. pose proof (scan_cover k s mid low (tup_typed l s P) Hs (tup_noties l s A P) Hk) as S. destruct (scan_lower k s 0 mid low) as [low' mid'].
  rewrite (mids_below l s _ P), (mids_all l s P), (tcov_cover l s _ B P) in S. destruct S as [(S1 & S2 & S3)|(S1 & S2 & S3)]; [left|right]; repeat split; try assumption; intros y; [|intros Hy]; rewrite <- (tcov_cover l s y B P); auto.
Qed.
(** the second loop is the first one seen from the other side *)
Definition mirror (x : tuple) : tuple := (- x.1, - x.2).
Definition mirror_iv (i : interval) : interval := IV (- iv_off i) (iv_band i).
Lemma scan_upper_mirror k s : forall en mid up, scan_upper k s en mid up = let '(l, m) := scan_lower k (map mirror s) en mid (- up) in (- l, m).
Proof.
  induction s as [|[o ty] s IH]; intros en mid up; cbn; [rewrite Z.opp_involutive; reflexivity|].
  replace (en - - ty) with (en + ty) by lia. destruct (k <=? en + ty); [rewrite Z.opp_involutive; reflexivity|].
  replace (- ty =? 0) with (ty =? 0) by (destruct (Z.eqb_spec ty 0), (Z.eqb_spec (- ty) 0); lia). apply IH.
Qed.
Lemma mirror_tup l : map mirror (concat (map tup l)) ≡ₚ concat (map tup (map mirror_iv l)).
Proof.
  induction l as [|[o b] l IH]; [reflexivity|]. cbn [map concat]. rewrite map_app, IH. apply Permutation_app_tail. unfold tup, mirror, mirror_iv, lo, hi. cbn.
  replace (- (o - b)) with (- o + b) by lia. replace (- (o + b)) with (- o - b) by lia. change (- -1) with 1. change (- 1) with (-1). change (- 0) with 0.
  etransitivity; [apply perm_swap|]. etransitivity; [apply perm_skip, perm_swap|]. apply perm_swap.
Qed.
Lemma sorted_snoc s x : StronglySorted tle s -> (forall y, y ∈ s -> tle y x) -> StronglySorted tle (s ++ [x]).
Proof.
  induction 1 as [|y s Hs IH Hf]; intros H; cbn [app]; [constructor; constructor|]. constructor; [apply IH; intros z Hz; apply H; right; exact Hz|]. apply Forall_app. split; [exact Hf|]. constructor; [apply H; left|constructor].
Qed.
Lemma mirror_sorted s : StronglySorted tle s -> StronglySorted tle (map mirror (reverse s)).
Proof.
  induction 1 as [|x s Hs IH Hf]; [constructor|]. rewrite reverse_cons, map_app. apply sorted_snoc; [exact IH|]. intros y Hy. apply elem_of_list_fmap in Hy as (z & -> & Hz). rewrite elem_of_reverse in Hz. rewrite Forall_forall in Hf. specialize (Hf z Hz). unfold tle, mirror in *. cbn. lia.
Qed.
Lemma cover_mirror l y : cover (map mirror_iv l) (- y) = cover l y.
Proof.
  unfold cover. induction l as [|[o b] l IH]; [reflexivity|]. cbn [map]. rewrite !count_cons, IH. f_equal. replace (covers (mirror_iv (IV o b)) (- y)) with (covers (IV o b) y); [reflexivity|].
  unfold covers, mirror_iv, lo, hi. cbn. apply eq_true_iff_eq. rewrite !andb_true_iff, !Z.leb_le. lia.
Qed.
Lemma upper_exact l s k mid up : (forall i, i ∈ l -> 0 <= iv_band i) -> apart l -> s ≡ₚ concat (map tup l) -> StronglySorted tle s -> 1 <= k ->
  let '(up', mid') := scan_upper k (reverse s) 0 mid up in
  (up' = up /\ mid' = mid + Z.of_nat (length l) /\ forall y, cover l y < k) \/
  (k <= cover l up' /\ (forall y, up' < y -> cover l y < k) /\ mid' = mid + count (fun i => up' <? iv_off i) l).
Proof.
  intros B A P Hs Hk. rewrite scan_upper_mirror.
  assert (S := lower_exact (map mirror_iv l) (map mirror (reverse s)) k mid (- up)).
  destruct (scan_lower k (map mirror (reverse s)) 0 mid (- up)) as [l' m']. rewrite map_length in S.
  assert (S' : (l' = - up /\ m' = mid + Z.of_nat (length l) /\ (forall y, cover (map mirror_iv l) y < k)) \/ (k <= cover (map mirror_iv l) l' /\ (forall y, y < l' -> cover (map mirror_iv l) y < k) /\ m' = mid + count (fun i => iv_off i <? l') (map mirror_iv l))).
  { apply S; [| | |apply mirror_sorted, Hs|exact Hk].
    - intros i Hi. apply elem_of_list_fmap in Hi as (j & -> & Hj). exact (B j Hj).
    - intros i j Hi Hj. apply elem_of_list_fmap in Hi as (i' & -> & Hi). apply elem_of_list_fmap in Hj as (j' & -> & Hj). destruct (A i' j' Hi Hj) as (A1 & A2 & A3). destruct (A j' i' Hj Hi) as (B1 & B2 & B3). destruct i' as [oi bi], j' as [oj bj]. unfold mirror_iv, lo, hi in *. cbn in *. lia.
    - rewrite <- mirror_tup. apply Permutation_map. rewrite <- P. apply reverse_Permutation. }
  clear S. destruct S' as [(-> & -> & S)|(S1 & S2 & ->)].
  - left. split; [lia|]. split; [reflexivity|]. intros y. rewrite <- cover_mirror. apply S.
  - right. split; [rewrite <- cover_mirror, Z.opp_involutive; exact S1|]. split.
    + intros y Hy. rewrite <- cover_mirror. apply S2. lia.
    + f_equal. clear. induction l as [|[o b] l IH]; [reflexivity|]. cbn [map]. rewrite !count_cons, IH. unfold mirror_iv. cbn. f_equal. replace (- l' <? o) with (- o <? l'); [reflexivity|]. apply eq_true_iff_eq. rewrite !Z.ltb_lt. lia.
Qed.
Lemma strays_split l a b : a <= b -> count (fun i => iv_off i <? a) l + count (fun i => b <? iv_off i) l = strays l a b.
Proof.
  intros H. unfold strays. induction l as [|i l IH]; [reflexivity|]. rewrite !count_cons, <- IH. destruct (Z.ltb_spec (iv_off i) a), (Z.ltb_spec b (iv_off i)); cbn; lia.
Qed.
Lemma hull_le l k a b : hull l k a b -> a <= b.
Proof. intros (H1 & _ & _ & H4). destruct (Z.le_gt_cases a b) as [|L]; [assumption|]. specialize (H4 a L). lia. Qed.
Lemma hull_unique l k a b a' b' : hull l k a b -> hull l k a' b' -> a = a' /\ b = b'.
Proof.
  intros (H1 & H2 & H3 & H4) (H1' & H2' & H3' & H4'). split.
  - destruct (Z.lt_total a a') as [L|[E|L]]; [specialize (H2' a L); lia|exact E|specialize (H2 a' L); lia].
  - destruct (Z.lt_total b b') as [L|[E|L]]; [specialize (H4 b' L); lia|exact E|specialize (H4' b L); lia].
Qed.
Section loop.
  Context (l : list interval) (s : list tuple).
  Hypothesis B : forall i, i ∈ l -> 0 <= iv_band i.
  Hypothesis A : apart l.
  Hypothesis P : s ≡ₚ concat (map tup l).
  Hypothesis Hs : StronglySorted tle s.
  Let m := Z.of_nat (length l).
  (** what the variables hold before round [f]: the hull of the round before, if there is one *)
  Definition prior (f low up : Z) : Prop := (hull l (m - (f - 1)) low up /\ 0 < f) \/ (low = 0 /\ up = 0 /\ forall y, 0 < f -> cover l y < m - (f - 1)).
  Lemma loop_exact fuel : forall f low up a b ok, 0 <= f -> f + Z.of_nat fuel = m / 2 -> prior f low up -> (forall f' a' b', 0 <= f' < f -> ~ agree l f' a' b') ->
    inter_loop fuel s m f low up = (a, b, ok) ->
    if ok then exists f, 0 <= f < m / 2 /\ agree l f a b /\ forall f' a' b', 0 <= f' < f -> ~ agree l f' a' b'
    else (forall f' a' b', 0 <= f' < m / 2 -> ~ agree l f' a' b') /\ prior (m / 2) a b.
  Proof.
    assert (Hm : m / 2 <= m) by (apply Z.div_le_upper_bound; lia).
    assert (Hm2 : 0 < m -> m / 2 < m) by (intros; apply Z.div_lt_upper_bound; lia).
    induction fuel as [|fuel IH]; intros f low up a b ok Hf0 Hf Hp Hno E; cbn [inter_loop] in E.
    { injection E as <- <- <-. replace (m / 2) with f by lia. auto. }
    assert (Hk : 1 <= m - f) by lia.
    pose proof (lower_exact l s (m - f) 0 low B A P Hs Hk) as SL. destruct (scan_lower (m - f) s 0 0 low) as [low' mid].
    pose proof (upper_exact l s (m - f) mid up B A P Hs Hk) as SU. destruct (scan_upper (m - f) (reverse s) 0 mid up) as [up' mid']. fold m in SL, SU.
    assert (Cases : (hull l (m - f) low' up' /\ mid' = strays l low' up') \/ (low' = 0 /\ up' = 0 /\ (forall y, cover l y < m - f) /\ mid' = 2 * m)).
    { destruct SL as [(-> & -> & SL)|(SL1 & SL2 & ->)], SU as [(-> & -> & SU)|(SU1 & SU2 & ->)].
      - right. destruct Hp as [[(Hp & _) Hp2]|(-> & -> & _)]; [specialize (SL low); lia|]. repeat split; auto; lia.
      - specialize (SL up'). lia.
      - specialize (SU low'). lia.
      - left. assert (H : hull l (m - f) low' up') by (unfold hull; auto). split; [exact H|]. rewrite Z.add_0_l. apply strays_split. eapply hull_le, H. }
    clear SL SU. destruct Cases as [[Hh ->]|(-> & -> & Hc & ->)].
    - pose proof (hull_le _ _ _ _ Hh) as Hle. apply Z.leb_le in Hle. rewrite Hle in E. cbn [andb] in E. destruct (Z.leb_spec (strays l low' up') f) as [L|L].
      + injection E as <- <- <-. exists f. split; [lia|]. split; [split; assumption|exact Hno].
      + apply (IH (f + 1) low' up' a b ok); [lia|lia| | |exact E].
        * left. replace (f + 1 - 1) with f by lia. split; [exact Hh|lia].
        * intros f' a' b' Hf'. destruct (Z.eq_dec f' f) as [->|]; [|apply Hno; lia]. intros [Ha Hb]. destruct (hull_unique _ _ _ _ _ _ Ha Hh) as [-> ->]. lia.
    - change (0 <=? 0) with true in E. cbn [andb] in E. destruct (Z.leb_spec (2 * m) f) as [L|L]; [lia|]. apply (IH (f + 1) 0 0 a b ok); [lia|lia| | |exact E].
      + right. split; [reflexivity|]. split; [reflexivity|]. intros y _. replace (f + 1 - 1) with f by lia. apply Hc.
      + intros f' a' b' Hf'. destruct (Z.eq_dec f' f) as [->|]; [|apply Hno; lia]. intros [(Ha & _) _]. specialize (Hc a'). fold m in Ha. lia.
  Qed.
End loop.

(** *** C160 *)
(** With two intervals or more: the answer is that of the least number f < m/2 of wrong
    intervals for which the rest agrees, and there is none if no f does; then the two numbers
    are those of the last f that was tried. *)
Theorem intersection_exact l a b ok : (2 <= length l)%nat -> Forall fits l -> (forall i, i ∈ l -> 0 <= iv_band i) -> apart l -> inter l (a, b, ok) ->
  let m := Z.of_nat (length l) in
  if ok then exists f, 0 <= f < m / 2 /\ agree l f a b /\ forall f' a' b', 0 <= f' < f -> ~ agree l f' a' b'
  else (forall f a' b', 0 <= f < m / 2 -> ~ agree l f a' b') /\ (hull l (m - (m / 2 - 1)) a b \/ a = 0 /\ b = 0 /\ forall x, cover l x < m - (m / 2 - 1)).
Proof.
  intros Hl Hf B A Hi m. rewrite Forall_forall in Hf. inversion Hi as [i E|s Hn Hsort E]; [subst; cbn in Hl; lia|]. clear Hi Hn. destruct Hsort as [P Hs].
  assert (P' : s ≡ₚ concat (map tup l)).
  { rewrite P. clear - Hf. induction l as [|i l IH]; [reflexivity|]. cbn [map concat]. rewrite IH by (intros j Hj; apply Hf; right; exact Hj). specialize (Hf i ltac:(left)). unfold tuples. rewrite fits_lo, fits_hi by exact Hf. reflexivity. }
  unfold intersection in E. assert (Em : Z.of_nat (length s) / 3 = m) by (rewrite P, len_tuples, Z.mul_comm; apply Z.div_mul; lia). rewrite Em in E.
  assert (Hm2 : 1 <= m / 2) by (apply Z.div_le_lower_bound; lia).
  pose proof (loop_exact l s B A P' Hs (Z.to_nat (m / 2)) 0 0 0 a b ok ltac:(lia)) as L. fold m in L.
  specialize (L ltac:(lia)). specialize (L ltac:(right; repeat split; lia) ltac:(lia) E). destruct ok; [exact L|]. destruct L as [L1 [[L2 _]|(L2 & L3 & L4)]]; (split; [exact L1|]); [left; exact L2|right]. split; [exact L2|]. split; [exact L3|]. intros x. apply L4. lia.
Qed.
Print Assumptions intersection_exact.
(** so it finds an answer exactly when there is one *)
Theorem intersection_complete l a b ok : (2 <= length l)%nat -> Forall fits l -> (forall i, i ∈ l -> 0 <= iv_band i) -> apart l -> inter l (a, b, ok) ->
  ok = true <-> exists f a' b', 0 <= f < Z.of_nat (length l) / 2 /\ agree l f a' b'.
Proof.
  intros Hl Hf B A Hi. pose proof (intersection_exact l a b ok Hl Hf B A Hi) as E. destruct ok; cbn in E.
  - split; [intros _|reflexivity]. destruct E as (f & Hf' & Ha & _). eauto.
  - split; [discriminate|]. intros (f & a' & b' & Hf' & Ha). exfalso. destruct E as [E _]. exact (E f a' b' Hf' Ha).
Qed.
Print Assumptions intersection_complete.
(** four clocks of which one is wrong: three agree on 8..13 *)
Example intersection_exact_ex : let l := [IV 9 4; IV 11 3; IV 10 6; IV 40 5] in
  (2 <= length l)%nat /\ Forall fits l /\ (forall i, i ∈ l -> 0 <= iv_band i) /\ apart l /\ inter l (8, 13, true) /\ agree l 1 8 13.
Proof.
  cbn zeta. split; [cbn; lia|]. split; [repeat constructor; unfold lo, hi; cbn; lia|]. split; [intros i; rewrite !elem_of_cons, elem_of_nil; intros [->|[->|[->|[->|[]]]]]; cbn; lia|].
  split; [intros i j; rewrite !elem_of_cons, !elem_of_nil; intros [->|[->|[->|[->|[]]]]] [->|[->|[->|[->|[]]]]]; unfold lo, hi; cbn; lia|].
  assert (I : inter [IV 9 4; IV 11 3; IV 10 6; IV 40 5] (8, 13, true)) by (replace (8, 13, true) with (inter_small [IV 9 4; IV 11 3; IV 10 6; IV 40 5]) by (vm_compute; reflexivity); apply inter_small_inter).
  split; [exact I|]. unfold agree, hull, strays, cover. cbn [length]. change (Z.of_nat 4 - 1) with 3.
  assert (C : forall x, x < 8 \/ 13 < x -> count (fun i => covers i x) [IV 9 4; IV 11 3; IV 10 6; IV 40 5] < 3).
  { intros x Hx. unfold count, covers, lo, hi. cbn. repeat match goal with |- context [?a <=? ?b] => destruct (Z.leb_spec a b) end; cbn; lia. }
  split; [|vm_compute; discriminate]. split; [vm_compute; discriminate|]. split; [intros; apply C; lia|]. split; [vm_compute; discriminate|]. intros; apply C; lia.
Qed.
