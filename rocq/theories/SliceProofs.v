(** Proofs about dsx/slicex/slicex.go *)
From Verif Require Import Base SeqSpec GoSlice SliceSpec SliceModel.

Section SliceProofs.
Context {A : Type} (zero : A) (maxlen : Z).
Notation mem := (list (list A)).
Implicit Types (m : mem) (s t v : slice) (l xs vs : list A).

Lemma became_refl m s : wf m s -> became m s m s (contents m s).
Proof. intros W. split; [exact W|]. split; [reflexivity|]. apply local_refl. Qed.
Lemma became_trans m s m1 s1 l1 m2 s2 l2 : became m s m1 s1 l1 -> became m1 s1 m2 s2 l2 -> became m s m2 s2 l2.
Proof. intros (W1 & E1 & L1) (W2 & E2 & L2). split; [exact W2|]. split; [exact E2|]. eapply local_trans; eauto. Qed.

Lemma zlen_contents m s : wf m s -> zlen (contents m s) = len s.
Proof. intros W. unfold zlen, len. rewrite contents_length by exact W. reflexivity. Qed.
Lemma len_nonneg s : (0 <= len s)%Z.
Proof. unfold len. lia. Qed.

Lemma sub_became m s i j : wf m s -> (0 <= i <= j)%Z -> (j <= len s)%Z ->
  exists t, sl_sub s i j = Ret t /\ became m s m t (take (Z.to_nat (j - i)) (drop (Z.to_nat i) (contents m s))) /\
    len t = (j - i)%Z /\ sl_arr t = sl_arr s /\ (sl_cap s = 0 -> sl_cap t = 0).
Proof.
  intros W Hi Hj. destruct (sl_sub_ok m s i j W Hi Hj) as (t & E & Wt & Ea & El & Eo & Ec & _ & EC).
  exists t. split; [exact E|]. split; [split; [exact Wt|split; [exact EC|apply local_sub with i j; exact E]]|].
  split; [unfold len; rewrite El; lia|]. split; [exact Ea|]. intros H. rewrite Ec. lia.
Qed.
Lemma append_became g m s xs : wf m s ->
  became m s (append zero g m s xs).1 (append zero g m s xs).2 (contents m s ++ xs).
Proof. intros W. split; [apply append_wf, W|]. split; [apply append_contents, W|apply local_append]. Qed.
Lemma set_became m s i x : wf m s -> (0 <= i < len s)%Z ->
  exists m', sl_set m s i x = Ret m' /\ became m s m' s (<[Z.to_nat i := x]> (contents m s)).
Proof.
  intros W Hi. destruct (sl_set_ok m s i x W Hi) as (m' & E & W' & _ & EC & _). exists m'. split; [exact E|].
  split; [exact W'|]. split; [exact EC|]. revert E. unfold sl_set. destruct (_ && _)%bool; [|discriminate].
  intros E. injection E as <-. apply local_write. destruct W. unfold len in Hi. cbn. lia.
Qed.

(** only new memory was touched *)
Definition grown m m' : Prop := length m <= length m' /\ forall b, b < length m -> arr m' b = arr m b.
Lemma grown_refl m : grown m m.
Proof. split; auto. Qed.
Lemma grown_wf m m' t : grown m m' -> wf m t -> wf m' t /\ contents m' t = contents m t.
Proof.
  intros [L F] W. assert (E : window m' t = window m t).
  { unfold window. destruct (decide (sl_cap t = 0)) as [->|Hc]; [reflexivity|]. rewrite F; [reflexivity|]. apply wf_arr; [exact W|lia]. }
  unfold wf, contents in *. rewrite E. auto.
Qed.
Lemma grown_local m m' s m'' t : grown m m' -> local m' s m'' t -> local m s m'' t.
Proof.
  intros [L F] (L' & F' & H). split; [lia|]. split; [|destruct H as [|[|]]; auto; right; left; lia].
  intros b Hb Hn. rewrite F' by (auto; lia). auto.
Qed.
Lemma grown_became m m' s m'' t l : grown m m' -> became m' s m'' t l -> became m s m'' t l.
Proof. intros G (W & E & L). split; [exact W|]. split; [exact E|]. eapply grown_local; eauto. Qed.
Lemma grown_alloc m xs : grown m (alloc m xs).1.
Proof. split; [cbn; rewrite app_length; lia|]. intros. apply arr_app_old. assumption. Qed.
Lemma grown_trans m1 m2 m3 : grown m1 m2 -> grown m2 m3 -> grown m1 m3.
Proof. intros [L1 F1] [L2 F2]. split; [lia|]. intros b Hb. rewrite F2 by lia. auto. Qed.
(** an append that has to reallocate, or appends nothing *)
Lemma append_grown g m v xs : sl_cap v < sl_len v + length xs \/ xs = [] -> grown m (append zero g m v xs).1.
Proof.
  intros H. unfold append. destruct (Nat.leb_spec (sl_len v + length xs) (sl_cap v)) as [Hle|Hle]; cbn [fst].
  - destruct H as [H| ->]; [lia|]. split; [rewrite write_length; lia|]. intros. apply arr_write_nil.
  - split; [rewrite app_length; lia|]. intros. apply arr_app_old. assumption.
Qed.

(** *** index arithmetic *)
Lemma preproc1_spec i n : (0 <= n)%Z -> preproc1 i n = Z.max 0 (Z.min i n).
Proof. intros. unfold preproc1. destruct (Z.ltb_spec i 0), (Z.ltb_spec n i); lia. Qed.
Lemma preproc2_spec i j n : (0 <= n)%Z ->
  preproc2 i j n = (Z.min (Z.max 0 (Z.min i n)) (Z.max 0 (Z.min j n)), Z.max (Z.max 0 (Z.min i n)) (Z.max 0 (Z.min j n))).
Proof.
  intros. unfold preproc2. rewrite preproc1_spec by lia.
  assert (E : (if (if (n <? j)%Z then n else j) <? 0 then 0 else (if n <? j then n else j))%Z = Z.max 0 (Z.min j n)).
  { destruct (Z.ltb_spec n j); destruct (Z.ltb_spec n 0); try lia; destruct (Z.ltb_spec j 0); lia. }
  rewrite E. destruct (Z.ltb_spec (Z.max 0 (Z.min j n)) (Z.max 0 (Z.min i n))); f_equal; lia.
Qed.

(** *** Get, Set *)
Lemma x_get_ok m s i : wf m s ->
  x_get zero m s i = Ret (default zero (contents m s !! clamppos (contents m s) i)).
Proof.
  intros W. pose proof (zlen_contents m s W) as Z0. unfold x_get. destruct (Z.eqb_spec (len s) 0) as [E|E].
  - pose proof (contents_length m s W). unfold len in E. destruct (contents m s); [reflexivity|cbn in *; lia].
  - pose proof (len_nonneg s). rewrite preproc1_spec by lia.
    destruct (sl_get_ok m s (Z.max 0 (Z.min i (len s - 1))) W) as (x & Ex & ->); [unfold len in *; lia|].
    unfold clamppos. rewrite Z0, Ex. reflexivity.
Qed.
Lemma x_set_ok m s i x : wf m s ->
  exists m', x_set m s i x = Ret m' /\ became m s m' s (<[clamppos (contents m s) i := x]> (contents m s)).
Proof.
  intros W. pose proof (zlen_contents m s W) as Z0. unfold x_set. destruct (Z.eqb_spec (len s) 0) as [E|E].
  - exists m. split; [reflexivity|]. pose proof (contents_length m s W) as L. unfold len in E.
    assert (EC : contents m s = []) by (destruct (contents m s); [reflexivity|cbn in *; lia]).
    pose proof (became_refl m s W) as B. rewrite EC in B |- *. exact B.
  - pose proof (len_nonneg s). rewrite preproc1_spec by lia. unfold clamppos. rewrite Z0.
    apply set_became; [exact W|lia].
Qed.

(** *** Clear, Slice, Extend, Copy *)
Lemma x_clear_ok m s : wf m s -> exists t, x_clear s = Ret t /\ became m s m t [].
Proof. intros W. destruct (sub_became m s 0 0 W) as (t & E & B & _); [lia|apply len_nonneg|]. exists t. auto. Qed.
Lemma x_slice_ok m s i j : wf m s ->
  exists t, x_slice s i j = Ret t /\ became m s m t (subrange (contents m s) i j).
Proof.
  intros W. pose proof (zlen_contents m s W) as Z0. pose proof (len_nonneg s). unfold x_slice.
  rewrite preproc2_spec by lia. set (j' := (if (j <? 0)%Z then len s + j else j)%Z).
  destruct (sub_became m s (Z.min (Z.max 0 (Z.min i (len s))) (Z.max 0 (Z.min j' (len s))))
                           (Z.max (Z.max 0 (Z.min i (len s))) (Z.max 0 (Z.min j' (len s))))) as (t & E & B & _); [exact W|lia|lia|].
  exists t. split; [exact E|]. unfold subrange, clampn. rewrite Z0. fold j'. cbn zeta.
  replace (Z.to_nat (Z.max 0 (Z.min i (len s))) `max` Z.to_nat (Z.max 0 (Z.min j' (len s)))
           - Z.to_nat (Z.max 0 (Z.min i (len s))) `min` Z.to_nat (Z.max 0 (Z.min j' (len s))))
    with (Z.to_nat (Z.max (Z.max 0 (Z.min i (len s))) (Z.max 0 (Z.min j' (len s))) -
                    Z.min (Z.max 0 (Z.min i (len s))) (Z.max 0 (Z.min j' (len s))))) by lia.
  replace (Z.to_nat (Z.max 0 (Z.min i (len s))) `min` Z.to_nat (Z.max 0 (Z.min j' (len s))))
    with (Z.to_nat (Z.min (Z.max 0 (Z.min i (len s))) (Z.max 0 (Z.min j' (len s))))) by lia.
  exact B.
Qed.
Lemma x_extend_ok g m s n : wf m s -> (n <= maxlen)%Z -> (0 <= maxlen)%Z ->
  exists m' t, x_extend zero maxlen g m s n = Ret (m', t) /\
    became m s m' t (contents m s ++ replicate (Z.to_nat n) zero).
Proof.
  intros W Hn H0. unfold x_extend.
  assert (E : preproc1 n n = Z.max 0 n) by (unfold preproc1; destruct (Z.ltb_spec n 0), (Z.ltb_spec n n); lia).
  rewrite E. destruct (Z.ltb_spec maxlen (Z.max 0 n)); [lia|].
  do 2 eexists. rewrite <- surjective_pairing. split; [reflexivity|].
  replace (Z.to_nat (Z.max 0 n)) with (Z.to_nat n) by lia. apply append_became, W.
Qed.
Lemma x_extend_panics g m s n : (maxlen < n)%Z -> (0 <= maxlen)%Z -> x_extend zero maxlen g m s n = Panic.
Proof.
  intros Hn H0. unfold x_extend.
  assert (E : preproc1 n n = n) by (unfold preproc1; destruct (Z.ltb_spec n 0), (Z.ltb_spec n n); lia).
  rewrite E. destruct (Z.ltb_spec maxlen n); [reflexivity|lia].
Qed.
(** the copy lives in new memory (or has no cell at all) *)
Lemma x_copy_ok g m s : wf m s ->
  let '(m', t) := x_copy zero g m s in
  wf m' t /\ contents m' t = contents m s /\ grown m m' /\ (sl_cap t = 0 \/ length m <= sl_arr t).
Proof.
  intros W. unfold x_copy. set (e := Sl (sl_arr s) (sl_off s) 0 0).
  assert (We : wf m e) by (split; cbn; [lia|unfold window; cbn; apply take_length_le; lia]).
  pose proof (append_became g m e (contents m s) We) as (W' & E' & L').
  assert (G : grown m (append zero g m e (contents m s)).1).
  { apply append_grown. destruct (contents m s); [auto|left; cbn; lia]. }
  destruct (append zero g m e (contents m s)) as [m' t]. cbn [fst snd] in *.
  split; [exact W'|]. split; [rewrite E'; reflexivity|]. split; [exact G|].
  destruct L' as (_ & _ & H). cbn in H. intuition.
Qed.

(** *** Splice *)
Lemma splice_shape m s i j : wf m s -> exists lo hi front back,
  preproc2 i j (len s) = (lo, hi) /\ sl_sub s 0 lo = Ret front /\ sl_sub s hi (len s) = Ret back /\
  became m s m front (take (Z.to_nat lo) (contents m s)) /\ sl_arr front = sl_arr s /\ (sl_cap s = 0 -> sl_cap front = 0) /\
  contents m back = drop (Z.to_nat hi) (contents m s) /\
  (forall vs, splice (contents m s) i j vs = take (Z.to_nat lo) (contents m s) ++ vs ++ drop (Z.to_nat hi) (contents m s)) /\
  (0 <= lo <= hi)%Z /\ (hi <= len s)%Z.
Proof.
  intros W. pose proof (zlen_contents m s W) as Z0. pose proof (len_nonneg s).
  rewrite preproc2_spec by lia. do 2 eexists.
  set (a := Z.max 0 (Z.min i (len s))). set (b := Z.max 0 (Z.min j (len s))).
  destruct (sub_became m s 0 (Z.min a b) W) as (front & E1 & B1 & _ & A1 & C1); [lia|lia|].
  destruct (sub_became m s (Z.max a b) (len s) W) as (back & E2 & B2 & _); [lia|lia|].
  exists front, back. split; [reflexivity|]. split; [exact E1|]. split; [exact E2|].
  split; [rewrite Z.sub_0_r in B1; exact B1|]. split; [exact A1|]. split; [exact C1|].
  split; [destruct B2 as (_ & -> & _); apply take_ge; rewrite drop_length, contents_length by exact W; unfold len; lia|].
  split; [|lia]. intros vs. unfold splice, clampn. rewrite Z0. fold a b. f_equal; [f_equal; lia|]. f_equal. f_equal. lia.
Qed.

(** any argument slice that the first append cannot confuse with the receiver *)
Definition spread_ok m s (i j : Z) v : Prop :=
  sl_cap s = 0 \/ sl_cap v = 0 \/ sl_arr v <> sl_arr s \/
  sl_cap v < sl_len v + length (drop (Nat.max (clampn (contents m s) i) (clampn (contents m s) j)) (contents m s)) \/
  drop (Nat.max (clampn (contents m s) i) (clampn (contents m s) j)) (contents m s) = [].

Lemma splice_hi m s i j lo hi : wf m s -> preproc2 i j (len s) = (lo, hi) ->
  Nat.max (clampn (contents m s) i) (clampn (contents m s) j) = Z.to_nat hi.
Proof.
  intros W E. rewrite preproc2_spec in E by apply len_nonneg. injection E as _ <-.
  unfold clampn. rewrite zlen_contents by exact W. lia.
Qed.

Lemma x_splice_spread g m s i j v : wf m s -> wf m v -> spread_ok m s i j v ->
  exists m' t, x_splice zero g m s i j v = Ret (m', t) /\ wf m' t /\
    contents m' t = splice (contents m s) i j (contents m v) /\
    length m <= length m' /\
    (forall b, b < length m -> b <> sl_arr s -> b <> sl_arr v -> arr m' b = arr m b) /\
    (sl_cap s = 0 \/ sl_cap v = 0 \/ sl_arr v <> sl_arr s -> contents m' v = contents m v /\ wf m' v).
Proof.
  intros W Wv Hok. destruct (splice_shape m s i j W) as (lo & hi & front & back & EP & E1 & E2 & B1 & A1 & C1 & EB & ES & H1 & H2).
  unfold spread_ok in Hok. rewrite (splice_hi m s i j lo hi W EP) in Hok.
  unfold x_splice. rewrite EP, E1. cbn [rbind]. rewrite E2. cbn [rbind]. rewrite EB.
  set (tl := drop (Z.to_nat hi) (contents m s)) in *.
  pose proof (append_became g.1 m v tl Wv) as (W1 & EC1 & L1).
  assert (Hfront : wf (append zero g.1 m v tl).1 front /\ contents (append zero g.1 m v tl).1 front = contents m front).
  { destruct B1 as (Wf & Ef & _).
    assert (Hcase : (sl_cap v = 0 \/ sl_cap front = 0 \/ sl_arr front <> sl_arr v) \/ (sl_cap v < sl_len v + length tl \/ tl = [])).
    { rewrite A1. destruct Hok as [H|[H|[H|[H|H]]]]; [left; right; left; auto|auto|left; right; right; congruence|auto|auto]. }
    destruct Hcase as [H|H].
    - apply (local_other m v _ _ front L1 Wf). tauto.
    - apply grown_wf; [apply append_grown, H|exact Wf]. }
  destruct (append zero g.1 m v tl) as [m1 w] eqn:EA. cbn [fst snd] in *.
  destruct Hfront as [Wf1 Ef1]. pose proof (append_became g.2 m1 front (contents m1 w) Wf1) as (W2 & EC2 & L2).
  destruct (append zero g.2 m1 front (contents m1 w)) as [m2 t]. cbn [fst snd] in *.
  exists m2, t. split; [reflexivity|]. split; [exact W2|]. destruct B1 as (_ & Ef & _).
  split; [rewrite EC2, EC1, Ef1, Ef, ES; reflexivity|].
  pose proof L1 as (La & Fa & _). pose proof L2 as (Lb & Fb & _). split; [lia|]. split.
  - intros b Hb Hs Hv. rewrite Fb; [apply Fa; auto|lia|left; congruence].
  - intros Hd. destruct (append_keeps zero g.1 m v tl Wv) as [K1 K2]. rewrite EA in K1, K2. cbn [fst] in K1, K2.
    destruct (local_other m1 front m2 t v L2 K2) as [K3 K4]; [rewrite A1; destruct Hd as [Hd|[Hd|Hd]]; auto|].
    split; [congruence|exact K3].
Qed.

(** the receiver is the only old slice touched when the first append reallocates *)
Lemma x_splice_local g m s i j v : wf m s -> wf m v -> sl_cap v = sl_len v ->
  exists m' t, x_splice zero g m s i j v = Ret (m', t) /\
    became m s m' t (splice (contents m s) i j (contents m v)).
Proof.
  intros W Wv Hfull. destruct (splice_shape m s i j W) as (lo & hi & front & back & EP & E1 & E2 & B1 & A1 & C1 & EB & ES & H1 & H2).
  unfold x_splice. rewrite EP, E1. cbn [rbind]. rewrite E2. cbn [rbind]. rewrite EB.
  set (tl := drop (Z.to_nat hi) (contents m s)) in *.
  pose proof (append_became g.1 m v tl Wv) as (W1 & EC1 & L1).
  assert (G : grown m (append zero g.1 m v tl).1).
  { apply append_grown. destruct tl; [auto|left; cbn; lia]. }
  destruct (append zero g.1 m v tl) as [m1 w]. cbn [fst snd] in *.
  destruct B1 as (Wf & Ef & Lf). destruct (grown_wf _ _ _ G Wf) as [Wf1 Ef1].
  pose proof (append_became g.2 m1 front (contents m1 w) Wf1) as (W2 & EC2 & L2).
  destruct (append zero g.2 m1 front (contents m1 w)) as [m2 t]. cbn [fst snd] in *.
  exists m2, t. split; [reflexivity|]. split; [exact W2|]. split; [rewrite EC2, EC1, Ef1, Ef, ES; reflexivity|].
  eapply local_trans; [exact Lf|]. eapply grown_local; [exact G|exact L2].
Qed.
Lemma x_splice_args_ok g m s i j vs : wf m s ->
  exists m' t, x_splice_args zero g m s i j vs = Ret (m', t) /\
    became m s m' t (splice (contents m s) i j vs).
Proof.
  intros W. unfold x_splice_args. pose proof (alloc_wf m vs) as (Wv & Ev & _). pose proof (grown_alloc m vs) as G.
  assert (Hc : sl_cap (alloc m vs).2 = sl_len (alloc m vs).2) by reflexivity.
  destruct (alloc m vs) as [m1 v]. cbn [fst snd] in *. destruct (grown_wf _ _ _ G W) as [W1 E1].
  destruct (x_splice_local g m1 s i j v W1 Wv Hc) as (m' & t & E & B). exists m', t. split; [exact E|].
  rewrite E1, Ev in B. eapply grown_became; eauto.
Qed.

(** *** the derived methods *)
Lemma splice_at_end l vs : splice l (zlen l) (zlen l) vs = l ++ vs.
Proof.
  unfold splice, clampn. replace (Z.to_nat (Z.max 0 (Z.min (zlen l) (zlen l)))) with (length l) by (unfold zlen; lia).
  cbn zeta. rewrite Nat.min_id, Nat.max_id, take_ge, drop_ge, app_nil_r by lia. reflexivity.
Qed.
Lemma splice_at_start l vs : splice l 0 0 vs = vs ++ l.
Proof. unfold splice, clampn. replace (Z.to_nat (Z.max 0 (Z.min 0 (zlen l)))) with 0 by (unfold zlen; lia). reflexivity. Qed.
Lemma splice_one l i : is_i64 i -> i <> max_i64 -> splice l i (i64 (i + 1)) [] = delete_at l i.
Proof.
  intros Hi Hm. rewrite i64_id by (unfold is_i64, max_i64 in *; lia). unfold splice, delete_at, clampn, in_range.
  cbn zeta. destruct (Z.leb_spec 0 i), (Z.ltb_spec i (zlen l)); cbn [andb].
  - rewrite Nat.min_l, Nat.max_r by lia. cbn. f_equal; f_equal; lia.
  - rewrite Nat.min_l, Nat.max_r by lia. unfold zlen in *. rewrite take_ge, drop_ge by lia. rewrite !app_nil_r. reflexivity.
  - rewrite Nat.min_l, Nat.max_r by lia.
    replace (Z.to_nat (Z.max 0 (Z.min i (zlen l)))) with 0 by lia.
    replace (Z.to_nat (Z.max 0 (Z.min (i + 1) (zlen l)))) with 0 by lia. reflexivity.
  - unfold zlen in *. lia.
Qed.
Lemma x_delete_ok g m s i : wf m s -> is_i64 i -> i <> max_i64 ->
  exists m' t, x_delete zero g m s i = Ret (m', t) /\ became m s m' t (delete_at (contents m s) i).
Proof.
  intros W Hi Hm. destruct (x_splice_args_ok g m s i (i64 (i + 1)) [] W) as (m' & t & E & B).
  exists m', t. split; [exact E|]. rewrite <- splice_one by assumption. exact B.
Qed.
(** Delete(MaxInt64) deletes everything *)
Lemma x_delete_max g m s : wf m s -> (len s < 2^63)%Z ->
  exists m' t, x_delete zero g m s max_i64 = Ret (m', t) /\ became m s m' t [].
Proof.
  intros W Hl. destruct (x_splice_args_ok g m s max_i64 (i64 (max_i64 + 1)) [] W) as (m' & t & E & B).
  exists m', t. split; [exact E|]. replace (splice (contents m s) max_i64 (i64 (max_i64 + 1)) []) with (@nil A) in B; [exact B|].
  replace (i64 (max_i64 + 1)) with min_i64 by reflexivity. unfold splice, clampn.
  rewrite zlen_contents by exact W. pose proof (len_nonneg s). unfold min_i64, max_i64 in *.
  replace (Z.to_nat (Z.max 0 (Z.min (2 ^ 63 - 1) (len s)))) with (Z.to_nat (len s)) by lia.
  replace (Z.to_nat (Z.max 0 (Z.min (- 2 ^ 63) (len s)))) with 0 by lia.
  cbn zeta. rewrite Nat.min_0_r, Nat.max_0_r. rewrite drop_ge; [reflexivity|].
  rewrite contents_length by exact W. unfold len. lia.
Qed.

Lemma x_push_ok g m s x : wf m s ->
  exists m' t, x_push zero g m s x = Ret (m', t) /\ became m s m' t (contents m s ++ [x]).
Proof.
  intros W. destruct (x_splice_args_ok g m s (len s) (len s) [x] W) as (m' & t & E & B).
  exists m', t. split; [exact E|]. rewrite <- (zlen_contents m s W), splice_at_end in B. exact B.
Qed.
Lemma x_unshift_ok g m s x : wf m s ->
  exists m' t, x_unshift zero g m s x = Ret (m', t) /\ became m s m' t (x :: contents m s).
Proof.
  intros W. destruct (x_splice_args_ok g m s 0 0 [x] W) as (m' & t & E & B).
  exists m', t. split; [exact E|]. rewrite splice_at_start in B. exact B.
Qed.
Lemma len_lt_empty m s : wf m s -> len s = 0%Z -> contents m s = [].
Proof. intros W E. pose proof (contents_length m s W). unfold len in E. destruct (contents m s); [reflexivity|cbn in *; lia]. Qed.
Lemma x_pop_ok g m s : wf m s -> (len s < 2^63)%Z ->
  exists m' t, x_pop zero g m s = Ret (m', t, default zero (last (contents m s))) /\
    became m s m' t (take (length (contents m s) - 1) (contents m s)).
Proof.
  intros W Hl. unfold x_pop. pose proof (len_nonneg s). pose proof (contents_length m s W) as L.
  destruct (Z.eqb_spec (len s) 0) as [E|E].
  - exists m, s. pose proof (became_refl m s W) as B. rewrite (len_lt_empty m s W E) in *. split; [reflexivity|exact B].
  - destruct (sl_get_ok m s (len s - 1) W) as (x & Ex & Eg); [unfold len in *; lia|]. rewrite Eg. cbn [rbind].
    destruct (x_delete_ok g m s (len s - 1) W) as (m' & t & Ed & B); [unfold is_i64; lia|unfold max_i64; lia|].
    rewrite Ed. cbn [rbind]. exists m', t. split.
    + rewrite last_lookup. replace (Nat.pred (length (contents m s))) with (Z.to_nat (len s - 1)) by (unfold len; lia).
      rewrite Ex. reflexivity.
    + unfold delete_at, in_range in B. rewrite zlen_contents in B by exact W.
      destruct (Z.leb_spec 0 (len s - 1)); [|lia]. destruct (Z.ltb_spec (len s - 1) (len s)); [|lia]. cbn [andb] in B.
      rewrite (drop_ge (contents m s)) in B by (rewrite L; unfold len; lia). rewrite app_nil_r in B.
      replace (length (contents m s) - 1) with (Z.to_nat (len s - 1)) by (rewrite L; unfold len; lia). exact B.
Qed.
Lemma x_shift_ok g m s : wf m s ->
  exists m' t, x_shift zero g m s = Ret (m', t, default zero (head (contents m s))) /\
    became m s m' t (tail (contents m s)).
Proof.
  intros W. unfold x_shift. pose proof (len_nonneg s). pose proof (contents_length m s W) as L.
  destruct (Z.eqb_spec (len s) 0) as [E|E].
  - exists m, s. pose proof (became_refl m s W) as B. rewrite (len_lt_empty m s W E) in *. split; [reflexivity|exact B].
  - destruct (sl_get_ok m s 0 W) as (x & Ex & Eg); [unfold len in *; lia|]. rewrite Eg. cbn [rbind].
    destruct (x_delete_ok g m s 0 W) as (m' & t & Ed & B); [unfold is_i64; lia|unfold max_i64; lia|].
    rewrite Ed. cbn [rbind]. exists m', t. destruct (contents m s) as [|y l] eqn:EC; [discriminate|]. injection Ex as ->.
    split; [reflexivity|]. unfold delete_at, in_range in B. replace (zlen (x :: l)) with (len s) in B by (rewrite <- EC, zlen_contents by exact W; reflexivity).
    destruct (Z.ltb_spec 0 (len s)); [|lia]. exact B.
Qed.
Lemma x_delete_replace_ok m s i : wf m s -> (i < len s)%Z -> (0 < len s)%Z ->
  exists m' t, x_delete_replace m s i = Ret (m', t) /\
    became m s m' t (take (length (contents m s) - 1)
      (<[Z.to_nat i := default zero (last (contents m s))]> (contents m s))).
Proof.
  intros W Hi H0. unfold x_delete_replace. rewrite preproc1_spec by lia. pose proof (contents_length m s W) as L.
  destruct (sl_get_ok m s (len s - 1) W) as (x & Ex & Eg); [unfold len in *; lia|]. rewrite Eg. cbn [rbind].
  destruct (set_became m s (Z.max 0 (Z.min i (len s))) x W) as (m1 & E1 & B1); [lia|]. rewrite E1. cbn [rbind].
  destruct B1 as (W1 & EC1 & L1). destruct (sub_became m1 s 0 (len s - 1) W1) as (t & E2 & B2 & _); [lia|lia|].
  rewrite E2. cbn [rbind]. exists m1, t. split; [reflexivity|]. rewrite last_lookup.
  replace (Nat.pred (length (contents m s))) with (Z.to_nat (len s - 1)) by (unfold len; lia). rewrite Ex. cbn [default id from_option].
  rewrite EC1 in B2. rewrite drop_0 in B2. replace (Z.to_nat (Z.max 0 (Z.min i (len s)))) with (Z.to_nat i) in B2 by lia.
  replace (Z.to_nat (len s - 1 - 0)) with (length (contents m s) - 1) in B2 by (rewrite L; unfold len; lia).
  destruct B2 as (W2 & EC2 & L2). split; [exact W2|]. split; [exact EC2|]. eapply local_trans; eauto.
Qed.
Lemma x_delete_replace_panics m s i : wf m s -> (len s <= i)%Z \/ len s = 0%Z -> x_delete_replace m s i = Panic.
Proof.
  intros W H. unfold x_delete_replace. pose proof (len_nonneg s). rewrite preproc1_spec by lia.
  destruct (decide (len s = 0%Z)) as [E|E].
  - unfold sl_get. rewrite E. reflexivity.
  - destruct (sl_get_ok m s (len s - 1) W) as (x & Ex & Eg); [unfold len in *; lia|]. rewrite Eg. cbn [rbind].
    unfold sl_set. replace (Z.max 0 (Z.min i (len s))) with (len s) by lia. unfold len. rewrite Z.ltb_irrefl, andb_false_r. reflexivity.
Qed.
End SliceProofs.
