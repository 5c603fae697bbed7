(** Proofs about SliceReModel: callbacks that use the slice *)
From Verif Require Import Base SeqSpec GoSlice SliceSpec SliceModel SliceProofs SliceProofs2 SliceHistory SliceReModel.

Section P.
Context {A : Type} (zero : A) (maxlen : Z).
Notation mem := (list (list A)).
Implicit Types (m : mem) (s t h : slice) (l xs : list A).

(** h is an older header of the slice whose header is now s *)
Definition tied h s : Prop :=
  sl_len h <= sl_len s /\
  ((sl_arr h = sl_arr s /\ sl_off h = sl_off s /\ sl_cap h = sl_cap s) \/
   sl_cap s = 0 \/ sl_cap h = 0 \/ sl_arr h <> sl_arr s).
Lemma tied_refl s : tied s s.
Proof. split; auto. Qed.

Lemma append_tied g m s h xs : wf m s -> wf m h -> tied h s ->
  let '(m', t) := append zero g m s xs in
  wf m' t /\ contents m' t = contents m s ++ xs /\ wf m' h /\ contents m' h = contents m h /\ tied h t.
Proof.
  intros Ws Wh [Hl Ht]. pose proof (append_wf zero g m s xs Ws) as W. pose proof (append_contents zero g m s xs Ws) as C.
  pose proof (local_append zero g m s xs) as L. pose proof (append_keeps zero g m s xs Ws) as [K Kw].
  assert (Hh : wf (append zero g m s xs).1 h /\ contents (append zero g m s xs).1 h = contents m h).
  { destruct Ht as [(Ea & Eo & Ec)|Ht]; [|apply (local_other m s _ _ h L Wh); destruct Ht as [|[|]]; auto].
    destruct h as [a o n c], s as [a' o' n' c']. cbn in *. subst a' o' c'. destruct Wh as [Wh1 Wh2], Kw as [Kw1 Kw2]. cbn in *.
    split; [split; assumption|]. unfold contents in *. cbn in *. change (window (append zero g m (Sl a o n' c) xs).1 (Sl a o n c)) with (window (append zero g m (Sl a o n' c) xs).1 (Sl a o n' c)).
    change (window m (Sl a o n c)) with (window m (Sl a o n' c)).
    replace n with (n `min` n') by lia. rewrite <- !take_take, K. reflexivity. }
  assert (Htt : tied h (append zero g m s xs).2).
  { destruct (wf_old m h Wh) as [H0|H0].
    - split; [|auto]. unfold append. destruct (_ <=? _)%nat; cbn; lia.
    - unfold append. destruct (Nat.leb_spec (sl_len s + length xs) (sl_cap s)) as [H|H]; split; cbn; lia. }
  destruct (append zero g m s xs) as [m' t]. cbn [fst snd] in *. tauto.
Qed.

Lemma grown_tied m m1 s : grown m m1 -> wf m s -> wf m1 s /\ contents m1 s = contents m s.
Proof. apply grown_wf. Qed.

(** Push is an append to the receiver itself *)
Lemma push_append g m s x : wf m s ->
  exists m1, grown m m1 /\ x_push zero g m s x = Ret (append zero g.2 m1 s [x]).
Proof.
  intros W. unfold x_push, x_insert, x_expand, x_splice_args.
  pose proof (alloc_wf m [x]) as (Wv & Ev & _). pose proof (grown_alloc m [x]) as G.
  assert (Hc : sl_len (alloc m [x]).2 + 0 <= sl_cap (alloc m [x]).2) by (cbn; lia).
  destruct (alloc m [x]) as [m0 v]. cbn [fst snd] in *.
  unfold x_splice. rewrite preproc2_spec by apply len_nonneg.
  pose proof (len_nonneg s). replace (Z.max 0 (Z.min (len s) (len s))) with (len s) by lia.
  rewrite Z.min_id, Z.max_id.
  assert (E1 : sl_sub s 0 (len s) = Ret s).
  { unfold sl_sub. destruct W as [W1 _]. unfold len.
    assert (E : ((0 <=? 0) && (0 <=? Z.of_nat (sl_len s)) && (Z.of_nat (sl_len s) <=? Z.of_nat (sl_cap s)))%Z = true).
    { rewrite !andb_true_iff, !Z.leb_le. lia. }
    rewrite E. f_equal. destruct s as [a o n c]. cbn. f_equal; lia. }
  rewrite E1. cbn [rbind].
  destruct (sl_sub_ok m0 s (len s) (len s)) as (back & E2 & _ & _ & _ & _ & _ & _ & EB).
  { apply (grown_wf _ _ _ G W). } { lia. } { unfold len. lia. }
  rewrite E2. cbn [rbind]. rewrite Z.sub_diag in EB. cbn [Z.to_nat] in EB. rewrite take_0 in EB. rewrite EB.
  pose proof (append_contents zero g.1 m0 v [] Wv) as EC.
  pose proof (append_grown zero g.1 m0 v [] (or_intror eq_refl)) as G2.
  destruct (append zero g.1 m0 v []) as [m1 w]. cbn [fst snd] in *. rewrite Ev, app_nil_r in EC. rewrite EC.
  exists m1. split; [eapply grown_trans; eauto|reflexivity].
Qed.

Lemma grow_step m s h c o : wf m s -> wf m h -> tied h s -> (0 <= maxlen)%Z -> grow_op o ->
  match slice_spec zero maxlen (contents m s) o with
  | Ret (l', r) => exists m' t, x_step zero maxlen (m, s) (c, o) = Ret ((m', t), r) /\
      wf m' t /\ contents m' t = l' /\ wf m' h /\ contents m' h = contents m h /\ tied h t
  | Panic => x_step zero maxlen (m, s) (c, o) = Panic
  | Spin => False
  end.
Proof.
  intros Ws Wh Ht Hx Ho. destruct o; try contradiction; cbn [slice_spec x_step fst snd].
  - destruct (Z.ltb_spec maxlen n) as [Hn|Hn].
    + rewrite x_extend_panics by assumption. reflexivity.
    + unfold x_extend. assert (E : preproc1 n n = Z.max 0 n) by (unfold preproc1; destruct (Z.ltb_spec n 0), (Z.ltb_spec n n); lia).
      rewrite E. destruct (Z.ltb_spec maxlen (Z.max 0 n)); [lia|]. replace (Z.to_nat (Z.max 0 n)) with (Z.to_nat n) by lia.
      pose proof (append_tied (c 0) m s h (replicate (Z.to_nat n) zero) Ws Wh Ht) as H'.
      destruct (append zero (c 0) m s (replicate (Z.to_nat n) zero)) as [m' t]. cbn [rbind]. exists m', t. tauto.
  - rewrite x_get_ok by exact Ws. cbn [rbind]. exists m, s. tauto.
  - destruct (push_append (c 0, c 1) m s x Ws) as (m1 & G & ->). cbn [snd].
    destruct (grown_wf _ _ _ G Ws) as [W1 C1]. destruct (grown_wf _ _ _ G Wh) as [W2 C2].
    pose proof (append_tied (c 1) m1 s h [x] W1 W2 Ht) as H'.
    destruct (append zero (c 1) m1 s [x]) as [m' t]. cbn [rbind]. exists m', t. rewrite <- C1, <- C2. tauto.
  - exists m, s. split; [unfold x_len; rewrite (zlen_contents m s Ws); reflexivity|tauto].
Qed.

Lemma grow_prog {R} (p : sprog A R) : (0 <= maxlen)%Z -> forall m s h, calls_only grow_op p ->
  wf m s -> wf m h -> tied h s ->
  match run_spec zero maxlen p (contents m s) with
  | Ret (l', r) => exists m' t, run_prog zero maxlen p m s = Ret (m', t, r) /\
      wf m' t /\ contents m' t = l' /\ wf m' h /\ contents m' h = contents m h /\ tied h t
  | Panic => run_prog zero maxlen p m s = Panic
  | Spin => False
  end.
Proof.
  intros Hx. induction p as [r|c o k IH]; intros m s h Hc Ws Wh Ht; cbn [run_spec run_prog].
  - exists m, s. tauto.
  - destruct Hc as [Ho Hk]. pose proof (grow_step m s h c o Ws Wh Ht Hx Ho) as H1.
    destruct (slice_spec zero maxlen (contents m s) o) as [[l' r]| |]; cbn [rbind]; [|rewrite H1; reflexivity|contradiction].
    destruct H1 as (m1 & t1 & -> & W1 & C1 & W2 & C2 & T1). cbn [rbind fst snd]. rewrite <- C1.
    specialize (IH r m1 t1 h (Hk r) W1 W2 T1).
    destruct (run_spec zero maxlen (k r) (contents m1 t1)) as [[l2 r2]| |]; [|exact IH|exact IH].
    destruct IH as (m2 & t2 & -> & IH). exists m2, t2. rewrite <- C2. tauto.
Qed.

(** such calls only add at the end *)
Lemma grow_prefix {R} (p : sprog A R) : forall l l' r, calls_only grow_op p ->
  run_spec zero maxlen p l = Ret (l', r) -> exists ys, l' = l ++ ys.
Proof.
  induction p as [r0|c o k IH]; intros l l' r Hc E; cbn [run_spec] in E.
  - injection E as <- <-. exists []. rewrite app_nil_r. reflexivity.
  - destruct Hc as [Ho Hk]. destruct (slice_spec zero maxlen l o) as [[l1 r1]| |] eqn:E1; [|discriminate|discriminate].
    cbn [rbind] in E. destruct (IH r1 l1 l' r (Hk r1) E) as [ys ->].
    destruct o; try contradiction; cbn [slice_spec] in E1.
    + destruct (maxlen <? n)%Z; [discriminate|]. injection E1 as <- <-. rewrite <- app_assoc. eauto.
    + injection E1 as <- <-. eauto.
    + injection E1 as <- <-. rewrite <- app_assoc. eauto.
    + injection E1 as <- <-. eauto.
Qed.

Lemma sl_get_at m h i x xs : wf m h -> drop i (contents m h) = x :: xs -> sl_get m h (Z.of_nat i) = Ret x.
Proof.
  intros W E. assert (Hi : contents m h !! i = Some x) by (rewrite <- (Nat.add_0_r i), <- lookup_drop, E; reflexivity).
  pose proof (lookup_lt_Some _ _ _ Hi) as Hl. rewrite contents_length in Hl by exact W.
  destruct (sl_get_ok m h (Z.of_nat i) W) as (y & Ey & ->); [lia|]. rewrite Nat2Z.id in Ey. congruence.
Qed.
Lemma drop_S_cons i l x xs : drop i l = x :: xs -> drop (S i) l = xs.
Proof. intros E. rewrite <- Nat.add_1_r, <- drop_drop, E. reflexivity. Qed.

Lemma each_grow {B} (f : B -> Z -> A -> sprog A B) : (0 <= maxlen)%Z -> (forall b i x, calls_only grow_op (f b i x)) ->
  forall xs m s h i b, wf m s -> wf m h -> tied h s -> drop i (contents m h) = xs ->
  match each_spec zero maxlen f xs (contents m s) (Z.of_nat i) b with
  | Ret (l', b') => exists m' t, each_prog zero maxlen f (length xs) m s h (Z.of_nat i) b = Ret (m', t, b') /\
      wf m' t /\ contents m' t = l' /\ wf m' h /\ contents m' h = contents m h /\ tied h t
  | Panic => each_prog zero maxlen f (length xs) m s h (Z.of_nat i) b = Panic
  | Spin => False
  end.
Proof.
  intros Hx Hf xs. induction xs as [|x xs IH]; intros m s h i b Ws Wh Ht Ed; cbn [each_spec each_prog length].
  - exists m, s. tauto.
  - rewrite (sl_get_at m h i x xs Wh Ed). cbn [rbind].
    pose proof (grow_prog (f b (Z.of_nat i) x) Hx m s h (Hf _ _ _) Ws Wh Ht) as H1.
    destruct (run_spec zero maxlen (f b (Z.of_nat i) x) (contents m s)) as [[l1 b1]| |]; cbn [rbind]; [|rewrite H1; reflexivity|contradiction].
    destruct H1 as (m1 & t1 & -> & W1 & C1 & W2 & C2 & T1). cbn [rbind]. rewrite <- C1.
    replace (Z.of_nat i + 1)%Z with (Z.of_nat (S i)) by lia.
    specialize (IH m1 t1 h (S i) b1 W1 W2 T1). rewrite C2 in IH. specialize (IH (drop_S_cons _ _ _ _ Ed)).
    destruct (each_spec zero maxlen f xs (contents m1 t1) (Z.of_nat (S i)) b1) as [[l2 b2]| |]; [|exact IH|exact IH].
    exact IH.
Qed.

Lemma index_grow {B} (f : B -> A -> sprog A (B * bool)) : (0 <= maxlen)%Z -> (forall b x, calls_only grow_op (f b x)) ->
  forall xs m s h i b, wf m s -> wf m h -> tied h s -> drop i (contents m h) = xs ->
  match index_spec zero maxlen f xs (contents m s) (Z.of_nat i) b with
  | Ret (l', b', j) => exists m' t, index_prog zero maxlen f (length xs) m s h (Z.of_nat i) b = Ret (m', t, b', j) /\
      wf m' t /\ contents m' t = l'
  | Panic => index_prog zero maxlen f (length xs) m s h (Z.of_nat i) b = Panic
  | Spin => False
  end.
Proof.
  intros Hx Hf xs. induction xs as [|x xs IH]; intros m s h i b Ws Wh Ht Ed; cbn [index_spec index_prog length].
  - exists m, s. tauto.
  - rewrite (sl_get_at m h i x xs Wh Ed). cbn [rbind].
    pose proof (grow_prog (f b x) Hx m s h (Hf _ _) Ws Wh Ht) as H1.
    destruct (run_spec zero maxlen (f b x) (contents m s)) as [[l1 [b1 y]]| |]; cbn [rbind]; [|rewrite H1; reflexivity|contradiction].
    destruct H1 as (m1 & t1 & -> & W1 & C1 & W2 & C2 & T1). cbn [rbind]. destruct y; [exists m1, t1; tauto|]. rewrite <- C1.
    replace (Z.of_nat i + 1)%Z with (Z.of_nat (S i)) by lia.
    specialize (IH m1 t1 h (S i) b1 W1 W2 T1). rewrite C2 in IH. exact (IH (drop_S_cons _ _ _ _ Ed)).
Qed.

(** a write through the current header, seen through the older one *)
Lemma set_tied m s h n x : wf m s -> wf m h -> tied h s -> n < sl_len s ->
  exists m', sl_set m s (Z.of_nat n) x = Ret m' /\ wf m' s /\ contents m' s = <[n := x]> (contents m s) /\
    wf m' h /\ drop (S n) (contents m' h) = drop (S n) (contents m h).
Proof.
  intros Ws Wh [Hl Ht] Hn. destruct (set_became m s (Z.of_nat n) x Ws) as (m' & E & W' & C' & L); [unfold len; lia|].
  rewrite Nat2Z.id in C'. exists m'. split; [exact E|]. split; [exact W'|]. split; [exact C'|].
  destruct Ht as [(Ea & Eo & Ec)|Ht].
  2:{ destruct (local_other m s m' s h L Wh) as [Wh' ->]; [destruct Ht as [|[|]]; auto|]. auto. }
  assert (EW : forall mm : mem, window mm h = window mm s) by (intros mm; unfold window; rewrite Ea, Eo, Ec; reflexivity).
  assert (EC : forall mm : mem, contents mm h = take (sl_len h) (contents mm s)).
  { intros mm. unfold contents. rewrite EW, take_take. f_equal. lia. }
  split; [split; [destruct Wh; assumption|rewrite EW, Ec; destruct W'; assumption]|].
  rewrite !EC, C'. rewrite !skipn_firstn_comm, drop_insert_gt by lia. reflexivity.
Qed.

Lemma filter_grow {B} (f : B -> A -> sprog A (B * bool)) : (0 <= maxlen)%Z -> (forall b x, calls_only grow_op (f b x)) ->
  forall xs m s h i kept b, wf m s -> wf m h -> tied h s -> drop i (contents m h) = xs -> i + length xs = sl_len h ->
  length kept <= i -> take (length kept) (contents m s) = kept ->
  match filter_spec zero maxlen f xs (contents m s) kept b with
  | Ret (l', b') => exists m' t, filter_prog zero maxlen f (length xs) m s h (Z.of_nat i) (Z.of_nat (length kept)) b = Ret (m', t, b', zlen l') /\
      wf m' t /\ take (length l') (contents m' t) = l'
  | Panic => filter_prog zero maxlen f (length xs) m s h (Z.of_nat i) (Z.of_nat (length kept)) b = Panic
  | Spin => False
  end.
Proof.
  intros Hx Hf xs. induction xs as [|x xs IH]; intros m s h i kept b Ws Wh Ht Ed Hi Hk Ek; cbn [filter_spec filter_prog length].
  - exists m, s. auto.
  - rewrite (sl_get_at m h i x xs Wh Ed). cbn [rbind].
    pose proof (grow_prog (f b x) Hx m s h (Hf _ _) Ws Wh Ht) as H1. pose proof (grow_prefix (f b x) (contents m s)) as HP.
    destruct (run_spec zero maxlen (f b x) (contents m s)) as [[l1 [b1 y]]| |]; cbn [rbind]; [|rewrite H1; reflexivity|contradiction].
    destruct H1 as (m1 & t1 & -> & W1 & C1 & W2 & C2 & T1). cbn [rbind].
    destruct (HP l1 (b1, y) (Hf _ _) eq_refl) as [ys Hys]. rewrite <- C1 in Hys.
    assert (Ht1 : take (length kept) (contents m1 t1) = kept).
    { rewrite Hys, take_app_le; [exact Ek|]. rewrite contents_length by exact Ws. destruct Ht. cbn in Hi. lia. }
    replace (Z.of_nat i + 1)%Z with (Z.of_nat (S i)) by lia. rewrite <- C1. pose proof (drop_S_cons _ _ _ _ Ed) as Ed'.
    cbn [length] in Hi.
    destruct y.
    + assert (Hn : length kept < sl_len t1) by (destruct T1; lia).
      destruct (set_tied m1 t1 h (length kept) x W1 W2 T1 Hn) as (m2 & -> & W3 & C3 & W4 & D4). cbn [rbind].
      replace (Z.of_nat (length kept) + 1)%Z with (Z.of_nat (length (kept ++ [x]))) by (rewrite app_length; cbn; lia).
      specialize (IH m2 t1 h (S i) (kept ++ [x]) b1 W3 W4 T1). rewrite C3 in IH. apply IH.
      * replace (S i) with (S (length kept) + (i - length kept)) by lia.
        rewrite <- drop_drop, D4, drop_drop, C2. replace (S (length kept) + (i - length kept)) with (S i) by lia. exact Ed'.
      * lia.
      * rewrite app_length. cbn. lia.
      * rewrite app_length. cbn [length]. rewrite Nat.add_1_r.
        erewrite take_S_r by (apply list_lookup_insert; rewrite contents_length by exact W1; exact Hn).
        rewrite take_insert by lia. congruence.
    + apply (IH m1 t1 h (S i) kept b1 W1 W2 T1); [rewrite C2; exact Ed'|lia|lia|exact Ht1].
Qed.

(** *** in place *)
Lemma inplace_step m s c o : wf m s -> inplace_op o ->
  match slice_spec zero maxlen (contents m s) o with
  | Ret (l', r) => exists m', x_step zero maxlen (m, s) (c, o) = Ret ((m', s), r) /\ wf m' s /\ contents m' s = l'
  | _ => False
  end.
Proof.
  intros Ws Ho. destruct o; try contradiction; cbn [slice_spec x_step fst snd].
  - destruct (x_set_ok m s i x Ws) as (m' & -> & W & C & _). eauto.
  - rewrite x_get_ok by exact Ws. eauto.
  - destruct (x_reverse_ok m s Ws) as (m' & -> & W & C & _). eauto.
  - destruct (x_shuffle_ok js m s Ws) as (m' & -> & W & C & _). eauto.
  - exists m. unfold x_len. rewrite (zlen_contents m s Ws). auto.
Qed.
Lemma inplace_prog {R} (p : sprog A R) : forall m s, calls_only inplace_op p -> wf m s ->
  match run_spec zero maxlen p (contents m s) with
  | Ret (l', r) => exists m', run_prog zero maxlen p m s = Ret (m', s, r) /\ wf m' s /\ contents m' s = l'
  | _ => False
  end.
Proof.
  induction p as [r|c o k IH]; intros m s Hc Ws; cbn [run_spec run_prog].
  - eauto.
  - destruct Hc as [Ho Hk]. pose proof (inplace_step m s c o Ws Ho) as H1.
    destruct (slice_spec zero maxlen (contents m s) o) as [[l' r]| |]; [|contradiction|contradiction].
    destruct H1 as (m1 & -> & W1 & C1). cbn [rbind fst snd]. rewrite <- C1. exact (IH r m1 s (Hk r) W1).
Qed.
Lemma each_inplace {B} (f : B -> Z -> A -> sprog A B) : (forall b i x, calls_only inplace_op (f b i x)) ->
  forall k m s i b, wf m s -> i + k = sl_len s ->
  match each_live zero maxlen f k i (contents m s) b with
  | Ret (l', b') => exists m', each_prog zero maxlen f k m s s (Z.of_nat i) b = Ret (m', s, b') /\ wf m' s /\ contents m' s = l'
  | _ => False
  end.
Proof.
  intros Hf k. induction k as [|k IH]; intros m s i b Ws Hi; cbn [each_live each_prog].
  - eauto.
  - destruct (sl_get_ok m s (Z.of_nat i) Ws) as (x & Ex & ->); [lia|]. rewrite Nat2Z.id in Ex. rewrite Ex. cbn [rbind deref].
    pose proof (inplace_prog (f b (Z.of_nat i) x) m s (Hf _ _ _) Ws) as H1.
    destruct (run_spec zero maxlen (f b (Z.of_nat i) x) (contents m s)) as [[l1 b1]| |]; [|contradiction|contradiction].
    destruct H1 as (m1 & -> & W1 & C1). cbn [rbind]. rewrite <- C1.
    replace (Z.of_nat i + 1)%Z with (Z.of_nat (S i)) by lia. apply IH; [exact W1|lia].
Qed.
End P.
