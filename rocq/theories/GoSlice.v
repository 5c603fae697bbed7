(** Memory model of Go slices (language specification: slice types, slice
    expressions, append, copy, make): arrays in a memory, a slice is a view of
    one of them.  [nil] is any view of capacity 0. *)
From Verif Require Import Base.

(** the header of a slice; slicex.go 8, stackx.go 7-9, listx.go 7 *)
Record slice := Sl { sl_arr : nat; sl_off : nat; sl_len : nat; sl_cap : nat }.
(** the zero value of slicex.go 8 *)
Definition nil_slice : slice := Sl 0 0 0 0.

Section GoSlice.
Context {A : Type} (zero : A).

(** all the arrays ever allocated *)
Notation mem := (list (list A)).
Implicit Types (m : mem) (s t : slice) (xs : list A).

(** an array; slicex.go 8 *)
Definition arr m (a : nat) : list A := default [] (m !! a).
(** everything reachable through the slice, up to its capacity; slicex.go 8 *)
Definition window m s : list A := take (sl_cap s) (drop (sl_off s) (arr m (sl_arr s))).
(** what is read through the slice; slicex.go 8 *)
Definition contents m s : list A := take (sl_len s) (window m s).

(** a slice whose view lies inside its array; slicex.go 8 *)
Definition wf m s : Prop := sl_len s <= sl_cap s /\ length (window m s) = sl_cap s.

(** *** Operations; an assignment to some cells, slicex.go 37, 61 *)
Definition write m (a o : nat) xs : mem :=
  <[a := take o (arr m a) ++ xs ++ drop (o + length xs) (arr m a)]> m.

(** s[i]; slicex.go 46 *)
Definition sl_get m s (i : Z) : res A :=
  if ((0 <=? i) && (i <? Z.of_nat (sl_len s)))%Z then deref (contents m s !! Z.to_nat i) else Panic.
(** s[i] = x; slicex.go 37 *)
Definition sl_set m s (i : Z) (x : A) : res mem :=
  if ((0 <=? i) && (i <? Z.of_nat (sl_len s)))%Z
  then Ret (write m (sl_arr s) (sl_off s + Z.to_nat i) [x]) else Panic.
(** s[i:j]; slicex.go 55 *)
Definition sl_sub s (i j : Z) : res slice :=
  if ((0 <=? i) && (i <=? j) && (j <=? Z.of_nat (sl_cap s)))%Z
  then Ret (Sl (sl_arr s) (sl_off s + Z.to_nat i) (Z.to_nat (j - i)) (sl_cap s - Z.to_nat i))
  else Panic.
(** append(s, xs...), where xs is read before anything is written; when the
    capacity does not suffice the runtime picks a new capacity: [g] spare cells;
    slicex.go 17, 61 *)
Definition append (g : nat) m s xs : mem * slice :=
  if (sl_len s + length xs <=? sl_cap s)%nat
  then (write m (sl_arr s) (sl_off s + sl_len s) xs,
        Sl (sl_arr s) (sl_off s) (sl_len s + length xs) (sl_cap s))
  else (m ++ [contents m s ++ xs ++ replicate g zero],
        Sl (length m) 0 (sl_len s + length xs) (sl_len s + length xs + g)).
(** copy(dst, src) listx.go 15 *)
Definition sl_copy m (dst src : slice) : mem :=
  write m (sl_arr dst) (sl_off dst) (take (sl_len dst) (contents m src)).
(** a fresh array with exactly these elements: []T{xs...}, or a variadic call; slicex.go 11, 66 *)
Definition alloc m xs : mem * slice := (m ++ [xs], Sl (length m) 0 (length xs) (length xs)).

(** *** Laws *)
Lemma arr_write_eq m a o xs : a < length m ->
  arr (write m a o xs) a = take o (arr m a) ++ xs ++ drop (o + length xs) (arr m a).
Proof. intros H. unfold arr at 1, write. rewrite list_lookup_insert by exact H. reflexivity. Qed.
Lemma arr_write_ne m a b o xs : a <> b -> arr (write m a o xs) b = arr m b.
Proof. intros H. unfold arr, write. rewrite list_lookup_insert_ne by exact H. reflexivity. Qed.
Lemma write_length m a o xs : length (write m a o xs) = length m.
Proof. unfold write. apply insert_length. Qed.
Lemma arr_app_old m l b : b < length m -> arr (m ++ l) b = arr m b.
Proof. intros H. unfold arr. rewrite lookup_app_l by exact H. reflexivity. Qed.
Lemma arr_app_new m x : arr (m ++ [x]) (length m) = x.
Proof. unfold arr. rewrite lookup_app_r, Nat.sub_diag by lia. reflexivity. Qed.

Lemma wf_arr m s : wf m s -> 0 < sl_cap s -> sl_arr s < length m.
Proof.
  intros [_ H] Hc. unfold window, arr in H. destruct (m !! sl_arr s) eqn:E; [apply lookup_lt_Some in E; exact E|].
  cbn in H. rewrite drop_nil, take_nil in H. cbn in H. lia.
Qed.
Lemma contents_length m s : wf m s -> length (contents m s) = sl_len s.
Proof. intros [H1 H2]. unfold contents. rewrite take_length. lia. Qed.
Lemma window_bound m s : wf m s -> sl_cap s = 0 \/ sl_off s + sl_cap s <= length (arr m (sl_arr s)).
Proof. intros [_ H]. unfold window in H. rewrite take_length, drop_length in H. lia. Qed.
Lemma window_split m s : wf m s -> 0 < sl_cap s ->
  exists P Q, arr m (sl_arr s) = P ++ window m s ++ Q /\ length P = sl_off s.
Proof.
  intros W Hc. destruct (window_bound m s W) as [|Hb]; [lia|].
  exists (take (sl_off s) (arr m (sl_arr s))), (drop (sl_cap s) (drop (sl_off s) (arr m (sl_arr s)))).
  split; [unfold window; rewrite !take_drop; reflexivity|]. rewrite take_length. lia.
Qed.
Lemma contents_prefix m s : exists r, window m s = contents m s ++ r.
Proof. exists (drop (sl_len s) (window m s)). unfold contents. rewrite take_drop. reflexivity. Qed.

Lemma window_write m s k xs : wf m s -> k + length xs <= sl_cap s ->
  window (write m (sl_arr s) (sl_off s + k) xs) s
  = take k (window m s) ++ xs ++ drop (k + length xs) (window m s).
Proof.
  intros W Hk. destruct (decide (sl_cap s = 0)) as [Hc|Hc].
  - assert (length (window m s) = 0) by (destruct W; lia).
    destruct (window m s); [|discriminate]. destruct xs; [|cbn in Hk; lia].
    unfold window. rewrite Hc. rewrite take_nil, drop_nil. reflexivity.
  - destruct (window_split m s W ltac:(lia)) as (P & Q & E & HP).
    pose proof (wf_arr m s W ltac:(lia)) as Ha. destruct W as [_ HW].
    unfold window at 1. rewrite arr_write_eq by exact Ha. rewrite E.
    rewrite (take_app_ge P) by lia. replace (sl_off s + k - length P) with k by lia.
    rewrite (take_app_le (window m s) Q) by lia.
    rewrite (drop_app_ge P) by lia. replace (sl_off s + k + length xs - length P) with (k + length xs) by lia.
    rewrite (drop_app_le (window m s) Q) by lia.
    rewrite <- app_assoc, drop_app_alt by lia.
    rewrite !app_assoc. apply take_app_alt. rewrite !app_length, take_length, drop_length. lia.
Qed.
Lemma write_wf m s k xs t : wf m s -> k + length xs <= sl_cap s -> wf m t -> wf (write m (sl_arr s) (sl_off s + k) xs) t.
Proof.
  intros W Hk [T1 T2]. split; [exact T1|]. rewrite <- T2. unfold window. rewrite !take_length, !drop_length. f_equal. f_equal.
  destruct (decide (sl_arr s = sl_arr t)) as [<-|Hne]; [|rewrite arr_write_ne by exact Hne; reflexivity].
  destruct (decide (sl_arr s < length m)) as [Ha|Ha].
  - rewrite arr_write_eq by exact Ha. rewrite !app_length, take_length, drop_length.
    destruct (window_bound m s W); [|lia]. assert (length xs = 0) by lia. lia.
  - unfold write. rewrite list_insert_ge by lia. reflexivity.
Qed.

(** writing inside a slice *)
Lemma contents_write m s k xs : wf m s -> k + length xs <= sl_len s ->
  contents (write m (sl_arr s) (sl_off s + k) xs) s
  = take k (contents m s) ++ xs ++ drop (k + length xs) (contents m s).
Proof.
  intros W Hk. pose proof W as [W1 W2]. unfold contents. rewrite window_write by (auto; lia).
  rewrite take_app_ge by (rewrite take_length; lia). rewrite take_take, take_length.
  replace (k `min` sl_len s) with k by lia. f_equal.
  rewrite take_app_ge by lia. f_equal. rewrite take_drop_commute. f_equal. f_equal. lia.
Qed.

(** append *)
Lemma append_wf g m s xs : wf m s -> wf (append g m s xs).1 (append g m s xs).2.
Proof.
  intros W. unfold append. destruct (Nat.leb_spec (sl_len s + length xs) (sl_cap s)) as [H|H]; cbn [fst snd].
  - pose proof (write_wf m s (sl_len s) xs s W H W) as [_ W2]. split; cbn; [lia|exact W2].
  - split; cbn; [lia|]. unfold window. cbn [sl_cap sl_off sl_arr]. rewrite arr_app_new, drop_0.
    rewrite take_length, !app_length, replicate_length, (contents_length m s W). lia.
Qed.
Lemma append_contents g m s xs : wf m s -> contents (append g m s xs).1 (append g m s xs).2 = contents m s ++ xs.
Proof.
  intros W. unfold append. destruct (Nat.leb_spec (sl_len s + length xs) (sl_cap s)) as [H|H]; cbn [fst snd].
  - unfold contents. cbn [sl_len].
    transitivity (take (sl_len s + length xs) (window (write m (sl_arr s) (sl_off s + sl_len s) xs) s)); [reflexivity|].
    rewrite window_write by auto. rewrite app_assoc. apply take_app_alt.
    rewrite app_length, take_length. destruct W. lia.
  - unfold contents at 1, window. cbn [sl_cap sl_off sl_arr sl_len]. rewrite arr_app_new, drop_0.
    rewrite take_take. rewrite app_assoc. apply take_app_alt.
    rewrite app_length, (contents_length m s W). lia.
Qed.

(** append never changes what is read through its first argument *)
Lemma append_keeps g m s xs : wf m s -> contents (append g m s xs).1 s = contents m s /\ wf (append g m s xs).1 s.
Proof.
  intros W. pose proof W as [W1 W2]. unfold append. destruct (Nat.leb_spec (sl_len s + length xs) (sl_cap s)) as [H|H]; cbn [fst].
  - split; [|apply write_wf; assumption]. unfold contents. rewrite window_write by assumption.
    rewrite take_app_le by (rewrite take_length; lia). rewrite take_take. f_equal. lia.
  - assert (E : window (m ++ [contents m s ++ xs ++ replicate g zero]) s = window m s).
    { unfold window. destruct (decide (sl_cap s = 0)) as [->|Hc]; [reflexivity|].
      rewrite arr_app_old; [reflexivity|]. apply wf_arr; [exact W|lia]. }
    unfold contents, wf in *. rewrite E. auto.
Qed.

(** frame: which arrays change; of the calls of slicex.go 10-243 *)
Definition frame m m' (a : nat) : Prop :=
  length m <= length m' /\ forall b, b < length m -> b <> a -> arr m' b = arr m b.
Lemma frame_refl m a : frame m m a.
Proof. split; [lia|auto]. Qed.
Lemma frame_trans m1 m2 m3 a : frame m1 m2 a -> frame m2 m3 a -> frame m1 m3 a.
Proof. intros [L1 F1] [L2 F2]. split; [lia|]. intros b Hb Hn. rewrite F2 by (auto; lia). auto. Qed.
Lemma write_frame m a o xs : frame m (write m a o xs) a.
Proof. split; [rewrite write_length; lia|]. intros b _ Hn. apply arr_write_ne. auto. Qed.
Lemma append_frame g m s xs : frame m (append g m s xs).1 (sl_arr s).
Proof.
  unfold append. destruct (sl_len s + length xs <=? sl_cap s)%nat; cbn [fst]; [apply write_frame|].
  split; [rewrite app_length; lia|]. intros b Hb _. apply arr_app_old. exact Hb.
Qed.
(** where the result of an append lives: the same array, or a new one *)
Lemma append_arr g m s xs : sl_arr (append g m s xs).2 = sl_arr s \/ length m <= sl_arr (append g m s xs).2.
Proof. unfold append. destruct (sl_len s + length xs <=? sl_cap s)%nat; cbn; auto. Qed.
Lemma frame_contents m m' a t : frame m m' a -> wf m t -> sl_arr t <> a -> contents m' t = contents m t /\ wf m' t.
Proof.
  intros [L F] W Hn. assert (E : window m' t = window m t).
  { unfold window. destruct (decide (sl_cap t = 0)) as [->|Hc]; [reflexivity|].
    rewrite F; [reflexivity|apply wf_arr; [exact W|lia]|exact Hn]. }
  unfold contents, wf in *. rewrite E. auto.
Qed.
Lemma wf_old m s : wf m s -> sl_cap s = 0 \/ sl_arr s < length m.
Proof. intros W. destruct (decide (sl_cap s = 0)); [auto|right]. apply wf_arr; [exact W|lia]. Qed.

(** slice expressions *)
Lemma sl_sub_ok m s (i j : Z) : wf m s -> (0 <= i <= j)%Z -> (j <= Z.of_nat (sl_len s))%Z ->
  exists t, sl_sub s i j = Ret t /\ wf m t /\ sl_arr t = sl_arr s /\
    sl_len t = Z.to_nat (j - i) /\ sl_off t = sl_off s + Z.to_nat i /\ sl_cap t = sl_cap s - Z.to_nat i /\
    window m t = drop (Z.to_nat i) (window m s) /\
    contents m t = take (Z.to_nat (j - i)) (drop (Z.to_nat i) (contents m s)).
Proof.
  intros [W1 W2] Hi Hj. unfold sl_sub.
  assert (E : ((0 <=? i) && (i <=? j) && (j <=? Z.of_nat (sl_cap s)))%Z = true).
  { rewrite !andb_true_iff, !Z.leb_le. lia. }
  rewrite E. eexists. split; [reflexivity|].
  assert (EW : window m (Sl (sl_arr s) (sl_off s + Z.to_nat i) (Z.to_nat (j - i)) (sl_cap s - Z.to_nat i))
               = drop (Z.to_nat i) (window m s)).
  { unfold window. cbn [sl_cap sl_off sl_arr]. rewrite <- drop_drop, skipn_firstn_comm. reflexivity. }
  split; [split; [cbn; lia|rewrite EW, drop_length; cbn; lia]|].
  split; [reflexivity|]. split; [reflexivity|]. split; [reflexivity|]. split; [reflexivity|]. split; [exact EW|].
  unfold contents at 1. rewrite EW. cbn [sl_len]. unfold contents.
  rewrite (skipn_firstn_comm (Z.to_nat i) (sl_len s)), take_take. f_equal. lia.
Qed.
Lemma sl_get_ok m s (i : Z) : wf m s -> (0 <= i < Z.of_nat (sl_len s))%Z ->
  exists x, contents m s !! Z.to_nat i = Some x /\ sl_get m s i = Ret x.
Proof.
  intros W Hi. unfold sl_get.
  assert (E : ((0 <=? i) && (i <? Z.of_nat (sl_len s)))%Z = true) by (rewrite andb_true_iff, Z.leb_le, Z.ltb_lt; lia).
  rewrite E. destruct (lookup_lt_is_Some_2 (contents m s) (Z.to_nat i)) as [x Ex].
  { rewrite contents_length by exact W. lia. }
  exists x. rewrite Ex. auto.
Qed.
Lemma sl_set_ok m s (i : Z) x : wf m s -> (0 <= i < Z.of_nat (sl_len s))%Z ->
  exists m', sl_set m s i x = Ret m' /\ wf m' s /\ frame m m' (sl_arr s) /\
    contents m' s = <[Z.to_nat i := x]> (contents m s) /\ length m' = length m.
Proof.
  intros W Hi. unfold sl_set.
  assert (E : ((0 <=? i) && (i <? Z.of_nat (sl_len s)))%Z = true) by (rewrite andb_true_iff, Z.leb_le, Z.ltb_lt; lia).
  rewrite E. eexists. split; [reflexivity|]. pose proof W as [W1 W2].
  split; [apply write_wf; auto; cbn; lia|]. split; [apply write_frame|]. split; [|apply write_length].
  rewrite contents_write by (auto; cbn; lia). cbn [length].
  rewrite insert_take_drop by (rewrite contents_length by exact W; lia).
  replace (Z.to_nat i + 1) with (S (Z.to_nat i)) by lia. reflexivity.
Qed.
Lemma alloc_wf m xs : wf (alloc m xs).1 (alloc m xs).2 /\ contents (alloc m xs).1 (alloc m xs).2 = xs /\ frame m (alloc m xs).1 (length m).
Proof.
  unfold alloc, wf, contents, window. cbn. rewrite arr_app_new, drop_0, !take_ge by (rewrite ?take_length; lia).
  split; [lia|]. split; [reflexivity|]. split; [rewrite app_length; lia|]. intros b Hb _. apply arr_app_old; exact Hb.
Qed.
Lemma alloc_old m xs t : wf m t -> wf (alloc m xs).1 t /\ contents (alloc m xs).1 t = contents m t.
Proof.
  intros W. assert (E : window (alloc m xs).1 t = window m t).
  { unfold window. destruct (decide (sl_cap t = 0)) as [->|Hc]; [reflexivity|]. cbn.
    rewrite arr_app_old; [reflexivity|]. apply wf_arr; [exact W|lia]. }
  unfold wf, contents in *. rewrite E. auto.
Qed.

(** *** Which memory a computation that starts from slice [s] and ends with
    slice [t] may have touched: only the array of [s] (and only if [s] can reach
    any cell of it) and new arrays; [t] is a view of one of these. slicex.go 10-243 *)
Definition local m s m' t : Prop :=
  length m <= length m' /\
  (forall b, b < length m -> b <> sl_arr s \/ sl_cap s = 0 -> arr m' b = arr m b) /\
  (sl_cap t = 0 \/ length m <= sl_arr t \/ (sl_arr t = sl_arr s /\ sl_cap s <> 0)).
Lemma local_trans m s m1 s1 m2 s2 : local m s m1 s1 -> local m1 s1 m2 s2 -> local m s m2 s2.
Proof.
  intros (L1 & F1 & A1) (L2 & F2 & A2). split; [lia|]. split; [|destruct A1 as [|[|[]]], A2 as [|[|[]]]; intuition (lia || congruence)].
  intros b Hb Hn. rewrite F2 by (destruct A1 as [|[|[]]], Hn; intuition (lia || congruence)). apply F1; assumption.
Qed.
Lemma local_refl m s : local m s m s.
Proof. split; [lia|]. split; [auto|]. destruct (decide (sl_cap s = 0)); auto. Qed.
Lemma local_sub m s i j t : sl_sub s i j = Ret t -> local m s m t.
Proof.
  unfold sl_sub. destruct (_ && _ && _)%bool eqn:E; [|discriminate]. intros H. injection H as <-.
  split; [lia|]. split; [auto|]. cbn. destruct (decide (sl_cap s = 0)); [left; lia|auto].
Qed.
Lemma arr_write_nil m a b o : arr (write m a o []) b = arr m b.
Proof.
  destruct (decide (a = b)) as [<-|Hn]; [|apply arr_write_ne; exact Hn].
  destruct (decide (a < length m)) as [Ha|Ha].
  - rewrite arr_write_eq by exact Ha. cbn. rewrite Nat.add_0_r. apply take_drop.
  - unfold write. rewrite list_insert_ge by lia. reflexivity.
Qed.
Lemma local_write m s k xs : k + length xs <= sl_cap s -> local m s (write m (sl_arr s) (sl_off s + k) xs) s.
Proof.
  intros Hk. split; [rewrite write_length; lia|]. split.
  - intros b Hb [Hn|H0]; [apply arr_write_ne; auto|]. assert (xs = []) as -> by (destruct xs; [reflexivity|cbn in Hk; lia]).
    apply arr_write_nil.
  - destruct (decide (sl_cap s = 0)); auto.
Qed.
Lemma local_append g m s xs : local m s (append g m s xs).1 (append g m s xs).2.
Proof.
  unfold append. destruct (Nat.leb_spec (sl_len s + length xs) (sl_cap s)) as [H|H]; cbn [fst snd].
  - destruct (local_write m s (sl_len s) xs H) as (L & F & _). split; [exact L|]. split; [exact F|].
    cbn. destruct (decide (sl_cap s = 0)); auto.
  - split; [rewrite app_length; lia|]. split; [intros; apply arr_app_old; assumption|]. cbn. auto.
Qed.
Lemma local_alloc m xs s : local m s (alloc m xs).1 s.
Proof.
  split; [cbn; rewrite app_length; lia|]. split; [intros; apply arr_app_old; assumption|].
  destruct (decide (sl_cap s = 0)); auto.
Qed.
(** what is read through any other slice stays *)
Lemma local_other m s m' t u : local m s m' t -> wf m u ->
  sl_cap s = 0 \/ sl_cap u = 0 \/ sl_arr u <> sl_arr s -> wf m' u /\ contents m' u = contents m u.
Proof.
  intros (L & F & _) W Hs. assert (E : window m' u = window m u).
  { unfold window. destruct (decide (sl_cap u = 0)) as [->|Hc]; [reflexivity|].
    rewrite F; [reflexivity|apply wf_arr; [exact W|lia]|intuition]. }
  unfold wf, contents in *. rewrite E. auto.
Qed.

(** the call turned slice [s] in memory [m] into [t] in [m'], which now reads
    [l]; nothing but the receiver's array and new memory was touched; slicex.go 10-243 *)
Definition became m s m' t l : Prop := wf m' t /\ contents m' t = l /\ local m s m' t.
End GoSlice.
