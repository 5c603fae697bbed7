(** Properties of dsx/slicex/slicex.go (C24-C38).

    A slice value [s] lives in a memory [m]; [contents m s] is the list of its
    elements, [wf m s] says that it lies inside an allocated array (true of every
    Go slice), and [became m s m' t l] says that the call left the receiver as [t]
    in memory [m'], reading [l], and touched nothing but the receiver's own array
    and newly allocated memory. *)
From Verif Require Import Base SeqSpec GoSlice SliceSpec SliceModel SliceProofs SliceProofs2 SliceHistory.

(** C24: Get and Set clamp the index and never panic. *)
Theorem slice_get_clamps :
  forall (A : Type) (zero : A) m (s : slice) (i : Z), wf m s ->
    x_get zero m s i = Ret (match contents m s with
                            | [] => zero
                            | l => default zero (l !! Z.to_nat (Z.max 0 (Z.min i (zlen l - 1))))
                            end).
Proof. intros A zero m s i W. rewrite x_get_ok by exact W. destruct (contents m s); reflexivity. Qed.
Print Assumptions slice_get_clamps.
(** ... and the clamped position always holds an element, so the default above is never used *)
Theorem slice_get_clamps_in_range :
  forall (A : Type) (l : list A) (i : Z), l <> [] ->
    is_Some (l !! Z.to_nat (Z.max 0 (Z.min i (zlen l - 1)))).
Proof.
  intros A l i Hl. apply lookup_lt_is_Some. destruct l; [congruence|]. unfold zlen. cbn [length]. lia.
Qed.
Print Assumptions slice_get_clamps_in_range.
Theorem slice_set_clamps :
  forall (A : Type) m (s : slice) (i : Z) (x : A), wf m s ->
    exists m', x_set m s i x = Ret m' /\
      became m s m' s (match contents m s with
                       | [] => []
                       | l => <[Z.to_nat (Z.max 0 (Z.min i (zlen l - 1))) := x]> l
                       end).
Proof.
  intros A m s i x W. destruct (x_set_ok m s i x W) as (m' & E & B). exists m'. split; [exact E|].
  destruct (contents m s); exact B.
Qed.
Print Assumptions slice_set_clamps.

(** C25: Splice and its derivatives, called with explicit arguments. *)
Theorem slice_splice :
  forall (A : Type) (zero : A) g m (s : slice), wf m s ->
    (forall i j vs, exists m' t, x_splice_args zero g m s i j vs = Ret (m', t) /\
        became m s m' t (splice (contents m s) i j vs)) /\
    (forall i vs, exists m' t, x_expand zero g m s i vs = Ret (m', t) /\
        became m s m' t (take (clampn (contents m s) i) (contents m s) ++ vs ++ drop (clampn (contents m s) i) (contents m s))) /\
    (forall i x, exists m' t, x_insert zero g m s i x = Ret (m', t) /\
        became m s m' t (take (clampn (contents m s) i) (contents m s) ++ x :: drop (clampn (contents m s) i) (contents m s))) /\
    (forall i j, exists m' t, x_cut zero g m s i j = Ret (m', t) /\
        became m s m' t (splice (contents m s) i j [])) /\
    (forall x, exists m' t, x_push zero g m s x = Ret (m', t) /\ became m s m' t (contents m s ++ [x])) /\
    (forall x, exists m' t, x_unshift zero g m s x = Ret (m', t) /\ became m s m' t (x :: contents m s)).
Proof.
  intros A zero g m s W. repeat split; intros.
  - apply x_splice_args_ok, W.
  - destruct (x_splice_args_ok zero g m s i i vs W) as (m' & t & E & B). exists m', t. split; [exact E|].
    unfold splice in B. cbn zeta in B. rewrite Nat.min_id, Nat.max_id in B. exact B.
  - destruct (x_splice_args_ok zero g m s i i [x] W) as (m' & t & E & B). exists m', t. split; [exact E|].
    unfold splice in B. cbn zeta in B. rewrite Nat.min_id, Nat.max_id in B. exact B.
  - apply (x_splice_args_ok zero g m s i j [] W).
  - apply x_push_ok, W.
  - apply x_unshift_ok, W.
Qed.
Print Assumptions slice_splice.

(** C25 (natural statement, false) for a spread argument [v...] that is a view of
    the receiver's own array with room behind it. *)
Theorem slice_splice_spread_refuted :
  ~ (forall g (m : list (list nat)) s v i j, wf m s -> wf m v ->
       exists m' t, x_splice 0 g m s i j v = Ret (m', t) /\ contents m' t = splice (contents m s) i j (contents m v)).
Proof.
  intros H. destruct (H (0, 0) [[1;2;3;4]] (Sl 0 0 4 4) (Sl 0 0 1 4) 3%Z 3%Z) as (m' & t & E & C); [vm_compute; split; lia..|].
  vm_compute in E. injection E as <- <-. vm_compute in C. discriminate.
Qed.
Print Assumptions slice_splice_spread_refuted.

(** C25, the part that holds for a spread argument: it is enough that [v] is in
    another array, or has no room for the receiver's tail behind it, or that the
    tail is empty.  (Missing: the aliasing case refuted above.) *)
Theorem slice_splice_spread_partial :
  forall (A : Type) (zero : A) g m (s v : slice) (i j : Z), wf m s -> wf m v ->
    (let tail_len := length (contents m s) - Nat.max (clampn (contents m s) i) (clampn (contents m s) j) in
     sl_arr v <> sl_arr s \/ sl_cap v < sl_len v + tail_len \/ tail_len = 0) ->
    exists m' t, x_splice zero g m s i j v = Ret (m', t) /\ wf m' t /\
      contents m' t = splice (contents m s) i j (contents m v).
Proof.
  intros A zero g m s v i j W Wv H. cbn zeta in H.
  destruct (x_splice_spread zero g m s i j v W Wv) as (m' & t & E & W' & C & _); [|eauto].
  unfold spread_ok. rewrite drop_length. destruct H as [H|[H|H]]; [auto|auto|].
  do 4 right. apply nil_length_inv. rewrite drop_length. exact H.
Qed.
Print Assumptions slice_splice_spread_partial.

(** C26 (natural statement, false): Delete(i) for every int. *)
Theorem slice_delete_refuted :
  forall (A : Type) (zero : A) g m (s : slice), wf m s -> contents m s <> [] -> (zlen (contents m s) < 2^63)%Z ->
    exists m' t, x_delete zero g m s max_i64 = Ret (m', t) /\ contents m' t = [] /\
      contents m' t <> delete_at (contents m s) max_i64.
Proof.
  intros A zero g m s W Hne Hl. rewrite zlen_contents in Hl by exact W.
  destruct (x_delete_max zero g m s W Hl) as (m' & t & E & _ & C & _). exists m', t. split; [exact E|]. split; [exact C|].
  rewrite C. unfold delete_at, in_range. rewrite zlen_contents by exact W.
  destruct (Z.ltb_spec max_i64 (len s)); [unfold max_i64 in *; lia|]. rewrite andb_false_r. congruence.
Qed.
Print Assumptions slice_delete_refuted.
(** C26 for every int but MaxInt64. *)
Theorem slice_delete_partial :
  forall (A : Type) (zero : A) g m (s : slice) (i : Z), wf m s -> is_i64 i -> i <> max_i64 ->
    exists m' t, x_delete zero g m s i = Ret (m', t) /\ became m s m' t (delete_at (contents m s) i).
Proof. exact @x_delete_ok. Qed.
Print Assumptions slice_delete_partial.

(** C27: Slice(i,j). *)
Theorem slice_subrange :
  forall (A : Type) m (s : slice) (i j : Z), wf (A:=A) m s ->
    exists t, x_slice s i j = Ret t /\ became m s m t (subrange (contents m s) i j).
Proof. exact @x_slice_ok. Qed.
Print Assumptions slice_subrange.

(** C28: Pop and Shift, and that they undo Push and UnShift. *)
Theorem slice_pop :
  forall (A : Type) (zero : A) g m (s : slice), wf m s -> (zlen (contents m s) < 2^63)%Z ->
    exists m' t, x_pop zero g m s = Ret (m', t, default zero (last (contents m s))) /\
      became m s m' t (take (length (contents m s) - 1) (contents m s)).
Proof. intros A zero g m s W Hl. rewrite zlen_contents in Hl by exact W. apply x_pop_ok; assumption. Qed.
Print Assumptions slice_pop.
Theorem slice_shift :
  forall (A : Type) (zero : A) g m (s : slice), wf m s ->
    exists m' t, x_shift zero g m s = Ret (m', t, default zero (head (contents m s))) /\
      became m s m' t (tail (contents m s)).
Proof. exact @x_shift_ok. Qed.
Print Assumptions slice_shift.
Theorem slice_push_pop_inverse :
  forall (A : Type) (zero x : A) g g' m (s : slice), wf m s -> (zlen (contents m s) + 1 < 2^63)%Z ->
    (exists m1 s1 m2 s2, x_push zero g m s x = Ret (m1, s1) /\ x_pop zero g' m1 s1 = Ret (m2, s2, x) /\
        became m s m2 s2 (contents m s)) /\
    (exists m1 s1 m2 s2, x_unshift zero g m s x = Ret (m1, s1) /\ x_shift zero g' m1 s1 = Ret (m2, s2, x) /\
        became m s m2 s2 (contents m s)).
Proof.
  intros A zero x g g' m s W Hl. split.
  - destruct (x_push_ok zero g m s x W) as (m1 & s1 & E1 & B1). pose proof B1 as (W1 & C1 & _).
    destruct (x_pop_ok zero g' m1 s1 W1) as (m2 & s2 & E2 & B2).
    { rewrite <- (zlen_contents m1 s1 W1), C1. unfold zlen in *. rewrite app_length. cbn. lia. }
    exists m1, s1, m2, s2. split; [exact E1|]. rewrite C1, last_snoc in E2. split; [exact E2|].
    rewrite C1, app_length in B2. cbn in B2. rewrite Nat.add_sub in B2. rewrite take_app in B2. eapply became_trans; eauto.
  - destruct (x_unshift_ok zero g m s x W) as (m1 & s1 & E1 & B1). pose proof B1 as (W1 & C1 & _).
    destruct (x_shift_ok zero g' m1 s1 W1) as (m2 & s2 & E2 & B2).
    exists m1, s1, m2, s2. split; [exact E1|]. rewrite C1 in E2, B2. split; [exact E2|]. eapply became_trans; eauto.
Qed.
Print Assumptions slice_push_pop_inverse.

(** C29: Reverse. *)
Theorem slice_reverse :
  forall (A : Type) m (s : slice), wf (A:=A) m s ->
    exists m', x_reverse m s = Ret m' /\ became m s m' s (reverse (contents m s)).
Proof. exact @x_reverse_ok. Qed.
Print Assumptions slice_reverse.
Theorem slice_reverse_twice :
  forall (A : Type) m (s : slice), wf (A:=A) m s ->
    exists m1 m2, x_reverse m s = Ret m1 /\ x_reverse m1 s = Ret m2 /\ became m s m2 s (contents m s) /\
      contents m1 s ≡ₚ contents m s.
Proof.
  intros A m s W. destruct (x_reverse_ok m s W) as (m1 & E1 & B1). pose proof B1 as (W1 & C1 & _).
  destruct (x_reverse_ok m1 s W1) as (m2 & E2 & B2). exists m1, m2. split; [exact E1|]. split; [exact E2|]. split.
  - rewrite C1, reverse_involutive in B2. eapply became_trans; eauto.
  - rewrite C1. apply reverse_Permutation.
Qed.
Print Assumptions slice_reverse_twice.

(** C30: Rotate.  Natural statement (all ints) false: *)
Theorem slice_rotate_refuted :
  forall (A : Type) (zero : A) g m (s : slice), wf m s -> (0 < zlen (contents m s) < 2^63)%Z ->
    (2^63 mod zlen (contents m s) <> 0)%Z -> x_rotate zero g m s min_i64 = Panic.
Proof. intros A zero g m s W. rewrite zlen_contents by exact W. apply x_rotate_min. exact W. Qed.
Print Assumptions slice_rotate_refuted.
(** every int but MinInt64 *)
Theorem slice_rotate_partial :
  forall (A : Type) (zero : A) g m (s : slice) (n : Z), wf m s -> is_i64 n -> n <> min_i64 ->
    exists m' t l', x_rotate zero g m s n = Ret (m', t) /\ became m s m' t l' /\ rotated n (contents m s) l'.
Proof. exact @x_rotate_ok. Qed.
Print Assumptions slice_rotate_partial.
Theorem slice_rotate_undo_partial :
  forall (A : Type) (zero : A) g g' m (s : slice) (n : Z), wf m s -> is_i64 n -> n <> min_i64 ->
    exists m1 s1 m2 s2, x_rotate zero g m s n = Ret (m1, s1) /\ x_rotate zero g' m1 s1 (- n) = Ret (m2, s2) /\
      became m s m2 s2 (contents m s).
Proof.
  intros A zero g g' m s n W Hn Hm. destruct (x_rotate_ok zero g m s n W Hn Hm) as (m1 & s1 & l1 & E1 & B1 & R1).
  pose proof B1 as (W1 & C1 & _).
  destruct (x_rotate_ok zero g' m1 s1 (- n) W1) as (m2 & s2 & l2 & E2 & B2 & R2); [unfold is_i64, min_i64 in *; lia..|].
  exists m1, s1, m2, s2. split; [exact E1|]. split; [exact E2|].
  rewrite C1 in R2. rewrite (rotated_undo n (contents m s) l1 l2 R1 R2) in B2. eapply became_trans; eauto.
Qed.
Print Assumptions slice_rotate_undo_partial.

(** C31: Filter, with a callback that has a state of its own; [keep] calls it
    once per element in order. *)
Theorem slice_filter :
  forall (A B : Type) (f : B -> A -> B * bool) m (s : slice) (b : B), wf m s ->
    exists m' t, x_filter f m s b = Ret (m', t, (keep f b (contents m s)).1) /\
      became m s m' t (keep f b (contents m s)).2.
Proof. exact @x_filter_ok. Qed.
Print Assumptions slice_filter.
(** in particular, with a recording predicate: called exactly on the elements in order *)
Theorem slice_filter_predicate :
  forall (A : Type) (p : A -> bool) m (s : slice), wf m s ->
    exists m' t, x_filter (logged p) m s [] = Ret (m', t, contents m s) /\
      became m s m' t (filter (fun x => p x = true) (contents m s)).
Proof.
  intros A p m s W. destruct (x_filter_ok (logged p) m s [] W) as (m' & t & E & B). exists m', t.
  assert (K : forall l log, keep (logged p) log l = (log ++ l, filter (fun x => p x = true) l)).
  { induction l as [|x l IH]; intros log; cbn [keep]; [rewrite app_nil_r; reflexivity|].
    unfold logged at 1. rewrite IH, filter_cons, <- app_assoc. cbn. destruct (p x) eqn:Ep.
    - rewrite decide_True by reflexivity. reflexivity.
    - rewrite decide_False by discriminate. reflexivity. }
  rewrite K in E, B. split; [exact E|exact B].
Qed.
Print Assumptions slice_filter_predicate.

(** C32: Shuffle permutes whatever the random source does, and every
    arrangement can come out. *)
Theorem slice_shuffle :
  forall (A : Type) (js : nat -> nat) m (s : slice), wf (A:=A) m s ->
    exists m' l', x_shuffle js m s = Ret m' /\ became m s m' s l' /\ l' ≡ₚ contents m s.
Proof.
  intros A js m s W. destruct (x_shuffle_ok js m s W) as (m' & E & B). do 2 eexists. split; [exact E|]. split; [exact B|].
  apply fisher_yates_perm.
Qed.
Print Assumptions slice_shuffle.
Theorem slice_shuffle_reaches_all :
  forall (A : Type) m (s : slice) (l' : list A), wf m s -> l' ≡ₚ contents m s ->
    exists js m', x_shuffle js m s = Ret m' /\ became m s m' s l'.
Proof.
  intros A m s l' W HP. destruct (contents m s) as [|x l] eqn:EC.
  - apply Permutation_nil_r in HP as ->. destruct (x_shuffle_ok (fun _ => 0) m s W) as (m' & E & B).
    exists (fun _ => 0), m'. split; [exact E|]. rewrite EC in B. exact B.
  - destruct (fisher_yates_surj (length l) (x :: l) l' []) as [js Hjs]; [reflexivity|symmetry; exact HP|].
    destruct (x_shuffle_ok js m s W) as (m' & E & B). exists js, m'. split; [exact E|].
    rewrite EC in B. cbn [length] in B. rewrite Nat.sub_succ, Nat.sub_0_r in B. rewrite !app_nil_r in Hjs. rewrite Hjs in B. exact B.
Qed.
Print Assumptions slice_shuffle_reaches_all.

(** C33: Split.  Natural statement false: *)
Theorem slice_split_refuted :
  ~ (forall (m : list (list nat)) s splits, wf m s -> Forall (fun d => 0 <= d /\ is_i64 d)%Z splits ->
       exists ps, x_split s splits = Ret ps /\ concat (map (contents m) ps) = contents m s).
Proof.
  intros H. destruct (H [[1;2]] (Sl 0 0 2 2) [1; max_i64]%Z) as (ps & E & C).
  - vm_compute. split; lia.
  - repeat constructor; unfold is_i64, max_i64; lia.
  - vm_compute in E. injection E as <-. vm_compute in C. discriminate.
Qed.
Print Assumptions slice_split_refuted.
(** non-negative sizes that do not overflow when added to the length *)
Theorem slice_split_partial :
  forall (A : Type) m (s : slice) (splits : list Z), wf (A:=A) m s ->
    Forall (fun d => 0 <= d /\ zlen (contents m s) + d < 2^63)%Z splits ->
    exists ps, x_split s splits = Ret ps /\ Forall (wf m) ps /\
      map (contents m) ps = split_list (contents m s) (map Z.to_nat splits) /\
      concat (map (contents m) ps) = contents m s.
Proof.
  intros A m s splits W HS. rewrite zlen_contents in HS by exact W.
  destruct (x_split_nonneg m s splits W) as (ps & E & HF & HM); [apply sizes_fit_forall; [apply len_nonneg|exact HS]|].
  exists ps. split; [exact E|]. split; [exact HF|]. split; [exact HM|]. rewrite HM. apply split_list_concat.
Qed.
Print Assumptions slice_split_partial.
(** any sizes at all: no panic, every piece is a contiguous segment *)
Theorem slice_split_segments :
  forall (A : Type) m (s : slice) (splits : list Z), wf (A:=A) m s ->
    exists ps, x_split s splits = Ret ps /\
      Forall (fun p => wf m p /\ exists a n, a + n <= length (contents m s) /\ contents m p = take n (drop a (contents m s))) ps.
Proof. exact @x_split_any. Qed.
Print Assumptions slice_split_segments.

(** C34: Batch. *)
Theorem slice_batch :
  forall (A : Type) m (s : slice) (size : Z), wf (A:=A) m s -> (zlen (contents m s) < 2^63)%Z -> is_i64 size ->
    exists ps, x_batch s size = Ret ps /\ Forall (wf m) ps /\
      concat (map (contents m) ps) = contents m s /\
      (forall i b, S i < length ps -> map (contents m) ps !! i = Some b -> zlen b = Z.max 1 size) /\
      (forall b, last (map (contents m) ps) = Some b -> (1 <= zlen b <= Z.max 1 size)%Z) /\
      (contents m s = [] <-> ps = []).
Proof.
  intros A m s size W Hl Hs. rewrite zlen_contents in Hl by exact W.
  destruct (x_batch_ok m s size W Hl Hs) as (ps & E & HF & HM). exists ps. split; [exact E|]. split; [exact HF|].
  set (n := Z.to_nat (Z.max 1 size)) in *. set (k := length (contents m s) / n) in *.
  destruct (batches k n (contents m s)) as (I1 & I2 & I3 & I4); [lia|reflexivity|]. rewrite <- HM in *.
  split; [rewrite HM; apply split_list_concat|]. split; [|split].
  - intros i b Hi Hb. rewrite map_length in I1. specialize (I1 i b Hi Hb). unfold zlen. lia.
  - intros b Hb. specialize (I2 b Hb). unfold zlen. lia.
  - split; intros H.
    + specialize (I3 H). destruct ps; [reflexivity|discriminate].
    + destruct (contents m s); [reflexivity|]. exfalso. subst ps. apply I4; [discriminate|reflexivity].
Qed.
Print Assumptions slice_batch.

(** C35: Repeat, Extend, DeleteReplace, Clear.  "None panics" is false: *)
Theorem slice_panics_refuted :
  forall (A : Type) (zero : A) (maxlen : Z) m (s : slice), wf m s -> (0 <= maxlen)%Z ->
    (forall i, (zlen (contents m s) <= i)%Z \/ contents m s = [] -> x_delete_replace m s i = Panic) /\
    (forall g n, (maxlen < n)%Z -> x_extend zero maxlen g m s n = Panic) /\
    (forall g k, (k < 0)%Z -> (0 < zlen (contents m s))%Z -> is_i64 (zlen (contents m s) * k) -> x_repeat zero maxlen g m s k = Panic) /\
    (forall g k, (maxlen < zlen (contents m s) * k)%Z -> is_i64 (zlen (contents m s) * k) -> x_repeat zero maxlen g m s k = Panic).
Proof.
  intros A zero maxlen m s W Hx. rewrite (zlen_contents m s W). repeat split; intros.
  - apply x_delete_replace_panics; [exact W|]. destruct H as [H|H]; [auto|right]. pose proof (contents_length m s W) as L. rewrite H in L. unfold len. cbn in L. lia.
  - apply x_extend_panics; assumption.
  - apply x_repeat_negative; assumption.
  - apply x_repeat_big; assumption.
Qed.
Print Assumptions slice_panics_refuted.
(** outside those cases *)
Theorem slice_bulk_partial :
  forall (A : Type) (zero : A) (maxlen : Z) m (s : slice), wf m s -> (0 <= maxlen < 2^63)%Z ->
    (forall g k, (0 <= k)%Z -> (zlen (contents m s) * k <= maxlen)%Z ->
       exists m' t, x_repeat zero maxlen g m s k = Ret (m', t) /\
         became m s m' t (concat (replicate (Z.to_nat k) (contents m s)))) /\
    (forall g n, (n <= maxlen)%Z ->
       exists m' t, x_extend zero maxlen g m s n = Ret (m', t) /\
         became m s m' t (contents m s ++ replicate (Z.to_nat n) zero)) /\
    (forall i, (0 <= i < zlen (contents m s))%Z ->
       exists m' t x, last (contents m s) = Some x /\ x_delete_replace m s i = Ret (m', t) /\
         became m s m' t (take (length (contents m s) - 1) (<[Z.to_nat i := x]> (contents m s)))) /\
    (exists t, x_clear s = Ret t /\ became m s m t []).
Proof.
  intros A zero maxlen m s W Hx. rewrite (zlen_contents m s W). repeat split; intros.
  - apply x_repeat_ok; try assumption; lia.
  - apply x_extend_ok; try assumption; lia.
  - destruct (last (contents m s)) as [x|] eqn:EL.
    + destruct (x_delete_replace_ok zero m s i W) as (m' & t & E & B); [lia|lia|]. rewrite EL in B. exists m', t, x. auto.
    + exfalso. apply last_None in EL. pose proof (contents_length m s W) as L. rewrite EL in L. unfold len in *. cbn in L. lia.
  - apply x_clear_ok, W.
Qed.
Print Assumptions slice_bulk_partial.

(** C36: Copy.  However the calls on the original and on the copy are
    interleaved afterwards, each of the two behaves as if it were alone. *)
Theorem slice_copy_independent :
  forall (A : Type) (zero : A) (maxlen : Z) g m (s : slice), wf m s -> (0 <= maxlen)%Z ->
  let '(m1, c) := x_copy zero g m s in
  let l := contents m s in
  contents m1 c = l /\ contents m1 s = l /\
  forall hist : list ((nat -> nat) * (bool * xop A)),
    Forall (fun o => xop_ints o.2) hist.*2 ->
    (forall pre post p, hist.*2 = pre ++ post -> (run (two_spec zero maxlen) (l, l) pre).2 = Ret p ->
       (zlen p.1 < 2^63 /\ zlen p.2 < 2^63)%Z) ->
    (run (x_step2 zero maxlen) (m1, s, c) hist).1 = (run (two_spec zero maxlen) (l, l) hist.*2).1 /\
    match (run (two_spec zero maxlen) (l, l) hist.*2).2 with
    | Ret p => exists m' s' t', (run (x_step2 zero maxlen) (m1, s, c) hist).2 = Ret (m', s', t') /\
                 contents m' s' = p.1 /\ contents m' t' = p.2
    | Panic => (run (x_step2 zero maxlen) (m1, s, c) hist).2 = Panic
    | Spin => (run (x_step2 zero maxlen) (m1, s, c) hist).2 = Spin
    end.
Proof.
  intros A zero maxlen g m s W Hx. pose proof (copy_apart zero g m s W) as H. destruct (x_copy zero g m s) as [m1 c].
  destruct H as (Ws & Wc & Ha & Cs & Cc). cbn zeta. split; [exact Cc|]. split; [exact Cs|]. intros hist HI HL.
  pose proof (two_history zero maxlen m1 s c Ws Wc Ha Hx hist HI) as G. rewrite Cs, Cc in G. exact (G HL).
Qed.
Print Assumptions slice_copy_independent.

(** and every history of method calls on one slice does exactly what
    [slice_spec] says to the list of its elements, whatever the runtime's growth
    decisions, panics included, touching no other memory *)
Theorem slice_all_histories :
  forall (A : Type) (zero : A) (maxlen : Z) m (s : slice), wf m s -> (0 <= maxlen)%Z ->
  forall hist : list ((nat -> nat) * xop A),
    Forall (fun o => xop_ints o) hist.*2 ->
    (forall pre post l', hist.*2 = pre ++ post -> (run (slice_spec zero maxlen) (contents m s) pre).2 = Ret l' -> (zlen l' < 2^63)%Z) ->
    (run (x_step zero maxlen) (m, s) hist).1 = (run (slice_spec zero maxlen) (contents m s) hist.*2).1 /\
    match (run (slice_spec zero maxlen) (contents m s) hist.*2).2 with
    | Ret l' => exists m' t, (run (x_step zero maxlen) (m, s) hist).2 = Ret (m', t) /\ became m s m' t l'
    | Panic => (run (x_step zero maxlen) (m, s) hist).2 = Panic
    | Spin => False
    end.
Proof. exact @slice_history. Qed.
Print Assumptions slice_all_histories.

(** C37 (natural statement, false): the caller's memory behind [v] changes. *)
Theorem slice_splice_clobbers_refuted :
  ~ (forall g (m : list (list nat)) s v i j m' t, wf m s -> wf m v -> sl_arr v <> sl_arr s ->
       x_splice 0 g m s i j v = Ret (m', t) -> window m' v = window m v).
Proof.
  intros H. specialize (H (0, 0) [[1;2]; [7;8;9]] (Sl 0 0 2 2) (Sl 1 0 1 3) 0%Z 0%Z).
  destruct (x_splice 0 (0, 0) [[1;2]; [7;8;9]] (Sl 0 0 2 2) 0 0 (Sl 1 0 1 3)) as [[m' t]| |] eqn:E; [|discriminate E|discriminate E].
  specialize (H m' t). vm_compute in E. injection E as <- <-.
  assert (wf [[1;2]; [7;8;9]] (Sl 0 0 2 2)) by (vm_compute; split; lia).
  assert (wf [[1;2]; [7;8;9]] (Sl 1 0 1 3)) by (vm_compute; split; lia).
  specialize (H ltac:(assumption) ltac:(assumption) ltac:(discriminate) eq_refl). vm_compute in H. discriminate.
Qed.
Print Assumptions slice_splice_clobbers_refuted.
(** C37, what holds: the elements of [v] itself are never changed; no array but
    the receiver's and [v]'s is touched, and not even [v]'s when [v] has no spare
    capacity, as with explicit arguments. *)
Theorem slice_splice_clobbers_partial :
  forall (A : Type) (zero : A) g m (s v : slice) (i j : Z), wf m s -> wf m v ->
    (sl_arr v <> sl_arr s ->
     exists m' t, x_splice zero g m s i j v = Ret (m', t) /\ contents m' v = contents m v /\
       forall b, b < length m -> b <> sl_arr s -> b <> sl_arr v -> arr m' b = arr m b) /\
    (sl_cap v = sl_len v ->
     exists m' t, x_splice zero g m s i j v = Ret (m', t) /\
       forall b, b < length m -> b <> sl_arr s -> arr m' b = arr m b).
Proof.
  intros A zero g m s v i j W Wv. split; intros H.
  - destruct (x_splice_spread zero g m s i j v W Wv) as (m' & t & E & _ & _ & _ & F & K); [unfold spread_ok; auto|].
    exists m', t. split; [exact E|]. split; [apply K; auto|exact F].
  - destruct (x_splice_local zero g m s i j v W Wv H) as (m' & t & E & _ & _ & _ & F & _).
    exists m', t. split; [exact E|]. intros b Hb Hn. apply F; auto.
Qed.
Print Assumptions slice_splice_clobbers_partial.

(** C38: the read-only methods. *)
Theorem slice_index_of :
  forall (A : Type) (p : A -> bool) m (s : slice), wf m s ->
    exists k log, x_index_of (logged p) m s [] = Ret (k, log) /\
      log = seen_until_false (fun x => negb (p x)) (contents m s) /\
      ((k = (-1)%Z /\ Forall (fun x => p x = false) (contents m s)) \/
       exists j x, k = Z.of_nat j /\ contents m s !! j = Some x /\ p x = true /\
         forall i y, i < j -> contents m s !! i = Some y -> p y = false).
Proof.
  intros A p m s W. unfold x_index_of. change 0%Z with (Z.of_nat 0). rewrite (index_loop_ok p m s (sl_len s) 0 []) by (auto; lia).
  rewrite drop_0. do 2 eexists. split; [reflexivity|]. split; [reflexivity|].
  destruct (list_find (fun x => p x = true) (contents m s)) as [[j x]|] eqn:E.
  - right. apply list_find_Some in E as (E1 & E2 & E3). exists j, x. split; [reflexivity|]. split; [exact E1|]. split; [exact E2|].
    intros i y Hi Hy. specialize (E3 i y Hy Hi). destruct (p y); congruence.
  - left. split; [reflexivity|]. apply list_find_None in E. eapply Forall_impl; [exact E|]. cbn. intros x Hx. destruct (p x); congruence.
Qed.
Print Assumptions slice_index_of.
Theorem slice_contains :
  forall (A : Type) (p : A -> bool) m (s : slice), wf m s ->
    exists b log, x_contains (logged p) m s [] = Ret (b, log) /\
      log = seen_until_false (fun x => negb (p x)) (contents m s) /\
      (b = true <-> exists x, x ∈ contents m s /\ p x = true).
Proof.
  intros A p m s W. unfold x_contains. change 0%Z with (Z.of_nat 0). rewrite (contains_loop_ok p m s (sl_len s) 0 []) by (auto; lia).
  rewrite drop_0. do 2 eexists. split; [reflexivity|]. split; [reflexivity|].
  rewrite existsb_exists. setoid_rewrite elem_of_list_In. reflexivity.
Qed.
Print Assumptions slice_contains.
Theorem slice_each :
  forall (A : Type) m (s : slice), wf (A:=A) m s ->
    (forall B (f : B -> A -> B) b, x_each f m s b = Ret (fold_left f (contents m s) b)) /\
    (forall B (f : B -> Z -> A -> B) b,
       x_for_each f m s b = Ret (fold_left (fun b p => f b (Z.of_nat p.1) p.2) (imap pair (contents m s)) b)) /\
    (forall C (show : A -> list C) sep, x_join show sep m s = Ret (joined sep (map show (contents m s)))) /\
    x_len s = zlen (contents m s).
Proof.
  intros A m s W. repeat split; intros.
  - apply x_each_ok, W.
  - apply x_for_each_ok, W.
  - apply x_join_ok, W.
  - symmetry. apply zlen_contents, W.
Qed.
Print Assumptions slice_each.

(** *** Concrete cases *)
Definition ex_mem : list (list nat) := [[0; 1; 2; 3; 4; 5; 6; 7]; [50; 60; 70]].
Definition ex_s : slice := Sl 0 1 5 6.   (* [1..5] with one spare cell *)
Definition ex_v : slice := Sl 1 0 2 3.   (* [50; 60] with one spare cell *)
Example slice_ex_wf : wf ex_mem ex_s /\ wf ex_mem ex_v /\ contents ex_mem ex_s = [1;2;3;4;5] /\ sl_arr ex_v <> sl_arr ex_s.
Proof. vm_compute. repeat split; lia. Qed.
Example slice_ex_get : x_get 0 ex_mem ex_s (-3) = Ret 1 /\ x_get 0 ex_mem ex_s 99 = Ret 5.
Proof. split; reflexivity. Qed.
Definition show_res (r : res (list (list nat) * slice)) : option (list nat) :=
  match r with Ret (m, s) => Some (contents m s) | _ => None end.
Example slice_ex_splice :
  show_res (x_splice 0 (0, 0) ex_mem ex_s 3 1 ex_v) = Some [1; 50; 60; 4; 5] /\
  show_res (x_splice_args 0 (3, 1) ex_mem ex_s 7 (-2) [9]) = Some [9] /\
  show_res (x_delete 0 (0, 0) ex_mem ex_s 2) = Some [1;2;4;5] /\
  show_res (x_rotate 0 5 ex_mem ex_s (-7)) = Some [4;5;1;2;3] /\
  show_res (x_repeat 0 1000 (fun _ => 0) ex_mem ex_s 2) = Some [1;2;3;4;5;1;2;3;4;5].
Proof. repeat split. Qed.
Example slice_ex_split :
  match x_split ex_s [2; -1; 9]%Z with Ret ps => Some (map (contents ex_mem) ps) | _ => None end = Some [[1;2];[2];[2;3;4;5]] /\
  match x_batch ex_s 2 with Ret ps => Some (map (contents ex_mem) ps) | _ => None end = Some [[1;2];[3;4];[5]].
Proof. split; reflexivity. Qed.
Example slice_ex_rotate_min : (0 < zlen (contents ex_mem ex_s) < 2^63)%Z /\ (2^63 mod zlen (contents ex_mem ex_s) <> 0)%Z.
Proof. vm_compute. repeat split; discriminate. Qed.
Example slice_ex_history :
  let hist := [XPush 9; XRotate (-2); XDelete 1; XFilter (fun x => x <? 9); XReverse; XPop; XRepeat 2; XSlice 1 (-1); XDeleteReplace 0; XGet 100] in
  Forall (fun o => xop_ints o) hist /\ ended (run (slice_spec 0 1000) [1;2;3;4;5] hist).2 = Ret tt /\
  (run (x_step 0 1000) (ex_mem, ex_s) (map (fun o => (fun _ => 1, o)) hist)).1
  = [RUnit; RUnit; RUnit; RUnit; RUnit; RVal (Some 5); RUnit; RUnit; RUnit; RVal (Some 3)].
Proof. cbn zeta. split; [repeat constructor; unfold is_i64; lia|]. split; vm_compute; reflexivity. Qed.
(** Copy, then calls on both *)
Example slice_ex_copy :
  let '(m, c) := x_copy 0 2 ex_mem ex_s in
  (run (x_step2 0 1000) (m, ex_s, c) [(fun _ => 0, (true, XSet 0 77)); (fun _ => 0, (false, XPush 8)); (fun _ => 0, (false, XGet 0)); (fun _ => 0, (true, XGet 0)); (fun _ => 0, (true, XLen))]).1
  = [RUnit; RUnit; RVal (Some 1); RVal (Some 77); RInt 5].
Proof. reflexivity. Qed.
(** the theorems on this slice *)
Lemma ex_wf : wf ex_mem ex_s. Proof. apply slice_ex_wf. Qed.
Lemma ex_wf_v : wf ex_mem ex_v. Proof. apply slice_ex_wf. Qed.
Example slice_splice_case := slice_splice nat 0 (2, 1) ex_mem ex_s ex_wf.
Example slice_splice_spread_case := slice_splice_spread_partial nat 0 (0, 0) ex_mem ex_s ex_v 1 2 ex_wf ex_wf_v ltac:(left; discriminate).
Example slice_delete_case := slice_delete_partial nat 0 (0, 0) ex_mem ex_s 2 ex_wf ltac:(split; discriminate || reflexivity) ltac:(discriminate).
Example slice_pop_case := slice_pop nat 0 (0, 0) ex_mem ex_s ex_wf eq_refl.
Example slice_push_pop_case := slice_push_pop_inverse nat 0 9 (0, 0) (3, 1) ex_mem ex_s ex_wf eq_refl.
Example slice_rotate_case := slice_rotate_undo_partial nat 0 0 5 ex_mem ex_s (-7) ex_wf ltac:(split; discriminate || reflexivity) ltac:(discriminate).
Example slice_shuffle_case := slice_shuffle_reaches_all nat ex_mem ex_s [3; 1; 2; 5; 4] ex_wf ltac:(change (contents ex_mem ex_s) with [1; 2; 3; 4; 5]; solve_Permutation).
Example slice_split_case := slice_split_partial nat ex_mem ex_s [2; 0; 9]%Z ex_wf ltac:(repeat constructor; discriminate || reflexivity).
Example slice_batch_case := slice_batch nat ex_mem ex_s 2 ex_wf eq_refl ltac:(split; discriminate || reflexivity).
Example slice_bulk_case := slice_bulk_partial nat 0 1000 ex_mem ex_s ex_wf ltac:(split; discriminate || reflexivity).
Example slice_clobbers_case := slice_splice_clobbers_partial nat 0 (0, 0) ex_mem ex_s ex_v 1 2 ex_wf ex_wf_v.
Example slice_index_of_case := slice_index_of nat (Nat.eqb 3) ex_mem ex_s ex_wf.
