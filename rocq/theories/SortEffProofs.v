(** The sorts with any comparison: indices in range, the slice a permutation, the calls bounded. *)
From Verif Require Import Base PdqModel PdqProofs SortEffModel.

Section proofs.
Context {A : Type} (less : nat -> A -> A -> res bool) (next : Z -> Z).
Implicit Types (s : list A) (a b i j c : nat).

(** call number c' - 1, the last one, ended so, on elements of the slice *)
Definition ended (o : res bool) c c' s s' : Prop := s' ≡ₚ s /\ (c < c')%nat /\ exists x y, x ∈ s /\ y ∈ s /\ less (c' - 1) x y = o.
Definition ok {X} (m : M A X) c s (Q : X -> nat -> Prop) : Prop :=
  match m c s with
  | EVal x c' s' => s' ≡ₚ s /\ (c <= c')%nat /\ Q x (c' - c)%nat
  | EPanic c' s' => ended Panic c c' s s'
  | ESpin c' s' => ended Spin c c' s s'
  end.
Lemma ok_ret {X} (x : X) c s (Q : X -> nat -> Prop) : Q x 0%nat -> ok (mret x) c s Q.
Proof. intros H. unfold ok, mret. rewrite Nat.sub_diag. auto. Qed.
Lemma ended_later o c c1 c' s s1 s' : s1 ≡ₚ s -> (c <= c1)%nat -> ended o c1 c' s1 s' -> ended o c c' s s'.
Proof. intros P L (P' & L' & x & y & X & Y & E). split; [rewrite P'; exact P|]. split; [lia|]. exists x, y. rewrite <- P. auto. Qed.
Lemma ok_bind {X Y} (m : M A X) (k : X -> M A Y) c s (Q : Y -> nat -> Prop) :
  ok m c s (fun x n => forall c1 s1, s1 ≡ₚ s -> length s1 = length s -> ok (k x) c1 s1 (fun y n' => Q y (n + n')%nat)) -> ok (mbind m k) c s Q.
Proof.
  unfold ok at 1 3, mbind. destruct (m c s) as [x c1 s1|c1 s1|c1 s1]; [|tauto..]. intros (P & L & H). specialize (H c1 s1 P (Permutation_length P)). unfold ok in H. destruct (k x c1 s1) as [y c2 s2|c2 s2|c2 s2].
  - destruct H as (P' & L' & H). split; [rewrite P'; exact P|]. split; [lia|]. replace (c2 - c)%nat with (c1 - c + (c2 - c1))%nat by lia. exact H.
  - apply (ended_later _ c c1 c2 s s1 s2 P L H).
  - apply (ended_later _ c c1 c2 s s1 s2 P L H).
Qed.
Lemma ok_mono {X} (m : M A X) c s (Q Q' : X -> nat -> Prop) : ok m c s Q -> (forall x n, Q x n -> Q' x n) -> ok m c s Q'.
Proof. intros H I. unfold ok in *. destruct (m c s); [|exact H..]. destruct H as (P & L & H). auto. Qed.
Lemma slen_ok c s (Q : nat -> nat -> Prop) : Q (length s) 0%nat -> ok slen c s Q.
Proof. intros H. unfold ok, slen. rewrite Nat.sub_diag. auto. Qed.
Lemma swap_perm s i j x y : s !! i = Some x -> s !! j = Some y -> <[j := x]> (<[i := y]> s) ≡ₚ s.
Proof.
  intros X Y. pose proof (PdqModel.sswap s i j) as _. assert (E : PdqModel.sswap s i j = Ret (<[j := x]> (<[i := y]> s))) by (unfold PdqModel.sswap, PdqModel.sget; rewrite X, Y; reflexivity).
  revert E. generalize (<[j := x]> (<[i := y]> s)). intros s' E. exact (PdqProofs.sswap_perm s i j s' E).
Qed.
Lemma sswap_ok c s i j : (i < length s)%nat -> (j < length s)%nat -> ok (sswap i j) c s (fun _ n => n = 0%nat).
Proof.
  intros Hi Hj. destruct (lookup_lt_is_Some_2 s i Hi) as [x X]. destruct (lookup_lt_is_Some_2 s j Hj) as [y Y]. unfold ok, sswap, mbind, sget, sset. rewrite X, Y. split; [apply (swap_perm s i j x y X Y)|]. lia.
Qed.
Lemma sless_ok c s i j : (i < length s)%nat -> (j < length s)%nat -> ok (sless less i j) c s (fun _ n => n = 1%nat).
Proof.
  intros Hi Hj. destruct (lookup_lt_is_Some_2 s i Hi) as [x X]. destruct (lookup_lt_is_Some_2 s j Hj) as [y Y]. unfold ok, sless, mbind, sget. rewrite X, Y. pose proof (elem_of_list_lookup_2 _ _ _ X) as Ex. pose proof (elem_of_list_lookup_2 _ _ _ Y) as Ey.
  destruct (less c x y) as [v| |] eqn:E; [split; [reflexivity|lia]|..]; (split; [reflexivity|]; split; [lia|]; exists x, y; replace (S c - 1)%nat with c by lia; auto).
Qed.
Lemma swap_then {X} (k : M A X) c s i j (Q : X -> nat -> Prop) : (i < length s)%nat -> (j < length s)%nat ->
  (forall c1 s1, s1 ≡ₚ s -> length s1 = length s -> ok k c1 s1 Q) -> ok (let% _ := sswap i j in k) c s Q.
Proof. intros Hi Hj H. apply ok_bind. eapply ok_mono; [apply sswap_ok; assumption|]. intros [] n ->. exact H. Qed.
Lemma less_then {X} (k : bool -> M A X) c s i j (Q : X -> nat -> Prop) : (i < length s)%nat -> (j < length s)%nat ->
  (forall v c1 s1, s1 ≡ₚ s -> length s1 = length s -> ok (k v) c1 s1 (fun y n => Q y (S n))) -> ok (let% v := sless less i j in k v) c s Q.
Proof. intros Hi Hj H. apply ok_bind. eapply ok_mono; [apply sless_ok; assumption|]. intros v n -> c1 s1 P L. eapply ok_mono; [apply H; assumption|]. auto. Qed.
Lemma slen_then {X} (k : nat -> M A X) c s (Q : X -> nat -> Prop) : ok (k (length s)) c s Q -> ok (let% n := slen in k n) c s Q.
Proof. intros H. exact H. Qed.
Lemma then_ok {X Y} (m : M A X) (k : X -> M A Y) c s (Q : Y -> nat -> Prop) (P : X -> nat -> Prop) : ok m c s P ->
  (forall x n c1 s1, P x n -> s1 ≡ₚ s -> length s1 = length s -> ok (k x) c1 s1 (fun y n' => Q y (n + n')%nat)) -> ok (mbind m k) c s Q.
Proof. intros H K. apply ok_bind. eapply ok_mono; [exact H|]. intros x n Hn c1 s1 P1 L1. exact (K x n c1 s1 Hn P1 L1). Qed.

(** *** insertion *)
Lemma ins_inner_ok a : forall j c s, (j < length s)%nat -> ok (ins_inner less a j) c s (fun _ n => (n <= j - a)%nat).
Proof.
  induction j as [|j IH]; intros c s Hj; [apply ok_ret; lia|]. cbn [ins_inner]. destruct (Nat.ltb_spec a (S j)); [|apply ok_ret; lia].
  apply less_then; [lia..|]. intros v c1 s1 _ L1. destruct v; [|apply ok_ret; lia]. apply swap_then; [lia..|]. intros c2 s2 _ L2. eapply ok_mono; [apply IH; lia|]. cbn. intros _ n Hn. lia.
Qed.
Lemma ins_outer_ok a : forall n i c s, (a < i)%nat -> (i + n <= length s)%nat -> ok (ins_outer less n a i) c s (fun _ k => (k <= n * (i + n - a))%nat).
Proof.
  induction n as [|n IH]; intros i c s Hi Hn; [apply ok_ret; lia|]. cbn [ins_outer]. eapply then_ok; [apply ins_inner_ok; lia|]. intros [] k c1 s1 Hk _ L1. eapply ok_mono; [apply IH; lia|]. cbn beta. intros _ k' Hk'. nia.
Qed.
Lemma insertion_ok a b c s : (a <= b)%nat -> (b <= length s)%nat -> ok (insertion less a b) c s (fun _ k => (k <= (b - a) * (b - a))%nat).
Proof.
  intros Hab Hb. unfold insertion. destruct (Nat.eq_dec a b) as [->|N]; [rewrite (proj2 (Nat.sub_0_le b (S b))) by lia; apply ok_ret; lia|]. eapply ok_mono; [apply ins_outer_ok; lia|]. cbn beta. intros _ k Hk. nia.
Qed.
(** *** heap sort *)
Lemma sift_ok hi first : forall fuel k root c s, (hi - root < fuel)%nat -> (root < hi)%nat \/ (hi <= 2 * root + 1)%nat -> (first + hi <= length s)%nat -> (hi <= (root + 1) * 2 ^ k)%nat -> ok (sift less fuel root hi first) c s (fun _ n => (n <= 2 * k)%nat).
Proof.
  induction fuel as [|fuel IH]; intros k root c s Hf Hr Hs Hk; [lia|]. cbn [sift]. cbn zeta. destruct (Nat.leb_spec hi (2 * root + 1)) as [|Lc]; [apply ok_ret; lia|]. destruct k as [|k]; [cbn in Hk; lia|]. rewrite Nat.pow_succ_r' in Hk.
  eapply (then_ok _ _ _ _ _ (fun ch n => (n <= 1)%nat /\ (ch = 2 * root + 1 \/ ch = 2 * root + 2)%nat /\ (ch < hi)%nat)).
  - destruct (Nat.ltb_spec (2 * root + 1 + 1) hi); [|apply ok_ret; lia]. apply less_then; [lia..|]. intros v c1 s1 _ L1. apply ok_ret. destruct v; lia.
  - intros ch n c1 s1 (Hn & Hc & Hh) _ L1. apply less_then; [lia..|]. intros v c2 s2 _ L2. destruct v; cbn [negb]; [|apply ok_ret; lia]. apply swap_then; [lia..|]. intros c3 s3 _ L3. eapply ok_mono; [apply (IH k ch); [lia|lia|lia|nia]|]. cbn beta. intros _ n' Hn'. lia.
Qed.
Lemma sift_down_ok k lo hi first c s : (first + hi <= length s)%nat -> (hi <= 2 ^ k)%nat -> ok (sift_down less lo hi first) c s (fun _ n => (n <= 2 * k)%nat).
Proof. intros Hs Hk. apply sift_ok; [lia|lia|exact Hs|nia]. Qed.
Lemma heap_build_ok k hi first : (hi <= 2 ^ k)%nat -> forall n c s, (first + hi <= length s)%nat -> ok (heap_build less n hi first) c s (fun _ m => (m <= n * (2 * k))%nat).
Proof.
  intros Hk. induction n as [|n IH]; intros c s Hs; [apply ok_ret; lia|]. cbn [heap_build]. eapply then_ok; [apply (sift_down_ok k); assumption|]. intros [] m c1 s1 Hm _ L1. eapply ok_mono; [apply IH; lia|]. cbn beta. intros _ m' Hm'. cbn [Nat.mul]. lia.
Qed.
Lemma heap_pop_ok k first : forall n c s, (n <= 2 ^ k)%nat -> (first + n <= length s)%nat -> ok (heap_pop less n first) c s (fun _ m => (m <= n * (2 * k))%nat).
Proof.
  induction n as [|n IH]; intros c s Hk Hs; [apply ok_ret; lia|]. cbn [heap_pop]. apply swap_then; [lia..|]. intros c1 s1 _ L1. eapply then_ok; [apply (sift_down_ok k); lia|]. intros [] m c2 s2 Hm _ L2. eapply ok_mono; [apply IH; lia|]. cbn beta. intros _ m' Hm'. cbn [Nat.mul]. lia.
Qed.
Lemma heap_sort_ok k a b c s : (a + 2 <= b)%nat -> (b <= length s)%nat -> (b - a <= 2 ^ k)%nat -> ok (heap_sort less a b) c s (fun _ n => (n <= 4 * (b - a) * k)%nat).
Proof.
  intros Hab Hb Hk. unfold heap_sort. cbn zeta. eapply then_ok; [apply (heap_build_ok k); lia|]. intros [] m c1 s1 Hm _ L1. eapply ok_mono; [apply (heap_pop_ok k); lia|]. cbn beta. intros _ m' Hm'. pose proof (Nat.div_mod (b - a - 1) 2 ltac:(lia)). assert (S ((b - a - 1) / 2) <= b - a)%nat by lia. nia.
Qed.
(** *** partitions *)
Lemma test_ok (flip : bool) a i c s : (a < length s)%nat -> (i < length s)%nat -> ok (if flip then sless less a i else sless less i a) c s (fun _ n => n = 1%nat).
Proof. intros Ha Hi. destruct flip; apply sless_ok; assumption. Qed.
Lemma up_while_ok neg flip a j : forall fuel i c s, (a < length s)%nat -> (j < length s)%nat -> (S j - i < fuel)%nat ->
  ok (up_while less fuel neg flip a i j) c s (fun r n => (i <= r)%nat /\ (r <= S j \/ r = i)%nat /\ (n <= r - i + 1)%nat /\ (j < i -> n = 0)%nat).
Proof.
  induction fuel as [|fuel IH]; intros i c s Ha Hj Hf; [lia|]. cbn [up_while]. destruct (Nat.leb_spec i j); [|apply ok_ret; lia]. eapply then_ok; [apply test_ok; lia|]. intros v n c1 s1 -> _ L1. destruct (xorb neg v); [|apply ok_ret; lia]. eapply ok_mono; [apply IH; lia|]. cbn beta. intros r n Hn. lia.
Qed.
Lemma down_while_ok neg flip a i : (1 <= i)%nat -> forall fuel j c s, (a < length s)%nat -> (j < length s)%nat -> (S j - i < fuel)%nat ->
  ok (down_while less fuel neg flip a i j) c s (fun r n => (r <= j)%nat /\ (i <= S r \/ r = j)%nat /\ (n <= j - r + 1)%nat /\ (j < i -> n = 0)%nat).
Proof.
  intros Hi1. induction fuel as [|fuel IH]; intros j c s Ha Hj Hf; [lia|]. cbn [down_while]. destruct (Nat.leb_spec i j); [|apply ok_ret; lia]. eapply then_ok; [apply test_ok; lia|]. intros v n c1 s1 -> _ L1. destruct (xorb neg v); [|apply ok_ret; lia]. eapply ok_mono; [apply IH; lia|]. cbn beta. intros r n Hn. lia.
Qed.
(** a comparison that changes its mind can make the two indices meet and pass each other *)
Lemma part_loop_ok a : forall fuel i j c s, (a < i)%nat -> (a <= j)%nat -> (j < length s)%nat -> (i <= S (S j))%nat -> (S j - i < fuel)%nat ->
  ok (part_loop less fuel a i j) c s (fun r n => (a <= r <= j)%nat /\ (n <= S j - i + 2)%nat /\ (S j < i -> n = 0)%nat).
Proof.
  induction fuel as [|fuel IH]; intros i j c s Ha Hj Hl Hi Hf; [lia|]. cbn [part_loop]. apply slen_then. eapply then_ok; [apply up_while_ok; lia|]. intros i' n c1 s1 (I1 & I2 & I3 & I4) _ L1. eapply then_ok; [apply down_while_ok; lia|]. intros j' n' c2 s2 (J1 & J2 & J3 & J4) _ L2. destruct (Nat.ltb_spec j' i'); [apply ok_ret; lia|].
  apply swap_then; [lia..|]. intros c3 s3 _ L3. eapply ok_mono; [apply IH; lia|]. cbn beta. intros r m Hm. lia.
Qed.
Lemma part_eq_loop_ok a : forall fuel i j c s, (a < i)%nat -> (a <= j)%nat -> (j < length s)%nat -> (i <= S (S j))%nat -> (S j - i < fuel)%nat ->
  ok (part_eq_loop less fuel a i j) c s (fun r n => (i <= r)%nat /\ (r <= S j \/ r = i)%nat /\ (n <= S j - i + 2)%nat /\ (S j < i -> n = 0)%nat).
Proof.
  induction fuel as [|fuel IH]; intros i j c s Ha Hj Hl Hi Hf; [lia|]. cbn [part_eq_loop]. apply slen_then. eapply then_ok; [apply up_while_ok; lia|]. intros i' n c1 s1 (I1 & I2 & I3 & I4) _ L1. eapply then_ok; [apply down_while_ok; lia|]. intros j' n' c2 s2 (J1 & J2 & J3 & J4) _ L2. destruct (Nat.ltb_spec j' i'); [apply ok_ret; lia|].
  apply swap_then; [lia..|]. intros c3 s3 _ L3. eapply ok_mono; [apply IH; lia|]. cbn beta. intros r m Hm. lia.
Qed.
Lemma partition_ok a b pivot c s : (a <= pivot < b)%nat -> (a + 2 <= b)%nat -> (b <= length s)%nat -> ok (partition less a b pivot) c s (fun r n => (a <= fst r < b)%nat /\ (n <= b - a + 1)%nat).
Proof.
  intros Hp Hab Hb. unfold partition. apply slen_then. apply swap_then; [lia..|]. intros c1 s1 _ L1. eapply then_ok; [apply up_while_ok; lia|]. intros i n c2 s2 (I1 & I2 & I3 & I4) _ L2. eapply then_ok; [apply down_while_ok; lia|]. intros j n' c3 s3 (J1 & J2 & J3 & J4) _ L3. destruct (Nat.ltb_spec j i).
  - apply swap_then; [lia..|]. intros c4 s4 _ L4. apply ok_ret. cbn [fst]. lia.
  - apply swap_then; [lia..|]. intros c4 s4 _ L4. eapply then_ok; [apply part_loop_ok; lia|]. intros r m c5 s5 (Hr & Hm & Hm') _ L5. apply swap_then; [lia..|]. intros c6 s6 _ L6. apply ok_ret. cbn [fst]. lia.
Qed.
Lemma partition_equal_ok a b pivot c s : (a <= pivot < b)%nat -> (b <= length s)%nat -> ok (partition_equal less a b pivot) c s (fun r n => (a < r <= b)%nat /\ (n <= b - a + 1)%nat).
Proof.
  intros Hp Hb. unfold partition_equal. apply slen_then. apply swap_then; [lia..|]. intros c1 s1 _ L1. eapply ok_mono; [apply part_eq_loop_ok; lia|]. cbn beta. intros r n Hn. lia.
Qed.
(** *** the rest of pdqsort *)
Lemma skip_sorted_ok b : forall fuel i c s, (1 <= i <= b)%nat -> (b <= length s)%nat -> (b - i < fuel)%nat -> ok (skip_sorted less fuel i b) c s (fun r n => (i <= r <= b)%nat /\ (n <= r - i + 1)%nat).
Proof.
  induction fuel as [|fuel IH]; intros i c s Hi Hb Hf; [lia|]. cbn [skip_sorted]. destruct (Nat.ltb_spec i b); [|apply ok_ret; lia]. apply less_then; [lia..|]. intros v c1 s1 _ L1. destruct v; [apply ok_ret; lia|]. eapply ok_mono; [apply IH; lia|]. cbn beta. intros r n Hn. lia.
Qed.
Lemma shift_left_ok : forall j c s, (j < length s)%nat -> ok (shift_left less j) c s (fun _ n => (n <= j)%nat).
Proof.
  induction j as [|j IH]; intros c s Hj; [apply ok_ret; lia|]. cbn [shift_left]. apply less_then; [lia..|]. intros v c1 s1 _ L1. destruct v; cbn [negb]; [|apply ok_ret; lia]. apply swap_then; [lia..|]. intros c2 s2 _ L2. eapply ok_mono; [apply IH; lia|]. cbn beta. intros _ n Hn. lia.
Qed.
Lemma shift_right_ok : forall n j c s, (1 <= j)%nat -> (j + n <= length s)%nat -> ok (shift_right less n j) c s (fun _ k => (k <= n)%nat).
Proof.
  induction n as [|n IH]; intros j c s H1 Hj; [apply ok_ret; lia|]. cbn [shift_right]. apply less_then; [lia..|]. intros v c1 s1 _ L1. destruct v; cbn [negb]; [|apply ok_ret; lia]. apply swap_then; [lia..|]. intros c2 s2 _ L2. eapply ok_mono; [apply IH; lia|]. cbn beta. intros _ k Hk. lia.
Qed.
Lemma partial_loop_ok a b : forall steps i c s, (a < i <= b)%nat -> (b <= length s)%nat -> ok (partial_loop less steps a i b) c s (fun _ n => (n <= steps * (2 * b))%nat).
Proof.
  induction steps as [|steps IH]; intros i c s Hi Hb; [apply ok_ret; lia|]. cbn [partial_loop]. apply slen_then. eapply then_ok; [apply skip_sorted_ok; lia|]. intros i' n c1 s1 [Hi' Hn] _ L1. destruct (Nat.eqb_spec i' b); [apply ok_ret; nia|]. destruct (Nat.ltb_spec (b - a) 50); [apply ok_ret; nia|].
  apply swap_then; [lia..|]. intros c2 s2 _ L2. eapply (then_ok _ _ _ _ _ (fun _ n => (n <= i' - 1)%nat)); [destruct (Nat.leb_spec 2 (i' - a)); [apply shift_left_ok; lia|apply ok_ret; lia]|]. intros [] n1 c3 s3 Hn1 _ L3.
  eapply (then_ok _ _ _ _ _ (fun _ n => (n <= b - S i')%nat)); [destruct (Nat.leb_spec 2 (b - i')); [apply shift_right_ok; lia|apply ok_ret; lia]|]. intros [] n2 c4 s4 Hn2 _ L4. eapply ok_mono; [apply IH; lia|]. cbn beta. intros _ m Hm. cbn [Nat.mul]. lia.
Qed.
Lemma partial_insertion_ok a b c s : (a < b)%nat -> (b <= length s)%nat -> ok (partial_insertion less a b) c s (fun _ n => (n <= 10 * b)%nat).
Proof. intros H1 H2. eapply ok_mono; [apply partial_loop_ok; lia|]. cbn beta. intros _ n Hn. lia. Qed.
Lemma break_loop_ok a len : (1 <= len)%nat -> forall n random idx c s, (idx + n <= length s)%nat -> (a + len <= length s)%nat -> ok (break_loop next n random a len idx) c s (fun _ k => k = 0%nat).
Proof.
  intros Hl. induction n as [|n IH]; intros random idx c s Hi Hs; [apply ok_ret; lia|]. cbn [break_loop]. cbn zeta. pose proof (PdqProofs.npot_bound len Hl) as B.
  set (o := Z.to_nat (Z.land (u64 (next random)) (next_power_of_two len - 1))).
  assert (Ho : (o < 2 * len)%nat).
  { unfold o. assert (E : (next_power_of_two len - 1)%Z = Z.ones (Z.log2 (Z.of_nat len) + 1)) by (unfold next_power_of_two; rewrite Z.ones_equiv; lia). rewrite E, Z.land_ones by (pose proof (Z.log2_nonneg (Z.of_nat len)); lia). fold (next_power_of_two len). pose proof (Z.mod_pos_bound (u64 (next random)) (next_power_of_two len) ltac:(lia)). unfold next_power_of_two in *. lia. }
  clearbody o. apply swap_then; [lia|destruct (Nat.leb_spec len o); lia|]. intros c1 s1 _ L1. apply IH; lia.
Qed.
Lemma break_patterns_ok a b c s : (a <= b)%nat -> (b <= length s)%nat -> ok (break_patterns next a b) c s (fun _ n => n = 0%nat).
Proof.
  intros Hab Hb. unfold break_patterns. cbn zeta. destruct (Nat.leb_spec 8 (b - a)); [|apply ok_ret; reflexivity]. pose proof (Nat.div_mod (b - a) 4 ltac:(lia)). apply break_loop_ok; lia.
Qed.
Lemma order2_ok i j n c s : (i < length s)%nat -> (j < length s)%nat -> ok (order2 less i j n) c s (fun r k => k = 1%nat /\ (fst r = (i, j) \/ fst r = (j, i))).
Proof. intros Hi Hj. unfold order2. apply less_then; [lia..|]. intros v c1 s1 _ _. apply ok_ret. destruct v; cbn; auto. Qed.
Lemma median_ok i j k n c s : (i < length s)%nat -> (j < length s)%nat -> (k < length s)%nat -> ok (median less i j k n) c s (fun r m => m = 3%nat /\ (fst r = i \/ fst r = j \/ fst r = k)).
Proof.
  intros Hi Hj Hk. unfold median. eapply then_ok; [apply order2_ok; lia|]. intros [[x y] w] m c1 s1 [-> O1] _ L1. cbn [fst] in O1. eapply then_ok; [apply order2_ok; destruct O1 as [[= -> ->]|[= -> ->]]; lia|]. intros [[x2 y2] w2] m c2 s2 [-> O2] _ L2. cbn [fst] in O2.
  eapply then_ok; [apply order2_ok; destruct O1 as [[= -> ->]|[= -> ->]], O2 as [[= -> ->]|[= -> ->]]; lia|]. intros [[x3 y3] w3] m c3 s3 [-> O3] _ L3. apply ok_ret. split; [reflexivity|]. cbn [fst] in *. destruct O1 as [[= -> ->]|[= -> ->]], O2 as [[= -> ->]|[= -> ->]], O3 as [[= -> ->]|[= -> ->]]; auto.
Qed.
Lemma choose_pivot_ok a b c s : (8 <= b - a)%nat -> (b <= length s)%nat -> ok (choose_pivot less a b) c s (fun r n => (a <= fst r < b)%nat /\ (n <= 12)%nat).
Proof.
  intros Hl Hb. unfold choose_pivot. cbn zeta. pose proof (Nat.div_mod (b - a) 4 ltac:(lia)) as D. pose proof (Nat.mod_upper_bound (b - a) 4 ltac:(lia)) as U. set (q := ((b - a) / 4)%nat) in *. clearbody q.
  eapply (then_ok _ _ _ _ _ (fun r n => (a <= fst r < b)%nat /\ (n <= 12)%nat)); [|intros [j w] n c1 s1 Hn _ _; apply ok_ret; cbn [fst] in *; lia].
  destruct (Nat.leb_spec 8 (b - a)); [|lia].
  eapply (then_ok _ _ _ _ _ (fun r n => (n <= 9)%nat /\ let '(i, j, k, _) := r in (a <= i < b /\ a <= j < b /\ a <= k < b)%nat)).
  - destruct (Nat.leb_spec 50 (b - a)); [|apply ok_ret; lia]. unfold median_adjacent.
    eapply then_ok; [apply median_ok; lia|]. intros [i w] n c1 s1 [-> H1] _ L1. cbn [fst] in H1. eapply then_ok; [apply median_ok; lia|]. intros [j w'] n c2 s2 [-> H2] _ L2. cbn [fst] in H2. eapply then_ok; [apply median_ok; lia|]. intros [k w''] n c3 s3 [-> H3] _ L3. cbn [fst] in H3. apply ok_ret. lia.
  - intros [[[i j] k] w] n c1 s1 [Hn Hr] _ L1. eapply ok_mono; [apply median_ok; lia|]. cbn beta. intros r m [-> Hm]. destruct Hm as [->|[->| ->]]; lia.
Qed.
Lemma reverse_range_ok : forall fuel i j c s, (j < length s)%nat -> (j - i < fuel)%nat -> ok (reverse_range fuel i j) c s (fun _ n => n = 0%nat).
Proof.
  induction fuel as [|fuel IH]; intros i j c s Hj Hf; [lia|]. cbn [reverse_range]. destruct (Nat.ltb_spec i j); [|apply ok_ret; reflexivity]. apply swap_then; [lia..|]. intros c1 s1 _ L1. apply IH; lia.
Qed.
Lemma bits_len_spec n : (n <= 2 ^ bits_len n)%nat.
Proof.
  destruct n as [|n]; [cbn; lia|]. change (bits_len (S n)) with (S (Z.to_nat (Z.log2 (Z.of_nat (S n))))). pose proof (Z.log2_spec (Z.of_nat (S n)) ltac:(lia)) as [_ H]. pose proof (Z.log2_nonneg (Z.of_nat (S n))) as G. apply Nat2Z.inj_le. rewrite Nat2Z.inj_pow, (Nat2Z.inj_succ (Z.to_nat _)), Z2Nat.id by exact G. change (Z.of_nat 2) with 2%Z. lia.
Qed.
Lemma pow_big n : (n <= 2 ^ n)%nat.
Proof. pose proof (Nat.pow_gt_lin_r 2 n ltac:(lia)). lia. Qed.
Lemma pdq_loop_ok N : forall fuel a b limit bal par c s, length s = N -> (a <= b)%nat -> (b <= N)%nat -> (b - a < fuel)%nat ->
  ok (pdq_loop less next fuel a b limit bal par) c s (fun _ n => (n <= 13 * N * (b - a))%nat).
Proof.
  induction fuel as [|fuel IH]; intros a b limit bal par c s HN Hab Hb Hf; [lia|]. cbn [pdq_loop]. cbn zeta. destruct (Nat.leb_spec (b - a) 12) as [L12|L12].
  { eapply ok_mono; [apply insertion_ok; lia|]. cbn beta. intros _ n Hn. nia. }
  destruct (Nat.eqb_spec limit 0) as [->|L0].
  { eapply ok_mono; [apply (heap_sort_ok N); [lia|lia|pose proof (pow_big N); lia]|]. cbn beta. intros _ n Hn. nia. }
  eapply (then_ok _ _ _ _ _ (fun _ n => n = 0%nat)); [destruct (negb bal); [apply break_patterns_ok; lia|apply ok_ret; reflexivity]|]. intros [] n c1 s1 -> _ L1.
  eapply then_ok; [apply choose_pivot_ok; lia|]. intros [pivot h] n1 c2 s2 [Hp Hn1] _ L2. cbn [fst] in Hp.
  eapply (then_ok _ _ _ _ _ (fun r n => (a <= fst r < b)%nat /\ n = 0%nat)).
  { destruct h; try (apply ok_ret; cbn [fst]; lia). apply slen_then. eapply then_ok; [apply reverse_range_ok; lia|]. intros [] n c3 s3 -> _ _. apply ok_ret. cbn [fst]. lia. }
  clear h pivot Hp. intros [pivot h] n c3 s3 [Hp ->] _ L3. cbn [fst] in Hp.
  eapply (then_ok _ _ _ _ _ (fun _ n => (n <= 10 * b)%nat)); [destruct (bal && par && _); [apply partial_insertion_ok; lia|apply ok_ret; lia]|]. intros done n2 c4 s4 Hn2 _ L4. destruct done; [apply ok_ret; nia|].
  eapply (then_ok _ _ _ _ _ (fun _ n => (n <= 1)%nat)); [destruct (Nat.ltb_spec 0 a); [apply less_then; [lia..|]; intros v c5 s5 _ _; apply ok_ret; lia|apply ok_ret; lia]|]. intros dup n3 c5 s5 Hn3 _ L5. destruct dup.
  - eapply then_ok; [apply partition_equal_ok; lia|]. intros mid n4 c6 s6 [Hm Hn4] _ L6. eapply ok_mono; [apply IH; lia|]. cbn beta. intros _ n Hn. nia.
  - eapply then_ok; [apply partition_ok; lia|]. intros [mid already] n4 c6 s6 [Hm Hn4] _ L6. cbn [fst] in Hm. destruct (mid - a <? b - mid)%nat.
    + eapply then_ok; [apply IH; lia|]. intros [] n5 c7 s7 Hn5 _ L7. eapply ok_mono; [apply IH; lia|]. cbn beta. intros _ n Hn. nia.
    + eapply then_ok; [apply IH; lia|]. intros [] n5 c7 s7 Hn5 _ L7. eapply ok_mono; [apply IH; lia|]. cbn beta. intros _ n Hn. nia.
Qed.
Lemma sort_func_ok c s : ok (sort_func less next) c s (fun _ n => (n <= 13 * length s * length s)%nat).
Proof. unfold sort_func. apply slen_then. eapply ok_mono; [apply (pdq_loop_ok (length s)); lia|]. cbn beta. intros _ n Hn. nia. Qed.

(** *** the stable sort *)
Lemma swap_range_ok : forall n a b c s, (a + n <= length s)%nat -> (b + n <= length s)%nat -> ok (swap_range n a b) c s (fun _ k => k = 0%nat).
Proof.
  induction n as [|n IH]; intros a b c s Ha Hb; [apply ok_ret; reflexivity|]. cbn [swap_range]. apply swap_then; [lia..|]. intros c1 s1 _ L1. apply IH; lia.
Qed.
Lemma rotate_loop_ok : forall fuel m i j c s, (1 <= i)%nat -> (1 <= j)%nat -> (i <= m)%nat -> (m + j <= length s)%nat -> (i + j < fuel)%nat -> ok (rotate_loop fuel m i j) c s (fun _ k => k = 0%nat).
Proof.
  induction fuel as [|fuel IH]; intros m i j c s Hi Hj Hm Hs Hf; [lia|]. cbn [rotate_loop]. destruct (Nat.eqb_spec i j); [apply swap_range_ok; lia|]. destruct (Nat.ltb_spec j i).
  - eapply then_ok; [apply swap_range_ok; lia|]. intros [] k c1 s1 -> _ L1. apply IH; lia.
  - eapply then_ok; [apply swap_range_ok; lia|]. intros [] k c1 s1 -> _ L1. apply IH; lia.
Qed.
Lemma rotate_ok a m b c s : (a < m < b)%nat -> (b <= length s)%nat -> ok (rotate a m b) c s (fun _ k => k = 0%nat).
Proof. intros H Hb. apply rotate_loop_ok; lia. Qed.
Lemma bsearch_ok (f : nat -> M A bool) N : forall fuel k i j c s, (forall h c s, (i <= h < j)%nat -> length s = N -> ok (f h) c s (fun _ n => n = 1%nat)) -> length s = N -> (i <= j)%nat -> (j - i < fuel)%nat -> (j - i < 2 ^ k)%nat ->
  ok (bsearch fuel f i j) c s (fun r n => (i <= r <= j)%nat /\ (n <= k)%nat).
Proof.
  induction fuel as [|fuel IH]; intros k i j c s F HN Hij Hf Hk; [lia|]. cbn [bsearch]. destruct (Nat.ltb_spec i j); [|apply ok_ret; lia]. cbn zeta. destruct k as [|k]; [cbn in Hk; lia|]. rewrite Nat.pow_succ_r' in Hk.
  pose proof (Nat.div_mod (i + j) 2 ltac:(lia)). pose proof (Nat.mod_upper_bound (i + j) 2 ltac:(lia)). set (h := ((i + j) / 2)%nat) in *. eapply then_ok; [apply F; [lia|exact HN]|]. intros v n c1 s1 -> _ L1. destruct v.
  - eapply ok_mono; [apply (IH k); [intros h' c' s' Hh Hl; apply F; [lia|exact Hl]|lia..]|]. cbn beta. intros r n Hn. lia.
  - eapply ok_mono; [apply (IH k); [intros h' c' s' Hh Hl; apply F; [lia|exact Hl]|lia..]|]. cbn beta. intros r n Hn. lia.
Qed.
Lemma carry_up_ok : forall n k c s, (k + n < length s)%nat -> ok (carry_up n k) c s (fun _ m => m = 0%nat).
Proof. induction n as [|n IH]; intros k c s H; [apply ok_ret; reflexivity|]. cbn [carry_up]. apply swap_then; [lia..|]. intros c1 s1 _ L1. apply IH; lia. Qed.
Lemma carry_down_ok : forall n k c s, (k < length s)%nat -> (n <= k)%nat -> ok (carry_down n k) c s (fun _ m => m = 0%nat).
Proof. induction n as [|n IH]; intros k c s H Hn; [apply ok_ret; reflexivity|]. cbn [carry_down]. apply swap_then; [lia..|]. intros c1 s1 _ L1. apply IH; lia. Qed.
Lemma sym_merge_ok N : forall fuel k a m b c s, length s = N -> (a < m < b)%nat -> (b <= N)%nat -> (b - a <= fuel)%nat -> (b - a <= 2 ^ k)%nat -> ok (sym_merge less fuel a m b) c s (fun _ n => (n + k + 2 <= 2 * 2 ^ k)%nat).
Proof.
  induction fuel as [|fuel IH]; intros k a m b c s HN Hm Hb Hf Hk; [lia|]. cbn [sym_merge]. apply slen_then. rewrite HN. destruct k as [|k]; [cbn in Hk; lia|]. rewrite Nat.pow_succ_r' in *. assert (G : (k + 1 <= 2 ^ k)%nat) by (pose proof (Nat.pow_gt_lin_r 2 k ltac:(lia)); lia).
  destruct (Nat.eqb_spec (m - a) 1) as [M1|M1].
  { eapply then_ok; [apply (bsearch_ok _ N (S N) (S k)); [|exact HN|lia|lia|rewrite Nat.pow_succ_r'; lia]|]. { intros h c' s' Hh Hl. apply sless_ok; lia. } intros i n c1 s1 [Hi Hn] _ L1. eapply ok_mono; [apply carry_up_ok; lia|]. cbn beta. intros _ n' ->. lia. }
  destruct (Nat.eqb_spec (b - m) 1) as [M2|M2].
  { eapply then_ok; [apply (bsearch_ok _ N (S N) (S k)); [|exact HN|lia|lia|rewrite Nat.pow_succ_r'; lia]|]. { intros h c' s' Hh Hl. apply less_then; [lia..|]. intros v c2 s2 _ _. apply ok_ret. reflexivity. } intros i n c1 s1 [Hi Hn] _ L1. eapply ok_mono; [apply carry_down_ok; lia|]. cbn beta. intros _ n' ->. lia. }
  cbn zeta. pose proof (Nat.div_mod (a + b) 2 ltac:(lia)) as D. pose proof (Nat.mod_upper_bound (a + b) 2 ltac:(lia)) as U. set (mid := ((a + b) / 2)%nat) in *. clearbody mid.
  assert (E : exists st r, (if (mid <? m)%nat then ((mid + m - b)%nat, mid) else (a, m)) = (st, r) /\ (st <= r)%nat /\ (r - st <= 2 ^ k)%nat /\ (a <= st)%nat /\ (r <= mid)%nat /\ (r <= m)%nat /\ (mid + m - st <= b)%nat).
  { destruct (Nat.ltb_spec mid m); do 2 eexists; (split; [reflexivity|]); lia. }
  destruct E as (st & r & -> & E1 & E2 & E3 & E4 & E5 & E6).
  eapply then_ok; [apply (bsearch_ok _ N (S N) (S k)); [|exact HN|lia|lia|rewrite Nat.pow_succ_r'; lia]|]. { intros h c' s' Hh Hl. apply less_then; [lia..|]. intros v c2 s2 _ _. apply ok_ret. reflexivity. }
  intros st' n c1 s1 [Hs Hn] _ L1.
  eapply (then_ok _ _ _ _ _ (fun _ n => n = 0%nat)).
  { destruct (Nat.ltb_spec st' m); cbn [andb]; [|apply ok_ret; reflexivity]. destruct (Nat.ltb_spec m (mid + m - st')); [|apply ok_ret; reflexivity]. apply rotate_ok; lia. }
  intros [] n0 c2 s2 -> _ L2. eapply (then_ok _ _ _ _ _ (fun _ n => (n + k + 2 <= 2 * 2 ^ k)%nat)).
  { destruct (Nat.ltb_spec a st'); cbn [andb]; [|apply ok_ret; lia]. destruct (Nat.ltb_spec st' mid); [|apply ok_ret; lia]. apply IH; lia. }
  intros [] n1 c3 s3 Hn1 _ L3. eapply (ok_mono _ _ _ (fun _ n => (n + k + 2 <= 2 * 2 ^ k)%nat)).
  { destruct (Nat.ltb_spec mid (mid + m - st')); cbn [andb]; [|apply ok_ret; lia]. destruct (Nat.ltb_spec (mid + m - st') b); [|apply ok_ret; lia]. apply IH; lia. }
  cbn beta. intros _ n2 Hn2. lia.
Qed.
Lemma bits_len_half n : (1 <= n)%nat -> (2 ^ bits_len n <= 2 * n)%nat.
Proof.
  intros H. destruct n as [|n]; [lia|]. change (bits_len (S n)) with (S (Z.to_nat (Z.log2 (Z.of_nat (S n))))). pose proof (Z.log2_spec (Z.of_nat (S n)) ltac:(lia)) as [G _]. pose proof (Z.log2_nonneg (Z.of_nat (S n))) as L. rewrite Nat.pow_succ_r'. apply Nat2Z.inj_le. rewrite !Nat2Z.inj_mul, Nat2Z.inj_pow, Z2Nat.id by exact L. change (Z.of_nat 2) with 2%Z. lia.
Qed.
Lemma merge_ok N a m b fuel c s : length s = N -> (a < m < b)%nat -> (b <= N)%nat -> (b - a <= fuel)%nat -> ok (sym_merge less fuel a m b) c s (fun _ n => (n <= 4 * (b - a))%nat).
Proof. intros HN Hm Hb Hf. eapply ok_mono; [apply (sym_merge_ok N fuel (bits_len (b - a))); [assumption..|apply bits_len_spec]|]. cbn beta. intros _ n Hn. pose proof (bits_len_half (b - a) ltac:(lia)). lia. Qed.
Lemma stable_blocks_ok N : forall fuel a c s, length s = N -> (a <= N)%nat -> (N - a < fuel)%nat -> ok (stable_blocks less fuel a N) c s (fun _ n => (n <= 20 * (N - a))%nat).
Proof.
  induction fuel as [|fuel IH]; intros a c s HN Ha Hf; [lia|]. cbn [stable_blocks]. destruct (Nat.leb_spec (a + 20) N).
  - eapply then_ok; [apply insertion_ok; lia|]. intros [] n c1 s1 Hn _ L1. eapply ok_mono; [apply IH; lia|]. cbn beta. intros _ n' Hn'. nia.
  - eapply ok_mono; [apply insertion_ok; lia|]. cbn beta. intros _ n Hn. nia.
Qed.
Lemma merge_round_ok N size : (1 <= size)%nat -> forall fuel a c s, length s = N -> (a <= N)%nat -> (N - a < fuel)%nat -> ok (merge_round less fuel a size N) c s (fun _ n => (n <= 4 * (N - a))%nat).
Proof.
  intros Hs. induction fuel as [|fuel IH]; intros a c s HN Ha Hf; [lia|]. cbn [merge_round]. apply slen_then. rewrite HN. destruct (Nat.leb_spec (a + 2 * size) N).
  - eapply then_ok; [apply (merge_ok N); lia|]. intros [] n c1 s1 Hn _ L1. eapply ok_mono; [apply IH; lia|]. cbn beta. intros _ n' Hn'. lia.
  - destruct (Nat.ltb_spec (a + size) N); [|apply ok_ret; lia]. eapply ok_mono; [apply (merge_ok N); lia|]. cbn beta. intros _ n Hn. lia.
Qed.
Lemma merge_rounds_ok N : forall fuel k size c s, length s = N -> (1 <= size)%nat -> (N - size < fuel)%nat -> (N <= size * 2 ^ k)%nat -> ok (merge_rounds less fuel size N) c s (fun _ n => (n <= 4 * N * k)%nat).
Proof.
  induction fuel as [|fuel IH]; intros k size c s HN Hs Hf Hk; [lia|]. cbn [merge_rounds]. destruct (Nat.ltb_spec size N); [|apply ok_ret; lia]. destruct k as [|k]; [cbn in Hk; lia|]. rewrite Nat.pow_succ_r' in Hk. eapply then_ok; [apply merge_round_ok; lia|]. intros [] n c1 s1 Hn _ L1. eapply ok_mono; [apply (IH k); [lia|lia|lia|nia]|]. cbn beta. intros _ n' Hn'. nia.
Qed.
Lemma sort_stable_func_ok c s k : (length s <= 20 * 2 ^ k)%nat -> ok (sort_stable_func less) c s (fun _ n => (n <= length s * (20 + 4 * k))%nat).
Proof.
  intros Hk. unfold sort_stable_func. apply slen_then. eapply then_ok; [apply stable_blocks_ok; lia|]. intros [] n c1 s1 Hn _ L1. eapply ok_mono; [apply (merge_rounds_ok (length s) _ k); lia|]. cbn beta. intros _ n' Hn'. nia.
Qed.
End proofs.
