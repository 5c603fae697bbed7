(** With a comparison that only compares, the sorts of SortEffModel are those of PdqModel. *)
From Verif Require Import Base PdqModel SortEffModel.

Lemma bind_inv {X Y} (r : res X) (k : X -> res Y) y : rbind r k = Ret y -> exists x, r = Ret x /\ k x = Ret y.
Proof. destruct r; cbn; intros H; [eauto|discriminate..]. Qed.
Ltac binv H x E := apply bind_inv in H as (x & E & H).

Section sim.
Context {A : Type} (lt : A -> A -> bool) (next : Z -> Z).
Definition pure : nat -> A -> A -> res bool := fun _ x y => Ret (lt x y).
Implicit Types (s : list A) (a b i j c : nat).
Definition runs {X} (m : M A X) c s (x : X) s' : Prop := exists c', m c s = EVal x c' s'.
Lemma runs_ret {X} (x : X) c s : runs (mret x) c s x s.
Proof. eexists. reflexivity. Qed.
Lemma runs_bind {X Y} (m : M A X) (k : X -> M A Y) c s x s1 y s2 : runs m c s x s1 -> (forall c1, runs (k x) c1 s1 y s2) -> runs (mbind m k) c s y s2.
Proof. intros [c1 H] K. destruct (K c1) as [c2 H2]. exists c2. unfold mbind. rewrite H. exact H2. Qed.
Lemma slen_runs {X} (k : nat -> M A X) c s y s2 : runs (k (length s)) c s y s2 -> runs (let% n := slen in k n) c s y s2.
Proof. intros H. exact H. Qed.
Lemma sget_inv s i x : PdqModel.sget s i = Ret x -> s !! i = Some x.
Proof. unfold PdqModel.sget. destruct (s !! i); cbn; intros H; [congruence|discriminate]. Qed.
Lemma sswap_sim s i j s' c : PdqModel.sswap s i j = Ret s' -> runs (sswap i j) c s () s'.
Proof. unfold PdqModel.sswap. intros H. binv H x X. binv H y Y. apply sget_inv in X, Y. injection H as <-. exists c. unfold sswap, mbind, sget, sset. rewrite X, Y. reflexivity. Qed.
Lemma sless_sim s i j v c : PdqModel.sless lt s i j = Ret v -> runs (sless pure i j) c s v s.
Proof. unfold PdqModel.sless. intros H. binv H x X. binv H y Y. apply sget_inv in X, Y. injection H as <-. exists (S c). unfold sless, mbind, sget. rewrite X, Y. reflexivity. Qed.
Ltac sw := eapply runs_bind; [eapply sswap_sim; eassumption|let cc := fresh "cc" in intros cc].
Ltac ls := eapply runs_bind; [eapply sless_sim; eassumption|let cc := fresh "cc" in intros cc].

Lemma ins_inner_sim a : forall j s s' c, PdqModel.ins_inner lt s a j = Ret s' -> runs (ins_inner pure a j) c s () s'.
Proof.
  induction j as [|j IH]; intros s s' c H; cbn [ins_inner PdqModel.ins_inner] in *; [injection H as <-; apply runs_ret|]. destruct (a <? S j)%nat; [|injection H as <-; apply runs_ret]. binv H v E. ls. destruct v; [|injection H as <-; apply runs_ret]. binv H s1 E1. sw. apply IH, H.
Qed.
Lemma ins_outer_sim a : forall n i s s' c, PdqModel.ins_outer lt n s a i = Ret s' -> runs (ins_outer pure n a i) c s () s'.
Proof. induction n as [|n IH]; intros i s s' c H; cbn [ins_outer PdqModel.ins_outer] in *; [injection H as <-; apply runs_ret|]. binv H s1 E. eapply runs_bind; [apply ins_inner_sim, E|]. intros c1. apply IH, H. Qed.
Lemma insertion_sim a b s s' c : PdqModel.insertion lt s a b = Ret s' -> runs (insertion pure a b) c s () s'.
Proof. apply ins_outer_sim. Qed.
Lemma sift_sim hi first : forall fuel root s s' c, PdqModel.sift lt fuel s root hi first = Ret s' -> runs (sift pure fuel root hi first) c s () s'.
Proof.
  induction fuel as [|fuel IH]; intros root s s' c H; cbn [sift PdqModel.sift] in *; [discriminate|]. cbn zeta in *. destruct (hi <=? 2 * root + 1)%nat; [injection H as <-; apply runs_ret|]. binv H ch E. eapply (runs_bind _ _ _ _ ch s).
  - destruct (2 * root + 1 + 1 <? hi)%nat; [|injection E as <-; apply runs_ret]. binv E v E1. ls. injection E as <-. apply runs_ret.
  - intros c1. binv H v E1. ls. destruct (negb v); [injection H as <-; apply runs_ret|]. binv H s1 E2. sw. apply IH, H.
Qed.
Lemma heap_build_sim hi first : forall n s s' c, PdqModel.heap_build lt n s hi first = Ret s' -> runs (heap_build pure n hi first) c s () s'.
Proof. induction n as [|n IH]; intros s s' c H; cbn [heap_build PdqModel.heap_build] in *; [injection H as <-; apply runs_ret|]. binv H s1 E. eapply runs_bind; [apply sift_sim, E|]. intros c1. apply IH, H. Qed.
Lemma heap_pop_sim first : forall n s s' c, PdqModel.heap_pop lt n s first = Ret s' -> runs (heap_pop pure n first) c s () s'.
Proof. induction n as [|n IH]; intros s s' c H; cbn [heap_pop PdqModel.heap_pop] in *; [injection H as <-; apply runs_ret|]. binv H s1 E. binv H s2 E2. sw. eapply runs_bind; [apply sift_sim, E2|]. intros c1. apply IH, H. Qed.
Lemma heap_sort_sim a b s s' c : PdqModel.heap_sort lt s a b = Ret s' -> runs (heap_sort pure a b) c s () s'.
Proof. unfold PdqModel.heap_sort, heap_sort. cbn zeta. intros H. binv H s1 E. eapply runs_bind; [apply heap_build_sim, E|]. intros c1. apply heap_pop_sim, H. Qed.
Lemma test_sim (flip : bool) s a i v c : (if flip then PdqModel.sless lt s a i else PdqModel.sless lt s i a) = Ret v -> runs (if flip then sless pure a i else sless pure i a) c s v s.
Proof. destruct flip; apply sless_sim. Qed.
Lemma up_while_sim neg flip a j s : forall fuel i r c, PdqModel.up_while lt fuel neg flip s a i j = Ret r -> runs (up_while pure fuel neg flip a i j) c s r s.
Proof.
  induction fuel as [|fuel IH]; intros i r c H; cbn [up_while PdqModel.up_while] in *; [discriminate|]. destruct (i <=? j)%nat; [|injection H as <-; apply runs_ret]. binv H v E. eapply runs_bind; [apply test_sim, E|]. intros c1. destruct (xorb neg v); [apply IH, H|injection H as <-; apply runs_ret].
Qed.
Lemma down_while_sim neg flip a i s : forall fuel j r c, PdqModel.down_while lt fuel neg flip s a i j = Ret r -> runs (down_while pure fuel neg flip a i j) c s r s.
Proof.
  induction fuel as [|fuel IH]; intros j r c H; cbn [down_while PdqModel.down_while] in *; [discriminate|]. destruct (i <=? j)%nat; [|injection H as <-; apply runs_ret]. binv H v E. eapply runs_bind; [apply test_sim, E|]. intros c1. destruct (xorb neg v); [apply IH, H|injection H as <-; apply runs_ret].
Qed.
Lemma part_loop_sim a : forall fuel i j s s' r c, PdqModel.part_loop lt fuel s a i j = Ret (s', r) -> runs (part_loop pure fuel a i j) c s r s'.
Proof.
  induction fuel as [|fuel IH]; intros i j s s' r c H; cbn [part_loop PdqModel.part_loop] in *; [discriminate|]. apply slen_runs. binv H i' E. eapply runs_bind; [apply up_while_sim, E|]. intros c1. binv H j' E1. eapply runs_bind; [apply down_while_sim, E1|]. intros c2. destruct (j' <? i')%nat; [injection H as <- <-; apply runs_ret|]. binv H s1 E2. sw. apply IH, H.
Qed.
Lemma part_eq_loop_sim a : forall fuel i j s s' r c, PdqModel.part_eq_loop lt fuel s a i j = Ret (s', r) -> runs (part_eq_loop pure fuel a i j) c s r s'.
Proof.
  induction fuel as [|fuel IH]; intros i j s s' r c H; cbn [part_eq_loop PdqModel.part_eq_loop] in *; [discriminate|]. apply slen_runs. binv H i' E. eapply runs_bind; [apply up_while_sim, E|]. intros c1. binv H j' E1. eapply runs_bind; [apply down_while_sim, E1|]. intros c2. destruct (j' <? i')%nat; [injection H as <- <-; apply runs_ret|]. binv H s1 E2. sw. apply IH, H.
Qed.
Lemma sswap_len s i j s' : PdqModel.sswap s i j = Ret s' -> length s' = length s.
Proof. unfold PdqModel.sswap. intros H. binv H x X. binv H y Y. injection H as <-. rewrite !insert_length. reflexivity. Qed.
Lemma partition_sim a b pivot s s' r c : PdqModel.partition lt s a b pivot = Ret (s', r) -> runs (partition pure a b pivot) c s r s'.
Proof.
  unfold PdqModel.partition, partition. intros H. apply slen_runs. binv H s1 E. sw. rewrite <- (sswap_len _ _ _ _ E). binv H i E1. eapply runs_bind; [apply up_while_sim, E1|]. intros c1. binv H j E2. eapply runs_bind; [apply down_while_sim, E2|]. intros c2. destruct (j <? i)%nat.
  - binv H s2 E3. sw. injection H as <- <-. apply runs_ret.
  - binv H s2 E3. sw. rewrite <- (sswap_len _ _ _ _ E3). binv H p E4. destruct p as [s3 j2]. eapply runs_bind; [apply part_loop_sim, E4|]. intros c3. binv H s4 E5. sw. injection H as <- <-. apply runs_ret.
Qed.
Lemma partition_equal_sim a b pivot s s' r c : PdqModel.partition_equal lt s a b pivot = Ret (s', r) -> runs (partition_equal pure a b pivot) c s r s'.
Proof. unfold PdqModel.partition_equal, partition_equal. intros H. apply slen_runs. binv H s1 E. sw. rewrite <- (sswap_len _ _ _ _ E). apply part_eq_loop_sim, H. Qed.
Lemma skip_sorted_sim b s : forall fuel i r c, PdqModel.skip_sorted lt fuel s i b = Ret r -> runs (skip_sorted pure fuel i b) c s r s.
Proof. induction fuel as [|fuel IH]; intros i r c H; cbn [skip_sorted PdqModel.skip_sorted] in *; [discriminate|]. destruct (i <? b)%nat; [|injection H as <-; apply runs_ret]. binv H v E. ls. destruct v; [injection H as <-; apply runs_ret|apply IH, H]. Qed.
Lemma shift_left_sim : forall j s s' c, PdqModel.shift_left lt s j = Ret s' -> runs (shift_left pure j) c s () s'.
Proof. induction j as [|j IH]; intros s s' c H; cbn [shift_left PdqModel.shift_left] in *; [injection H as <-; apply runs_ret|]. binv H v E. ls. destruct (negb v); [injection H as <-; apply runs_ret|]. binv H s1 E1. sw. apply IH, H. Qed.
Lemma shift_right_sim : forall n j s s' c, PdqModel.shift_right lt n s j = Ret s' -> runs (shift_right pure n j) c s () s'.
Proof. induction n as [|n IH]; intros j s s' c H; cbn [shift_right PdqModel.shift_right] in *; [injection H as <-; apply runs_ret|]. binv H v E. ls. destruct (negb v); [injection H as <-; apply runs_ret|]. binv H s1 E1. sw. apply IH, H. Qed.
Lemma partial_loop_sim a b : forall steps i s s' r c, PdqModel.partial_loop lt steps s a i b = Ret (s', r) -> runs (partial_loop pure steps a i b) c s r s'.
Proof.
  induction steps as [|steps IH]; intros i s s' r c H; cbn [partial_loop PdqModel.partial_loop] in *; [injection H as <- <-; apply runs_ret|]. apply slen_runs. binv H i' E. eapply runs_bind; [apply skip_sorted_sim, E|]. intros c1. destruct (i' =? b)%nat; [injection H as <- <-; apply runs_ret|]. destruct (b - a <? 50)%nat; [injection H as <- <-; apply runs_ret|].
  binv H s1 E1. sw. binv H s2 E2. eapply (runs_bind _ _ _ _ () s2); [destruct (2 <=? i' - a)%nat; [apply shift_left_sim, E2|injection E2 as <-; apply runs_ret]|]. intros c3. binv H s3 E3. eapply (runs_bind _ _ _ _ () s3); [destruct (2 <=? b - i')%nat; [apply shift_right_sim, E3|injection E3 as <-; apply runs_ret]|]. intros c4. apply IH, H.
Qed.
Lemma break_loop_sim a len : forall n random idx s s' c, PdqModel.break_loop next n s random a len idx = Ret s' -> runs (break_loop next n random a len idx) c s () s'.
Proof. induction n as [|n IH]; intros random idx s s' c H; cbn [break_loop PdqModel.break_loop] in *; [injection H as <-; apply runs_ret|]. cbn zeta in *. binv H s1 E. sw. apply IH, H. Qed.
Lemma break_patterns_sim a b s s' c : PdqModel.break_patterns next s a b = Ret s' -> runs (break_patterns next a b) c s () s'.
Proof. unfold PdqModel.break_patterns, break_patterns. cbn zeta. destruct (8 <=? b - a)%nat; [apply break_loop_sim|]. intros H. injection H as <-. apply runs_ret. Qed.
Lemma order2_sim i j n s r c : PdqModel.order2 lt s i j n = Ret r -> runs (order2 pure i j n) c s r s.
Proof. unfold PdqModel.order2, order2. intros H. binv H v E. ls. injection H as <-. apply runs_ret. Qed.
Lemma median_sim i j k n s r c : PdqModel.median lt s i j k n = Ret r -> runs (median pure i j k n) c s r s.
Proof.
  unfold PdqModel.median, median. intros H. binv H p E. destruct p as [[x y] w]. eapply runs_bind; [apply order2_sim, E|]. intros c1. binv H p E1. destruct p as [[x1 y1] w1]. eapply runs_bind; [apply order2_sim, E1|]. intros c2. binv H p E2. destruct p as [[x2 y2] w2]. eapply runs_bind; [apply order2_sim, E2|]. intros c3. injection H as <-. apply runs_ret.
Qed.
Lemma choose_pivot_sim a b s r c : PdqModel.choose_pivot lt s a b = Ret r -> runs (choose_pivot pure a b) c s r s.
Proof.
  unfold PdqModel.choose_pivot, choose_pivot. cbn zeta. intros H. binv H p E. destruct p as [j w]. eapply (runs_bind _ _ _ _ (j, w) s); [|intros c1; injection H as <-; apply runs_ret]. clear H. destruct (8 <=? b - a)%nat; [|injection E as <- <-; apply runs_ret].
  binv E q E0. destruct q as [[[i1 j1] k1] w1]. eapply (runs_bind _ _ _ _ (i1, j1, k1, w1) s); [|intros c1; apply median_sim, E]. destruct (50 <=? b - a)%nat; [|injection E0 as <- <- <- <-; apply runs_ret].
  unfold PdqModel.median_adjacent, median_adjacent in *. binv E0 q E1. destruct q as [i2 w2]. eapply runs_bind; [apply median_sim, E1|]. intros c1. binv E0 q E2. destruct q as [j2 w3]. eapply runs_bind; [apply median_sim, E2|]. intros c2. binv E0 q E3. destruct q as [k2 w4]. eapply runs_bind; [apply median_sim, E3|]. intros c3. injection E0 as <- <- <- <-. apply runs_ret.
Qed.
Lemma reverse_range_sim : forall fuel i j s s' c, PdqModel.reverse_range fuel s i j = Ret s' -> runs (reverse_range fuel i j) c s () s'.
Proof. induction fuel as [|fuel IH]; intros i j s s' c H; cbn [reverse_range PdqModel.reverse_range] in *; [discriminate|]. destruct (i <? j)%nat; [|injection H as <-; apply runs_ret]. binv H s1 E. sw. apply IH, H. Qed.
Lemma pdq_loop_sim : forall fuel a b limit bal par s s' c, PdqModel.pdq_loop lt next fuel s a b limit bal par = Ret s' -> runs (pdq_loop pure next fuel a b limit bal par) c s () s'.
Proof.
  induction fuel as [|fuel IH]; intros a b limit bal par s s' c H; cbn [pdq_loop PdqModel.pdq_loop] in *; [discriminate|]. cbn zeta in *. destruct (b - a <=? 12)%nat; [apply insertion_sim, H|]. destruct (limit =? 0)%nat; [apply heap_sort_sim, H|].
  binv H s1 E1. eapply (runs_bind _ _ _ _ () s1); [destruct (negb bal); [apply break_patterns_sim, E1|injection E1 as <-; apply runs_ret]|]. intros c1. binv H ph E2. destruct ph as [pivot h]. eapply runs_bind; [apply choose_pivot_sim, E2|]. intros c2.
  binv H q E3. destruct q as [[s2 pivot2] h2]. eapply (runs_bind _ _ _ _ (pivot2, h2) s2).
  { destruct h; try (injection E3 as <- <- <-; apply runs_ret). binv E3 s3 E4. apply slen_runs. eapply runs_bind; [apply reverse_range_sim, E4|]. intros c3. injection E3 as <- <- <-. apply runs_ret. }
  intros c3. binv H q E4. destruct q as [s3 done]. eapply (runs_bind _ _ _ _ done s3); [destruct (bal && par && _); [apply partial_loop_sim, E4|injection E4 as <- <-; apply runs_ret]|]. intros c4. destruct done; [injection H as <-; apply runs_ret|].
  binv H dup E5. eapply (runs_bind _ _ _ _ dup s3); [destruct (0 <? a)%nat; [binv E5 v E6; ls; injection E5 as <-; apply runs_ret|injection E5 as <-; apply runs_ret]|]. intros c5. destruct dup.
  - binv H q E6. destruct q as [s4 mid]. eapply runs_bind; [apply partition_equal_sim, E6|]. intros c6. apply IH, H.
  - binv H q E6. destruct q as [s4 [mid already]]. eapply runs_bind; [apply partition_sim, E6|]. intros c6. cbv beta iota. destruct (mid - a <? b - mid)%nat.
    + binv H s5 E7. eapply runs_bind; [apply IH, E7|]. intros c7. apply IH, H.
    + binv H s5 E7. eapply runs_bind; [apply IH, E7|]. intros c7. apply IH, H.
Qed.
Lemma sort_func_sim s s' c : PdqModel.sort_func lt next s = Ret s' -> runs (sort_func pure next) c s () s'.
Proof. unfold PdqModel.sort_func, sort_func. cbn zeta. intros H. apply slen_runs. apply pdq_loop_sim, H. Qed.

Lemma swap_range_sim : forall n a b s s' c, PdqModel.swap_range n s a b = Ret s' -> runs (swap_range n a b) c s () s'.
Proof. induction n as [|n IH]; intros a b s s' c H; cbn [swap_range PdqModel.swap_range] in *; [injection H as <-; apply runs_ret|]. binv H s1 E. sw. apply IH, H. Qed.
Lemma rotate_loop_sim m : forall fuel i j s s' c, PdqModel.rotate_loop fuel s m i j = Ret s' -> runs (rotate_loop fuel m i j) c s () s'.
Proof.
  induction fuel as [|fuel IH]; intros i j s s' c H; cbn [rotate_loop PdqModel.rotate_loop] in *; [discriminate|]. destruct (i =? j)%nat; [apply swap_range_sim, H|]. destruct (j <? i)%nat; (binv H s1 E; eapply runs_bind; [apply swap_range_sim, E|]; intros c1; apply IH, H).
Qed.
Lemma bsearch_sim (f : nat -> M A bool) (g : nat -> res bool) s : (forall h v c, g h = Ret v -> runs (f h) c s v s) -> forall fuel i j r c, PdqModel.bsearch fuel g i j = Ret r -> runs (bsearch fuel f i j) c s r s.
Proof.
  intros F. induction fuel as [|fuel IH]; intros i j r c H; cbn [bsearch PdqModel.bsearch] in *; [discriminate|]. destruct (i <? j)%nat; [|injection H as <-; apply runs_ret]. cbn zeta in *. binv H v E. eapply runs_bind; [apply F, E|]. intros c1. destruct v; apply IH, H.
Qed.
Lemma carry_up_sim : forall n k s s' c, PdqModel.carry_up n s k = Ret s' -> runs (carry_up n k) c s () s'.
Proof. induction n as [|n IH]; intros k s s' c H; cbn [carry_up PdqModel.carry_up] in *; [injection H as <-; apply runs_ret|]. binv H s1 E. sw. apply IH, H. Qed.
Lemma carry_down_sim : forall n k s s' c, PdqModel.carry_down n s k = Ret s' -> runs (carry_down n k) c s () s'.
Proof. induction n as [|n IH]; intros k s s' c H; cbn [carry_down PdqModel.carry_down] in *; [injection H as <-; apply runs_ret|]. binv H s1 E. sw. apply IH, H. Qed.
Lemma sym_merge_sim : forall fuel a m b s s' c, PdqModel.sym_merge lt fuel s a m b = Ret s' -> runs (sym_merge pure fuel a m b) c s () s'.
Proof.
  induction fuel as [|fuel IH]; intros a m b s s' c H; cbn [sym_merge PdqModel.sym_merge] in *; [discriminate|]. apply slen_runs. destruct (m - a =? 1)%nat.
  { binv H i E. eapply runs_bind; [eapply bsearch_sim; [|exact E]; intros h v c1 Hv; apply sless_sim, Hv|]. intros c1. apply carry_up_sim, H. }
  destruct (b - m =? 1)%nat.
  { binv H i E. eapply runs_bind; [eapply bsearch_sim; [|exact E]; intros h v c1 Hv; binv Hv w W; injection Hv as <-; ls; apply runs_ret|]. intros c1. apply carry_down_sim, H. }
  cbn zeta in *. destruct (if ((a + b) / 2 <? m)%nat then _ else _) as [st r]. binv H st' E. eapply runs_bind; [eapply bsearch_sim; [|exact E]; intros h v c1 Hv; binv Hv w W; injection Hv as <-; ls; apply runs_ret|]. intros c1.
  binv H s1 E1. eapply (runs_bind _ _ _ _ () s1); [destruct ((st' <? m) && _)%nat; [apply rotate_loop_sim, E1|injection E1 as <-; apply runs_ret]|]. intros c2. binv H s2 E2. eapply (runs_bind _ _ _ _ () s2); [destruct ((a <? st') && _)%nat; [apply IH, E2|injection E2 as <-; apply runs_ret]|]. intros c3. destruct (((a + b) / 2 <? (a + b) / 2 + m - st') && _)%nat; [apply IH, H|injection H as <-; apply runs_ret].
Qed.
Lemma stable_blocks_sim n : forall fuel a s s' c, PdqModel.stable_blocks lt fuel s a n = Ret s' -> runs (stable_blocks pure fuel a n) c s () s'.
Proof. induction fuel as [|fuel IH]; intros a s s' c H; cbn [stable_blocks PdqModel.stable_blocks] in *; [discriminate|]. destruct (a + 20 <=? n)%nat; [|apply insertion_sim, H]. binv H s1 E. eapply runs_bind; [apply insertion_sim, E|]. intros c1. apply IH, H. Qed.
Lemma merge_round_sim size n : forall fuel a s s' c, PdqModel.merge_round lt fuel s a size n = Ret s' -> runs (merge_round pure fuel a size n) c s () s'.
Proof.
  induction fuel as [|fuel IH]; intros a s s' c H; cbn [merge_round PdqModel.merge_round] in *; [discriminate|]. apply slen_runs. destruct (a + 2 * size <=? n)%nat.
  - binv H s1 E. eapply runs_bind; [apply sym_merge_sim, E|]. intros c1. apply IH, H.
  - destruct (a + size <? n)%nat; [apply sym_merge_sim, H|injection H as <-; apply runs_ret].
Qed.
Lemma merge_rounds_sim n : forall fuel size s s' c, PdqModel.merge_rounds lt fuel s size n = Ret s' -> runs (merge_rounds pure fuel size n) c s () s'.
Proof. induction fuel as [|fuel IH]; intros size s s' c H; cbn [merge_rounds PdqModel.merge_rounds] in *; [discriminate|]. destruct (size <? n)%nat; [|injection H as <-; apply runs_ret]. binv H s1 E. eapply runs_bind; [apply merge_round_sim, E|]. intros c1. apply IH, H. Qed.
Lemma sort_stable_func_sim s s' c : PdqModel.sort_stable_func lt s = Ret s' -> runs (sort_stable_func pure) c s () s'.
Proof. unfold PdqModel.sort_stable_func, sort_stable_func. cbn zeta. intros H. apply slen_runs. binv H s1 E. eapply runs_bind; [apply stable_blocks_sim, E|]. intros c1. apply merge_rounds_sim, H. Qed.
End sim.
