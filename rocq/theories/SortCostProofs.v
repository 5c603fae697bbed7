(** SortFunc makes O(n log n) comparisons when the comparison is a strict weak ordering. *)
From Verif Require Import Base SortModel PdqModel PdqStable PdqProofs SortEffModel SortEffProofs SortEffSim.

Section cost.
Context {A : Type} (lt : A -> A -> bool) (next : Z -> Z) (W : strict_weak lt).
Implicit Types (s : list A) (a b i j c : nat).
Notation E := (pure lt).
Local Open Scope nat_scope.

(** m, started on s, ends with a result, a slice and a number of comparisons of which Q holds *)
Definition wpn {X} (m : M A X) s (Q : X -> list A -> nat -> Prop) : Prop := forall c, exists x c' s', m c s = EVal x c' s' /\ c <= c' /\ Q x s' (c' - c).
Lemma wpn_ret {X} (x : X) s (Q : X -> list A -> nat -> Prop) : Q x s 0 -> wpn (mret x) s Q.
Proof. intros H c. exists x, c, s. rewrite Nat.sub_diag. auto. Qed.
Lemma wpn_mono {X} (m : M A X) s (Q Q' : X -> list A -> nat -> Prop) : wpn m s Q -> (forall x s' n, Q x s' n -> Q' x s' n) -> wpn m s Q'.
Proof. intros H I c. destruct (H c) as (x & c' & s' & Em & L & Hq). exists x, c', s'. auto. Qed.
Lemma wpn_bind {X Y} (m : M A X) (k : X -> M A Y) s (P : X -> list A -> nat -> Prop) (Q : Y -> list A -> nat -> Prop) : wpn m s P ->
  (forall x s1 n, P x s1 n -> wpn (k x) s1 (fun y s2 n' => Q y s2 (n + n'))) -> wpn (mbind m k) s Q.
Proof.
  intros H K c. destruct (H c) as (x & c1 & s1 & Em & L & Hp). destruct (K x s1 _ Hp c1) as (y & c2 & s2 & Ek & L2 & Hq). exists y, c2, s2. unfold mbind. rewrite Em. split; [exact Ek|]. split; [lia|].
  replace (c2 - c) with (c1 - c + (c2 - c1)) by lia. exact Hq.
Qed.
Lemma wpn_len {X} (k : nat -> M A X) s (Q : X -> list A -> nat -> Prop) : wpn (k (length s)) s Q -> wpn (let% n := slen in k n) s Q.
Proof. intros H. exact H. Qed.
Lemma wpn_of {X} (m : M A X) s (R : X -> list A -> Prop) (B : X -> nat -> Prop) : (exists x s', (forall c, runs m c s x s') /\ R x s') -> (forall c, ok E m c s B) -> wpn m s (fun x s' n => R x s' /\ B x n).
Proof.
  intros (x & s' & H & HR) HB c. destruct (H c) as [c' Em]. exists x, c', s'. specialize (HB c). unfold ok in HB. rewrite Em in HB. destruct HB as (_ & L & HB). auto.
Qed.
Lemma wpn_with {X} (m : M A X) s (R : X -> list A -> Prop) (Q : X -> list A -> nat -> Prop) : (exists x s', (forall c, runs m c s x s') /\ R x s') -> wpn m s Q -> wpn m s (fun x s' n => R x s' /\ Q x s' n).
Proof.
  intros (x & s' & H & HR) HQ c. destruct (H c) as [c' Em]. destruct (HQ c) as (x2 & c2 & s2 & Em2 & L & Hq). rewrite Em2 in Em. injection Em as -> -> ->. exists x, c', s'. auto.
Qed.
(** from the results of PdqModel *)
Lemma runs_u (m : M A unit) s (r : res (list A)) (R : list A -> Prop) : (forall s' c, r = Ret s' -> runs m c s () s') -> wp r R -> exists x s', (forall c, runs m c s x s') /\ R s'.
Proof. intros H (s' & -> & HR). exists (), s'. split; [intros c; apply H; reflexivity|exact HR]. Qed.
Lemma runs_r {X} (m : M A X) s (r : res X) (R : X -> Prop) : (forall x c, r = Ret x -> runs m c s x s) -> wp r R -> exists x s', (forall c, runs m c s x s') /\ (s' = s /\ R x).
Proof. intros H (x & -> & HR). exists x, s. split; [intros c; apply H; reflexivity|auto]. Qed.
Lemma runs_p {X} (m : M A X) s (r : res (list A * X)) (R : list A * X -> Prop) : (forall s' x c, r = Ret (s', x) -> runs m c s x s') -> wp r R -> exists x s', (forall c, runs m c s x s') /\ R (s', x).
Proof. intros H ([s' x] & -> & HR). exists x, s'. split; [intros c; apply H; reflexivity|exact HR]. Qed.

Lemma swap_cost s i j a b : a <= i < b -> a <= j < b -> b <= length s -> wpn (sswap i j) s (fun _ s' n => seg a b s s' /\ n = 0).
Proof.
  intros Hi Hj Hb. apply (wpn_of _ _ (fun _ s' => seg a b s s') (fun _ n => n = 0)); [|intros c; apply SortEffProofs.sswap_ok; lia].
  eapply (runs_u _ _ (PdqModel.sswap s i j)); [intros s' c; apply sswap_sim|]. eapply wp_mono; [apply (sswap_seg s a b i j); lia|]. intros s' H. apply H.
Qed.
Lemma less_cost s i j x y : s !! i = Some x -> s !! j = Some y -> wpn (sless E i j) s (fun v s' n => s' = s /\ v = lt x y /\ n = 1).
Proof. intros X Y c. exists (lt x y), (S c), s. unfold sless, mbind, sget. rewrite X, Y. split; [reflexivity|]. split; [lia|]. split; [reflexivity|]. split; [reflexivity|]. lia. Qed.

(** partialInsertionSort stays in its segment, and so do its comparisons *)
Lemma shift_left_cost a b : forall j s, a <= j < b -> b <= length s -> leftb lt s a b -> wpn (shift_left E j) s (fun _ s' n => seg a (S j) s s' /\ n <= j - a + 1).
Proof.
  induction j as [|j IH]; intros s Hj Hb Lb; cbn [shift_left]; [apply wpn_ret; split; [apply seg_refl|lia]|].
  destruct (lookup_lt_is_Some_2 s (S j)) as [y Y]; [lia|]. destruct (lookup_lt_is_Some_2 s j) as [x X]; [lia|].
  eapply wpn_bind; [apply (less_cost s (S j) j y x Y X)|]. intros v s1 n (-> & -> & ->). destruct (lt y x) eqn:V; cbn [negb]; [|apply wpn_ret; split; [apply seg_refl|lia]].
  assert (Ha : a <= j). { destruct (decide (a <= j)); [assumption|]. exfalso. assert (F : lt y x = false) by (apply (Lb j (S j) x y); [lia|lia|exact X|exact Y]). congruence. }
  eapply wpn_bind; [apply (swap_cost s (S j) j a (S (S j))); lia|]. intros [] s1 n [S1 ->]. pose proof (seg_length _ _ _ _ S1) as L1.
  assert (S1' : seg a b s s1) by (eapply seg_mono; [| |exact S1]; lia).
  eapply wpn_mono; [apply IH; [lia|lia|apply (leftb_seg lt a b s s1 S1' Hb Lb)]|]. cbn beta. intros [] s2 n [S2 Hn]. split; [|lia]. eapply seg_trans; [exact S1|]. eapply seg_mono; [| |exact S2]; lia.
Qed.
Lemma partial_loop_cost a b : forall steps i s, a < i <= b -> b <= length s -> leftb lt s a b -> wpn (partial_loop E steps a i b) s (fun _ _ n => n <= steps * (2 * (b - a))).
Proof.
  induction steps as [|steps IH]; intros i s Hi Hb Lb; cbn [partial_loop]; [apply wpn_ret; lia|]. apply wpn_len.
  eapply wpn_bind.
  { eapply (wpn_of _ _ (fun r s' => s' = s /\ _)); [eapply (runs_r _ _ (PdqModel.skip_sorted lt (S (S (length s))) s i b)); [intros x c; apply skip_sorted_sim|apply skip_sorted_spec; lia]|]. intros c. apply skip_sorted_ok; lia. }
  cbn beta. intros k s1 n ((-> & _) & Hk & Hn). destruct (Nat.eqb_spec k b); [apply wpn_ret; nia|]. destruct (Nat.ltb_spec (b - a) 50); [apply wpn_ret; nia|].
  eapply wpn_bind; [apply (swap_cost s k (k - 1) a b); lia|]. intros [] s1 n1 [S1 ->]. pose proof (seg_length _ _ _ _ S1) as L1. pose proof (leftb_seg lt a b s s1 S1 Hb Lb) as Lb1.
  apply (wpn_bind _ _ _ (fun _ s2 n2 => seg a b s1 s2 /\ n2 <= k - a)).
  { destruct (Nat.leb_spec 2 (k - a)); [|apply wpn_ret; split; [apply seg_refl|lia]]. eapply wpn_mono; [apply (shift_left_cost a b); [lia|lia|exact Lb1]|]. cbn beta. intros [] s2 n2 [S2 H2]. split; [eapply seg_mono; [| |exact S2]; lia|lia]. }
  intros [] s2 n2 [S2 H2]. pose proof (seg_length _ _ _ _ S2) as L2. pose proof (leftb_seg lt a b s1 s2 S2 ltac:(lia) Lb1) as Lb2.
  apply (wpn_bind _ _ _ (fun _ s3 n3 => seg a b s2 s3 /\ n3 <= b - S k)).
  { destruct (Nat.leb_spec 2 (b - k)); [|apply wpn_ret; split; [apply seg_refl|lia]]. eapply wpn_mono; [eapply (wpn_of _ _ (fun _ s' => seg (S k - 1) b s2 s')); [eapply (runs_u _ _ (PdqModel.shift_right lt (b - S k) s2 (S k))); [intros s' c; apply shift_right_sim|apply (shift_right_spec lt b); lia]|intros c; apply shift_right_ok; lia]|].
    cbn beta. intros [] s3 n3 [S3 H3]. split; [eapply seg_mono; [| |exact S3]; lia|lia]. }
  intros [] s3 n3 [S3 H3]. pose proof (seg_length _ _ _ _ S3) as L3. pose proof (leftb_seg lt a b s2 s3 S3 ltac:(lia) Lb2) as Lb3.
  eapply wpn_mono; [apply IH; [lia|lia|exact Lb3]|]. cbn beta. intros _ s4 n4 H4. cbn [Nat.mul]. lia.
Qed.
Lemma partial_insertion_cost a b s : a < b -> b <= length s -> leftb lt s a b -> wpn (partial_insertion E a b) s (fun r s' n => seg a b s s' /\ n <= 10 * (b - a)).
Proof.
  intros Hab Hb Lb. apply (wpn_with _ _ (fun _ s' => seg a b s s') (fun _ _ n => n <= 10 * (b - a))).
  - eapply (runs_p _ _ (PdqModel.partial_insertion lt s a b) (fun r => seg a b s (fst r))); [intros s' x c; apply partial_loop_sim|]. eapply wp_mono; [apply partial_insertion_spec; lia|]. cbn beta. intros r [_ H]. exact (proj1 (H W Lb)).
  - eapply wpn_mono; [apply (partial_loop_cost a b 5 (S a)); [lia|lia|exact Lb]|]. cbn beta. intros _ _ n Hn. lia.
Qed.
(** the element before the segment is below all of it: choosePivot finds no duplicate of it *)
Definition above a b s : Prop := exists z, 0 < a /\ s !! (a - 1) = Some z /\ allin (fun x => lt z x = true) a b s.
Lemma above_seg a b s s' : seg a b s s' -> b <= length s -> above a b s -> above a b s'.
Proof. intros S1 Hb (z & Ha & Z & H). exists z. split; [exact Ha|]. split; [rewrite (proj2 S1) by lia; exact Z|]. apply (seg_all _ _ _ _ _ S1 Hb H). Qed.
(** the segment to the right of the pivot is bounded from the left, whatever was done to the left part *)
Lemma leftb_right a b s mid s1 : b <= length s -> parted lt a b s s mid -> leftb lt s a b -> seg a mid s s1 -> leftb lt s1 (S mid) b.
Proof.
  intros Hb (_ & Hm & p & P & HL & HR) Lb S1. assert (HL1 : allin (fun x => lt x p = true) a mid s1) by (apply (seg_all _ _ _ _ _ S1); [lia|exact HL]).
  assert (R1 : forall k, mid <= k -> s1 !! k = s !! k) by (intros k Hk; apply (proj2 S1); lia).
  intros i j x y Hi Hj X Y. rewrite R1 in Y by lia. destruct (decide (i < a)); [rewrite (proj2 S1) in X by lia; apply (Lb i j x y); [lia|lia|exact X|exact Y]|].
  pose proof (HR j y Hj Y) as Ly. cbn beta in Ly. destruct (decide (i = mid)) as [->|N]; [rewrite R1 in X by lia; congruence|].
  pose proof (HL1 i x ltac:(lia) X) as Lx. cbn beta in Lx. apply less_le in Lx; [|exact W]. exact (sw_incomp _ W _ _ _ Ly Lx).
Qed.
Lemma leftb_left a b s mid s1 : mid < b -> leftb lt s a b -> seg (S mid) b s s1 -> leftb lt s1 a mid.
Proof. intros Hb Lb S1 i j x y Hi Hj X Y. rewrite (proj2 S1) in X, Y by lia. apply (Lb i j x y); [lia|lia|exact X|exact Y]. Qed.
(** what is below is bounded when the limit has run out, or the segment is short *)
Lemma pdq_flat k fuel a b limit bal par s : a <= b -> b <= length s -> b - a < fuel -> b - a <= 2 ^ k -> b - a <= 12 \/ limit = 0 ->
  wpn (pdq_loop E next fuel a b limit bal par) s (fun _ _ n => n <= (b - a) * (12 + 4 * k)).
Proof.
  intros Hab Hb Hf Hk Hl. destruct fuel as [|fuel]; [lia|].
  assert (G : exists x s', (forall c, runs (pdq_loop E next (S fuel) a b limit bal par) c s x s') /\ True).
  { eapply (runs_u _ _ (PdqModel.pdq_loop lt next (S fuel) s a b limit bal par) (fun _ => True)); [intros s' c; apply pdq_loop_sim|]. eapply wp_mono; [apply pdq_loop_spec; lia|]. auto. }
  eapply wpn_mono; [apply (wpn_of _ _ (fun _ _ => True) (fun _ n => n <= (b - a) * (12 + 4 * k)) G)|intros x s' n H; apply H].
  intros c. cbn [pdq_loop]. cbn zeta. destruct (Nat.leb_spec (b - a) 12) as [L|L].
  - eapply ok_mono; [apply insertion_ok; lia|]. cbn beta. intros _ n Hn. nia.
  - destruct Hl as [Hl| ->]; [lia|]. cbn [Nat.eqb]. eapply ok_mono; [apply (heap_sort_ok E k); lia|]. cbn beta. intros _ n Hn. nia.
Qed.
Lemma pdq_with fuel a b limit bal par s B : a <= b -> b <= length s -> b - a < fuel -> leftb lt s a b ->
  wpn (pdq_loop E next fuel a b limit bal par) s (fun _ _ n => n <= B) -> wpn (pdq_loop E next fuel a b limit bal par) s (fun _ s' n => seg a b s s' /\ n <= B).
Proof.
  intros Hab Hb Hf Lb H. apply (wpn_with _ _ (fun _ s' => seg a b s s')); [|exact H].
  eapply (runs_u _ _ (PdqModel.pdq_loop lt next fuel s a b limit bal par) (fun s' => seg a b s s')); [intros s' c; apply pdq_loop_sim|]. eapply wp_mono; [apply pdq_loop_spec; lia|]. cbn beta. intros s' [_ Q]. exact (proj1 (Q W Lb)).
Qed.
(** a segment of length L needs D halvings at most *)
Definition depth (L D : nat) : Prop := L * 15 ^ D <= 12 * 16 ^ D.
Lemma depth_pos L D : 13 <= L -> depth L D -> 1 <= D.
Proof. unfold depth. destruct D; [cbn; lia|lia]. Qed.
Lemma depth_le L L' D : L' <= L -> depth L D -> depth L' D.
Proof. unfold depth. intros H. nia. Qed.
Lemma depth_step L L' D : 16 * L' <= 15 * L -> depth L (S D) -> depth L' D.
Proof. unfold depth. rewrite !Nat.pow_succ_r'. set (x := 15 ^ D). set (y := 16 ^ D). intros H1 H2. nia. Qed.
Lemma depth_start n k : n <= 2 ^ k -> depth n (11 * k).
Proof.
  unfold depth. intros H. rewrite !Nat.pow_mul_r. transitivity (2 ^ k * (15 ^ 11) ^ k); [apply Nat.mul_le_mono_r; exact H|]. rewrite <- Nat.pow_mul_l.
  transitivity ((16 ^ 11) ^ k); [apply Nat.pow_le_mono_l; apply Nat2Z.inj_le; rewrite Nat2Z.inj_mul, !Nat2Z.inj_pow; cbn; lia|lia].
Qed.
Lemma pdq_loop_cost k : forall fuel a b limit bal par s D e, a <= b -> b <= length s -> b - a < fuel -> b - a <= 2 ^ k -> leftb lt s a b -> depth (b - a) D -> (e = 0 -> above a b s) ->
  wpn (pdq_loop E next fuel a b limit bal par) s (fun _ _ n => n <= (b - a) * (12 + 4 * k + 26 * (D + if bal then limit else limit - 1) + 13 * e)).
Proof.
  induction fuel as [|fuel IH]; intros a b limit bal par s D e Hab Hb Hf Hk Lb HD He; [lia|].
  destruct (decide (b - a <= 12 \/ limit = 0)) as [Fl|Fl].
  { eapply wpn_mono; [apply (pdq_flat k); assumption|]. cbn beta. intros _ _ n Hn. etransitivity; [exact Hn|]. apply Nat.mul_le_mono_l. lia. }
  assert (H13 : 13 <= b - a) by lia. assert (Hl : 1 <= limit) by lia. clear Fl.
  cbn [pdq_loop]. cbn zeta. destruct (Nat.leb_spec (b - a) 12) as [L|_]; [lia|]. destruct (Nat.eqb_spec limit 0) as [L|_]; [lia|].
  set (lim := if bal then limit else limit - 1) in *. assert (El : (if negb bal then limit - 1 else limit) = lim) by (unfold lim; destruct bal; reflexivity). rewrite El.
  assert (Hlim : (if bal then lim else lim - 1) <= lim) by (destruct bal; lia). assert (Hbal : bal = false -> lim = limit - 1) by (unfold lim; intros ->; reflexivity). clear El. clearbody lim.
  destruct D as [|D]; [apply depth_pos in HD; lia|].
  apply (wpn_bind _ _ _ (fun _ s1 n => seg a b s s1 /\ n = 0)).
  { destruct bal; cbn [negb]; [apply wpn_ret; split; [apply seg_refl|reflexivity]|]. apply (wpn_of _ _ (fun _ s' => seg a b s s') (fun _ n => n = 0)); [|intros c; apply break_patterns_ok; lia].
    eapply (runs_u _ _ (PdqModel.break_patterns next s a b)); [intros s' c; apply break_patterns_sim|apply break_patterns_spec; lia]. }
  intros [] s1 n1 [S1 ->]. pose proof (seg_length _ _ _ _ S1) as L1.
  apply (wpn_bind _ _ _ (fun r s2 n => s2 = s1 /\ (a <= fst r < b /\ n <= 12))).
  { eapply wpn_mono; [apply (wpn_of _ _ (fun r s' => s' = s1 /\ a <= fst r < b) (fun r n => a <= fst r < b /\ n <= 12)); [|intros c; apply choose_pivot_ok; lia]|intros r s' n [[-> H1] [_ H2]]; auto].
    eapply (runs_r _ _ (PdqModel.choose_pivot lt s1 a b)); [intros s' c; apply choose_pivot_sim|apply choose_pivot_spec; lia]. }
  intros [pv h] s2 n2 (-> & Hp & Hn2). cbn [fst] in Hp.
  apply (wpn_bind _ _ _ (fun r s2 n => seg a b s1 s2 /\ a <= fst r < b /\ n = 0)).
  { destruct h; try (apply wpn_ret; split; [apply seg_refl|auto]; fail). apply wpn_len. eapply (wpn_bind _ _ _ (fun _ s2 n => seg a b s1 s2 /\ n = 0)).
    - apply (wpn_of _ _ (fun _ s' => seg a b s1 s') (fun _ n => n = 0)); [|intros c; apply reverse_range_ok; lia]. eapply (runs_u _ _ (PdqModel.reverse_range (S (length s1)) s1 a (b - 1))); [intros s' c; apply reverse_range_sim|apply (reverse_range_spec a b); lia].
    - intros [] s2 n [S2 ->]. apply wpn_ret. split; [exact S2|]. cbn [fst]. lia. }
  intros [pivot h'] s2 n3 (S2 & Hpv & ->). cbn [fst] in Hpv. clear Hp. pose proof (seg_length _ _ _ _ S2) as L2. assert (S02 : seg a b s s2) by (eapply seg_trans; eassumption). pose proof (leftb_seg lt a b s s2 S02 Hb Lb) as Lb2.
  apply (wpn_bind _ _ _ (fun _ s3 n => seg a b s2 s3 /\ n <= 10 * (b - a))).
  { destruct (bal && par && _); [apply partial_insertion_cost; [lia|lia|exact Lb2]|apply wpn_ret; split; [apply seg_refl|lia]]. }
  intros done s3 n4 [S3 Hn4]. pose proof (seg_length _ _ _ _ S3) as L3. assert (S03 : seg a b s s3) by (eapply seg_trans; eassumption). pose proof (leftb_seg lt a b s s3 S03 Hb Lb) as Lb3. assert (He3 : e = 0 -> above a b s3) by (intros H; apply (above_seg a b s s3 S03 Hb), He, H).
  destruct done; [apply wpn_ret; nia|].
  apply (wpn_bind _ _ _ (fun dup s4 n => s4 = s3 /\ n <= 1 /\ (dup = true -> 1 <= e /\ 0 < a /\ exists p, s3 !! pivot = Some p))).
  { destruct (lookup_lt_is_Some_2 s3 pivot) as [p P]; [lia|]. destruct (Nat.ltb_spec 0 a) as [La|La]; [|apply wpn_ret; split; [reflexivity|]; split; [lia|discriminate]].
    destruct (lookup_lt_is_Some_2 s3 (a - 1)) as [z Z]; [lia|]. eapply wpn_bind; [apply (less_cost s3 (a - 1) pivot z p Z P)|]. intros v s4 n (-> & -> & ->). apply wpn_ret. split; [reflexivity|]. split; [lia|].
    intros Hv. split; [|split; [exact La|eauto]]. destruct e; [|lia]. destruct (He3 eq_refl) as (z' & _ & Z' & H). assert (z' = z) as -> by congruence. rewrite (H pivot p Hpv P) in Hv. discriminate. }
  intros dup s4 n5 (-> & Hn5 & Hdup). destruct dup.
  - destruct (Hdup eq_refl) as (He1 & La & p & P). 
    apply (wpn_bind _ _ _ (fun mid s4 n => (seg a b s3 s4 /\ a < mid <= b /\ s4 !! a = Some p /\ allin (fun x => lt p x = false) (S a) mid s4 /\ allin (fun x => lt p x = true) mid b s4) /\ n <= b - a + 1)).
    { eapply wpn_mono; [eapply (wpn_of _ _ (fun mid s4 => seg a b s3 s4 /\ a < mid <= b /\ s4 !! a = Some p /\ allin (fun x => lt p x = false) (S a) mid s4 /\ allin (fun x => lt p x = true) mid b s4) (fun r n => a < r <= b /\ n <= b - a + 1)); [apply (runs_p _ _ (PdqModel.partition_equal lt s3 a b pivot) (fun r => seg a b s3 (fst r) /\ a < snd r <= b /\ fst r !! a = Some p /\ allin (fun x => lt p x = false) (S a) (snd r) (fst r) /\ allin (fun x => lt p x = true) (snd r) b (fst r))); [intros s' x c; apply partition_equal_sim|apply (partition_equal_spec lt s3 a b pivot p); [exact Hpv|lia|exact P]]|intros c; apply partition_equal_ok; lia]|].
      cbn beta. intros mid s4 n [H1 [_ H2]]. split; [exact H1|exact H2]. }
    intros mid s4 n6 ((S4 & Hm & P4 & HL & HR) & Hn6). pose proof (seg_length _ _ _ _ S4) as L4. pose proof (leftb_seg lt a b s3 s4 S4 ltac:(lia) Lb3) as Lb4.
    assert (HL' : forall i x, a <= i < mid -> s4 !! i = Some x -> lt p x = false). { intros i x Hi X. destruct (decide (i = a)) as [->|N]; [assert (x = p) as -> by congruence; apply (sw_irrefl _ W)|]. apply (HL i x); [lia|exact X]. }
    eapply wpn_mono; [apply (IH mid b lim bal par s4 (S D) 0); [lia|lia|lia|lia| |apply (depth_le (b - a)); [lia|exact HD]|]|].
    + intros i j x y Hi Hj X Y. destruct (decide (i < a)); [apply (Lb4 i j x y); [lia|lia|exact X|exact Y]|]. pose proof (HR j y Hj Y) as Ly. cbn beta in Ly. apply less_le in Ly; [|exact W]. pose proof (HL' i x ltac:(lia) X) as Lx. exact (sw_incomp _ W _ _ _ Ly Lx).
    + intros _. destruct (lookup_lt_is_Some_2 s4 (mid - 1)) as [z Z]; [lia|]. exists z. split; [lia|]. split; [exact Z|]. intros i x Hi X. pose proof (HR i x Hi X) as Lx. cbn beta in Lx. pose proof (HL' (mid - 1) z ltac:(lia) Z) as Lz. exact (le_less_less lt z p x W Lz Lx).
    + cbn beta. intros _ s5 n7 Hn7. set (V := 12 + 4 * k + 26 * (S D + lim)) in *. assert (Hn8 : n7 <= (b - a - 1) * V). { etransitivity; [exact Hn7|]. apply Nat.mul_le_mono; [lia|]. unfold V. lia. }
      clearbody V. nia.
  - apply (wpn_bind _ _ _ (fun r s4 n => parted lt a b s3 s4 (fst r) /\ n <= b - a + 1)).
    { eapply wpn_mono; [eapply (wpn_of _ _ (fun r s4 => parted lt a b s3 s4 (fst r)) (fun r n => a <= fst r < b /\ n <= b - a + 1)); [apply (runs_p _ _ (PdqModel.partition lt s3 a b pivot) (fun r => parted lt a b s3 (fst r) (fst (snd r)))); [intros s' x c; apply partition_sim|apply (partition_spec lt s3 a b pivot); [exact Hpv|lia]]|intros c; apply partition_ok; lia]|].
      cbn beta. intros r s4 n [H1 [_ H2]]. split; [exact H1|exact H2]. }
    intros [mid al] s4 n6 [Q4 Hn6]. cbn [fst] in Q4. pose proof Q4 as (S4 & Hm & _). pose proof (seg_length _ _ _ _ S4) as L4. apply parted_self in Q4. pose proof (leftb_seg lt a b s3 s4 S4 ltac:(lia) Lb3) as Lb4.
    cbv beta iota.
    (* each of the two parts costs at most V per element *)
    set (V := 12 + 4 * k + 26 * (D + lim) + 13).
    assert (child : forall lo hi other bl pr s', lo <= hi -> hi <= length s' -> hi - lo + other <= b - a -> hi - lo < b - a -> (bl = true -> hi - lo <= other \/ (b - a) / 8 <= other) -> leftb lt s' lo hi ->
      wpn (pdq_loop E next fuel lo hi lim bl pr) s' (fun _ _ n => n <= (hi - lo) * V)).
    { intros lo hi other bl pr s' H1 H2 H3 H3' H4 Lb'. destruct (decide (lim = 0)) as [Z|NZ].
      - eapply wpn_mono; [apply (pdq_flat k); [lia|lia|lia|lia|auto]|]. cbn beta. intros _ _ n Hn. etransitivity; [exact Hn|]. apply Nat.mul_le_mono_l. unfold V. lia.
      - destruct bl.
        + eapply wpn_mono; [apply (IH lo hi lim true pr s' D 1); [lia|lia|lia|lia|exact Lb'|apply (depth_step (b - a)); [|exact HD]|discriminate]|].
          * pose proof (Nat.div_mod (b - a) 8 ltac:(lia)). pose proof (Nat.mod_upper_bound (b - a) 8 ltac:(lia)). destruct (H4 eq_refl); lia.
          * cbn beta. intros _ _ n Hn. etransitivity; [exact Hn|]. apply Nat.mul_le_mono_l. unfold V. lia.
        + eapply wpn_mono; [apply (IH lo hi lim false pr s' (S D) 1); [lia|lia|lia|lia|exact Lb'|apply (depth_le (b - a)); [lia|exact HD]|discriminate]|].
          cbn beta. intros _ _ n Hn. etransitivity; [exact Hn|]. apply Nat.mul_le_mono_l. unfold V. lia. }
    assert (total : forall x y, x <= (mid - a) * V -> y <= (b - S mid) * V -> 0 + (n2 + (0 + (n4 + (n5 + (n6 + (x + y)))))) <= (b - a) * (12 + 4 * k + 26 * (S D + lim) + 13 * e)).
    { intros x y Hx Hy. assert (Hxy : x + y <= (b - a - 1) * V) by (replace (b - a - 1) with (mid - a + (b - S mid)) by lia; rewrite Nat.mul_add_distr_r; lia).
      assert (G : (b - a) * (V + 13) <= (b - a) * (12 + 4 * k + 26 * (S D + lim) + 13 * e)) by (apply Nat.mul_le_mono_l; unfold V; lia). etransitivity; [|exact G]. clear G Hx Hy child IH. clearbody V. nia. }
    destruct (Nat.ltb_spec (mid - a) (b - mid)) as [Lt|Lt].
    + eapply wpn_bind; [apply pdq_with; [lia|lia|lia|intros i j x y Hi Hj; apply Lb4; lia|apply (child a mid (b - mid) true true s4); [lia|lia|lia|lia|intros _; lia|intros i j x y Hi Hj; apply Lb4; lia]]|].
      intros [] s5 n7 [S5 Hn7]. pose proof (seg_length _ _ _ _ S5) as L5. eapply wpn_mono; [apply (child (S mid) b (mid - a)); [lia|lia|lia|lia| |apply (leftb_right a b s4 mid s5); [lia|exact Q4|exact Lb4|exact S5]]|].
      * intros Hl8. apply Nat.leb_le in Hl8. lia.
      * cbn beta. intros _ _ n8 Hn8. apply total; assumption.
    + eapply wpn_bind; [apply pdq_with; [lia|lia|lia| |apply (child (S mid) b (mid - a) true true s4); [lia|lia|lia|lia|intros _; lia|]]; apply (leftb_right a b s4 mid s4); [lia|exact Q4|exact Lb4|apply seg_refl|lia|exact Q4|exact Lb4|apply seg_refl]|].
      intros [] s5 n7 [S5 Hn7]. pose proof (seg_length _ _ _ _ S5) as L5. eapply wpn_mono; [apply (child a mid (b - mid)); [lia|lia|lia|lia| |apply (leftb_left a b s4 mid s5); [lia|exact Lb4|exact S5]]|].
      * intros Hl8. apply Nat.leb_le in Hl8. lia.
      * cbn beta. intros _ _ n8 Hn8. rewrite (Nat.add_comm n7 n8). apply total; assumption.
Qed.
Lemma sort_func_cost s : wpn (sort_func E next) s (fun _ _ n => n <= length s * (25 + 316 * bits_len (length s))).
Proof.
  unfold sort_func. apply wpn_len. eapply wpn_mono; [apply (pdq_loop_cost (bits_len (length s)) _ _ _ _ _ _ _ (11 * bits_len (length s)) 1)|].
  - lia.
  - lia.
  - lia.
  - rewrite Nat.sub_0_r. apply bits_len_spec.
  - intros i j x y Hi. lia.
  - rewrite Nat.sub_0_r. apply depth_start, bits_len_spec.
  - discriminate.
  - cbn beta. intros _ _ n Hn. rewrite Nat.sub_0_r in Hn. etransitivity; [exact Hn|]. apply Nat.mul_le_mono_l. lia.
Qed.
End cost.

(** a slice in order already *)
Section ordered.
Context {A : Type} (lt : A -> A -> bool) (next : Z -> Z).
Implicit Types (s : list A) (a b i j c : nat).
Notation E := (pure lt).
Local Open Scope nat_scope.
Definition ordered s : Prop := forall i j x y, i < j -> s !! i = Some x -> s !! j = Some y -> lt y x = false.
Lemma up_cost s i j : ordered s -> i < j -> j < length s -> wpn (sless E j i) s (fun v s' n => s' = s /\ v = false /\ n = 1).
Proof.
  intros O Hij Hj. destruct (lookup_lt_is_Some_2 s i) as [x X]; [lia|]. destruct (lookup_lt_is_Some_2 s j) as [y Y]; [lia|]. eapply wpn_mono; [apply (less_cost lt s j i y x Y X)|]. cbn beta. intros v s' n (-> & -> & ->). rewrite (O i j x y Hij X Y). auto.
Qed.
Lemma ordered_inner s a j : ordered s -> j < length s -> wpn (ins_inner E a j) s (fun _ s' n => s' = s /\ n <= 1).
Proof.
  intros O Hj. destruct j as [|j]; cbn [ins_inner]; [apply wpn_ret; auto|]. destruct (a <? S j); [|apply wpn_ret; auto]. eapply wpn_bind; [apply (up_cost s j (S j)); [exact O|lia|lia]|]. intros v s1 n (-> & -> & ->). apply wpn_ret. auto.
Qed.
Lemma ordered_outer s a : ordered s -> forall n i, i + n <= length s -> wpn (ins_outer E n a i) s (fun _ s' m => s' = s /\ m <= n).
Proof.
  intros O. induction n as [|n IH]; intros i Hi; cbn [ins_outer]; [apply wpn_ret; auto|]. eapply wpn_bind; [apply ordered_inner; [exact O|lia]|]. intros [] s1 m (-> & Hm). eapply wpn_mono; [apply IH; lia|]. cbn beta. intros [] s2 m2 (-> & Hm2). split; [reflexivity|lia].
Qed.
Lemma ordered_order2 s i j n : ordered s -> i < j -> j < length s -> wpn (order2 E i j n) s (fun r s' m => s' = s /\ r = (i, j, n) /\ m = 1).
Proof. intros O Hij Hj. unfold order2. eapply wpn_bind; [apply (up_cost s i j); [exact O|lia|lia]|]. intros v s1 m (-> & -> & ->). apply wpn_ret. auto. Qed.
Lemma ordered_median s i j k n : ordered s -> i < j < k -> k < length s -> wpn (median E i j k n) s (fun r s' m => s' = s /\ r = (j, n) /\ m = 3).
Proof.
  intros O H Hk. unfold median. eapply wpn_bind; [apply (ordered_order2 s i j); [exact O|lia|lia]|]. intros r s1 m (-> & -> & ->). eapply wpn_bind; [apply (ordered_order2 s j k); [exact O|lia|lia]|]. intros r s1 m (-> & -> & ->). eapply wpn_bind; [apply (ordered_order2 s i j); [exact O|lia|lia]|]. intros r s1 m (-> & -> & ->). apply wpn_ret. auto.
Qed.
Lemma ordered_pivot s : ordered s -> 13 <= length s -> wpn (choose_pivot E 0 (length s)) s (fun r s' n => s' = s /\ snd r = Increasing /\ n <= 12).
Proof.
  intros O H. unfold choose_pivot. cbn zeta. rewrite Nat.sub_0_r. set (q := length s / 4). pose proof (Nat.div_mod (length s) 4 ltac:(lia)) as Dm. fold q in Dm. pose proof (Nat.mod_upper_bound (length s) 4 ltac:(lia)). clearbody q.
  destruct (Nat.leb_spec 8 (length s)); [|lia]. eapply (wpn_bind _ _ _ (fun r s' n => s' = s /\ snd r = 0 /\ n <= 12)); [|intros [j w] s1 n (-> & Hw & Hn); cbn [snd] in Hw; subst w; apply wpn_ret; cbn [snd]; split; [reflexivity|]; split; [reflexivity|lia]].
  assert (G : forall i j k, i < j < k -> k < length s -> wpn (median E i j k 0) s (fun r s' m => s' = s /\ r = (j, 0) /\ m = 3)) by (intros; apply ordered_median; assumption).
  destruct (Nat.leb_spec 50 (length s)).
  - eapply (wpn_bind _ _ _ (fun r s' m => s' = s /\ r = (0 + q * 1, 0 + q * 2, 0 + q * 3, 0) /\ m = 9)).
    + unfold median_adjacent. eapply wpn_bind; [apply G; lia|]. intros r s1 m (-> & -> & ->). eapply wpn_bind; [apply G; lia|]. intros r s1 m (-> & -> & ->). eapply wpn_bind; [apply G; lia|]. intros r s1 m (-> & -> & ->). apply wpn_ret. auto.
    + intros r s1 m (-> & -> & ->). eapply wpn_mono; [apply G; lia|]. cbn beta. intros r s1 m (-> & -> & ->). cbn [snd]. split; [reflexivity|]. split; [reflexivity|lia].
  - eapply (wpn_bind _ _ _ (fun r s' m => s' = s /\ r = (0 + q * 1, 0 + q * 2, 0 + q * 3, 0) /\ m = 0)); [apply wpn_ret; auto|]. intros r s1 m (-> & -> & ->). eapply wpn_mono; [apply G; lia|]. cbn beta. intros r s1 m (-> & -> & ->). cbn [snd]. split; [reflexivity|]. split; [reflexivity|lia].
Qed.
Lemma ordered_skip s : ordered s -> forall fuel i, 1 <= i <= length s -> length s - i < fuel -> wpn (skip_sorted E fuel i (length s)) s (fun r s' n => s' = s /\ r = length s /\ n = length s - i).
Proof.
  intros O. induction fuel as [|fuel IH]; intros i Hi Hf; [lia|]. cbn [skip_sorted]. destruct (Nat.ltb_spec i (length s)); [|apply wpn_ret; split; [reflexivity|lia]].
  eapply wpn_bind; [apply (up_cost s (i - 1) i); [exact O|lia|lia]|]. intros v s1 n (-> & -> & ->). eapply wpn_mono; [apply IH; lia|]. cbn beta. intros r s1 n (-> & -> & ->). split; [reflexivity|]. split; [reflexivity|lia].
Qed.
Lemma sort_func_ordered s : ordered s -> wpn (sort_func E next) s (fun _ s' n => s' = s /\ n <= length s + 11).
Proof.
  intros O. unfold sort_func. apply wpn_len. cbn [pdq_loop]. cbn zeta. rewrite Nat.sub_0_r. destruct (Nat.leb_spec (length s) 12).
  { unfold insertion. destruct s as [|x s]; [apply wpn_ret; split; [reflexivity|lia]|]. eapply wpn_mono; [apply ordered_outer; [exact O|cbn [length]; lia]|]. cbn beta. intros [] s' n [-> Hn]. split; [reflexivity|lia]. }
  destruct (Nat.eqb_spec (bits_len (length s)) 0) as [Z|_]. { pose proof (bits_len_spec (length s)). rewrite Z in *. cbn in *. lia. }
  cbn [negb]. eapply wpn_bind; [apply (wpn_ret () s (fun _ s' n => s' = s /\ n = 0)); auto|]. intros _ s1 n (-> & ->).
  eapply wpn_bind; [apply ordered_pivot; [exact O|lia]|]. intros [j h] s1 n (-> & Hh & Hn). cbn [snd] in Hh. subst h.
  eapply wpn_bind; [apply (wpn_ret (j, Increasing) s (fun r s' n => s' = s /\ r = (j, Increasing) /\ n = 0)); auto|]. intros r s1 m (-> & -> & ->). cbn [andb].
  eapply (wpn_bind _ _ _ (fun d s' n => s' = s /\ d = true /\ n <= length s - 1)).
  - unfold partial_insertion. cbn [partial_loop]. apply wpn_len. eapply wpn_bind; [apply ordered_skip; [exact O|lia|lia]|]. intros k s1 m (-> & -> & ->). rewrite Nat.eqb_refl. apply wpn_ret. split; [reflexivity|]. split; [reflexivity|lia].
  - intros d s1 m (-> & -> & Hm). apply wpn_ret. split; [reflexivity|]. lia.
Qed.
End ordered.
