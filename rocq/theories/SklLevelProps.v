(** The levels of a skip list and the cost of a search (C121, C122). *)
From Verif Require Import Base SplitMixModel SplitMixProofs SplitMixProps SklSpec SklModel SklProofs SklRefine SklLevelModel SklLevelProofs SklProps.

(** height and next seed, from the tosses of [SplitMixProps]: one more than the
    number of even outputs before the first odd one, at most 16 *)
Fixpoint leading (l : list bool) : nat := match l with false :: l' => S (leading l') | _ => 0 end.
Definition toss_height (seed : Z) : nat := S (leading (toss seed <$> seq 1 15)).
Definition toss_draw (seed : Z) : Z * nat :=
  (((seed + Z.of_nat (toss_height seed `min` 15) * 11400714819323198485) mod 2^64)%Z, toss_height seed).
Lemma leading_spec l : leading l <= length l /\ (forall i, i < leading l -> l !! i = Some false) /\ (leading l < length l -> l !! leading l = Some true).
Proof.
  induction l as [|[|] l IH]; cbn; [split; [lia|split; lia]|split; [lia|split; [lia|reflexivity]]|]. destruct IH as (H1 & H2 & H3).
  split; [lia|]. split; [|intros H; apply H3; lia]. intros [|i] Hi; [reflexivity|]. apply H2. lia.
Qed.
Lemma toss_draw_eq seed : is_u64 seed -> rand_height seed = toss_draw seed.
Proof.
  intros Hs. pose proof (heights_exact seed Hs) as H. destruct (rand_height seed) as [sd h]. destruct H as (H1 & H2 & H3 & ->).
  destruct (leading_spec (toss seed <$> seq 1 15)) as (L1 & L2 & L3). rewrite fmap_length, seq_length in *.
  assert (E : h = toss_height seed); [|unfold toss_draw; rewrite E; reflexivity]. unfold toss_height. set (k := leading _) in *.
  assert (Hk : forall i, i < 15 -> (toss seed <$> seq 1 15) !! i = Some (toss seed (S i))) by (intros i Hi; rewrite list_lookup_fmap, lookup_seq_lt by exact Hi; reflexivity).
  destruct (decide (h = S k)) as [|Hn]; [assumption|]. exfalso. destruct (decide (h < S k)) as [L|L].
  - specialize (H3 ltac:(lia)). specialize (L2 (h - 1) ltac:(lia)). rewrite Hk in L2 by lia. replace (S (h - 1)) with h in L2 by lia. congruence.
  - specialize (L3 ltac:(lia)). rewrite Hk in L3 by lia. rewrite (H2 (S k)) in L3 by lia. discriminate.
Qed.
Definition hist_seeds {K V} (hist : list (Z * mop K V)) : Prop := Forall (fun o => is_u64 o.1) hist.
Lemma towers_draw {K V} (eqb : K -> K -> bool) (hist : list (Z * mop K V)) : forall t : Z * list (K * nat), is_u64 t.1 -> hist_seeds hist ->
  fold_left (tower_step eqb rand_height) hist t = fold_left (tower_step eqb toss_draw) hist t.
Proof.
  induction hist as [|o hist IH]; intros t Ht Hh; [reflexivity|]. apply Forall_cons in Hh as [Ho Hh]. cbn [fold_left].
  assert (E : tower_step eqb rand_height t o = tower_step eqb toss_draw t o /\ is_u64 (tower_step eqb toss_draw t o).1).
  { unfold tower_step. destruct (o.2) as [k v|k|k| | | | | |]; try (split; [reflexivity|exact Ht]); [|split; [reflexivity|exact Ho]].
    rewrite toss_draw_eq by exact Ht. split; [reflexivity|]. destruct (map_has eqb t.2 k); [exact Ht|]. cbn [fst]. apply u64_range. }
  destruct E as [-> E]. apply IH; assumption.
Qed.

Section Levels.
Context {K V : Type} (zeroK : K) (zeroV : V) (ltb eqb : K -> K -> bool) (showK : K -> list Z) (showV : V -> list Z).
Context (SWO : strict_weak_order ltb eqb).
Context (seed : Z) (Hseed : is_u64 seed) (hist : list (Z * mop K V)) (Hhist : hist_seeds hist).
Notation step := (m_step zeroK zeroV ltb eqb showK showV).
(** the keys in ascending order, with the heights they drew *)
Notation tower_list := (sorted_entries ltb (towers_after eqb toss_draw seed hist).2).
(** C121: after any history, level i links exactly the present keys whose height is
    greater than i, in ascending order; a key keeps the height it drew from the
    tosses of the generator when it entered *)
Theorem skiplist_levels : exists s', (run step (skl_new zeroK zeroV seed) hist).2 = Ret s' /\
  s_seed s' = (towers_after eqb toss_draw seed hist).1 /\
  level_keys s' 0 = Ret tower_list.*1 /\ sk_keys s' = Ret tower_list.*1 /\
  (forall i, i < 16 -> level_keys s' i = Ret (filter (fun e : K * nat => i < e.2) tower_list).*1) /\
  Forall (fun e : K * nat => 1 <= e.2 <= 16) tower_list.
Proof.
  destruct (skl_refines zeroK zeroV ltb eqb showK showV SWO seed hist) as [s' E]. exists s'. split; [rewrite E; reflexivity|].
  assert (T : TRel zeroK ltb s' (towers_after eqb toss_draw seed hist)).
  { unfold towers_after. rewrite <- towers_draw by assumption. eapply trel_run; [exact SWO|apply trel_new; exact zeroV|exact E]. }
  destruct T as (locs & I & HP & Hs). split; [symmetry; exact Hs|]. rewrite (trel_sorted zeroK ltb eqb SWO s' locs _ I HP).
  assert (G : forall i, i < 16 -> level_keys s' i = Ret (filter (fun e : K * nat => i < e.2) ((fun x => (ky zeroK (s_heap s') x, hg (s_heap s') x)) <$> locs)).*1).
  { intros i Hi. rewrite (level_keys_spec zeroK zeroV ltb s' locs i I Hi), <- (lv_heights zeroK), <- list_fmap_compose. reflexivity. }
  pose proof (inv_hg _ _ _ _ I) as HH.
  split; [|split; [|split; [exact G|]]].
  - rewrite (level_keys_spec zeroK zeroV ltb s' locs 0 I ltac:(lia)), lv_0 by exact HH. rewrite <- list_fmap_compose. reflexivity.
  - unfold sk_keys. rewrite (entries_spec zeroK zeroV ltb _ _ I). cbn [rbind]. rewrite <- !list_fmap_compose. reflexivity.
  - rewrite Forall_fmap. exact HH.
Qed.
(** C122: the < comparisons of a search for k: one for each smaller key whose
    height no later smaller key exceeds, and as many as the greatest height among
    the other keys; so never more than the number of smaller keys and 16 *)
Theorem skiplist_search_cost k : exists s', (run step (skl_new zeroK zeroV seed) hist).2 = Ret s' /\
  let small := filter (fun e : K * nat => ltb e.1 k = true) tower_list in
  let rest := filter (fun e : K * nat => ltb e.1 k = false) tower_list in
  search_cost ltb s' k = Ret (records small.*2 + foldr Nat.max 0 rest.*2) /\
  records small.*2 + foldr Nat.max 0 rest.*2 <= length small + 16.
Proof.
  destruct (skl_refines zeroK zeroV ltb eqb showK showV SWO seed hist) as [s' E]. exists s'. split; [rewrite E; reflexivity|].
  assert (T : TRel zeroK ltb s' (towers_after eqb toss_draw seed hist)).
  { unfold towers_after. rewrite <- towers_draw by assumption. eapply trel_run; [exact SWO|apply trel_new; exact zeroV|exact E]. }
  destruct T as (locs & I & HP & Hs). rewrite (trel_sorted zeroK ltb eqb SWO s' locs _ I HP).
  destruct (split_at_key zeroK ltb eqb SWO (s_heap s') k locs (inv_sorted _ _ _ _ I)) as (L & R & -> & HL & HR). intros small rest.
  assert (Es : small = (fun x => (ky zeroK (s_heap s') x, hg (s_heap s') x)) <$> L /\ rest = (fun x => (ky zeroK (s_heap s') x, hg (s_heap s') x)) <$> R).
  { assert (F1 : forall b l, Forall (fun y => ltb (ky zeroK (s_heap s') y) k = b) l -> filter (fun e : K * nat => ltb e.1 k = b) ((fun x => (ky zeroK (s_heap s') x, hg (s_heap s') x)) <$> l) = (fun x => (ky zeroK (s_heap s') x, hg (s_heap s') x)) <$> l).
    { intros b l Hl. induction Hl as [|x l Hx Hl IH]; [reflexivity|]. rewrite fmap_cons, filter_cons_True by exact Hx. rewrite IH. reflexivity. }
    assert (F2 : forall b l, Forall (fun y => ltb (ky zeroK (s_heap s') y) k = negb b) l -> filter (fun e : K * nat => ltb e.1 k = b) ((fun x => (ky zeroK (s_heap s') x, hg (s_heap s') x)) <$> l) = []).
    { intros b l Hl. induction Hl as [|x l Hx Hl IH]; [reflexivity|]. rewrite fmap_cons, filter_cons_False by (cbn; rewrite Hx; destruct b; discriminate). exact IH. }
    subst small rest. rewrite fmap_app, !filter_app. rewrite (F1 true L), (F2 true R), (F2 false L), (F1 false R), app_nil_r by assumption. split; reflexivity. }
  destruct Es as [-> ->]. rewrite <- !list_fmap_compose. pose proof (search_cost_spec zeroK zeroV ltb showK showV s' k L R I HL HR) as C. split; [exact C|].
  rewrite fmap_length. assert (R1 : forall l, records l <= length l) by (induction l as [|x l IH]; cbn; [lia|]; destruct (forallb _ l); lia).
  pose proof (inv_hg _ _ _ _ I) as HH. apply Forall_app in HH as [_ HH]. specialize (R1 (hg (s_heap s') <$> L)). rewrite fmap_length in R1.
  assert (R2 : foldr Nat.max 0 (hg (s_heap s') <$> R) <= 16) by (clear -HH; induction HH as [|x l Hx Hl IH]; [cbn; lia|]; rewrite fmap_cons; cbn [foldr]; lia).
  change (records (hg (s_heap s') <$> L) + foldr Nat.max 0 (hg (s_heap s') <$> R) <= length L + 16). lia.
Qed.
End Levels.
(** the count is that of the modelled search: it ends when, and where, the search does *)
Theorem search_cost_counts {K V} (ltb eqb : K -> K -> bool) (s : skl K V) k :
  (exists c, search_cost ltb s k = Ret c /\ exists x ctx, sk_search_levels ltb (length (s_heap s)) (s_heap s) (s_tail s) (s_head s) MAX_HEIGHT k (replicate MAX_HEIGHT 0) = Ret (x, ctx)) \/
  search_cost ltb s k = Panic /\ sk_search ltb eqb s k = Panic \/ search_cost ltb s k = Spin /\ sk_search ltb eqb s k = Spin.
Proof.
  unfold search_cost, sk_search. pose proof (levels_c_erase ltb (length (s_heap s)) s k MAX_HEIGHT (s_head s) 0 (replicate MAX_HEIGHT 0)) as H.
  destruct (levels_c ltb (length (s_heap s)) s (s_head s) MAX_HEIGHT k 0) as [[x c]| |]; cbn [rbind].
  - left. exists c. split; [reflexivity|]. destruct H as [ctx H]. exists x, ctx. exact H.
  - right. left. rewrite H. split; reflexivity.
  - right. right. rewrite H. split; reflexivity.
Qed.
Print Assumptions skiplist_levels.
Print Assumptions skiplist_search_cost.
Print Assumptions search_cost_counts.
Example levels_ex :
  let hist := [(0, MSet 5 50); (0, MSet 3 30); (0, MSet 9 90); (0, MSet 7 70); (0, MDel 5); (0, MSet 4 40); (0, MSet 8 80); (0, MSet 9 91)]%Z in
  sorted_entries Z.ltb (towers_after Z.eqb toss_draw 2%Z hist).2 = [(3%Z, 2); (4%Z, 1); (7%Z, 2); (8%Z, 2); (9%Z, 1)] /\
  match (run (m_step 0 0 Z.ltb Z.eqb (fun _ => []) (fun _ => []))%Z (skl_new 0 0 2)%Z hist).2 with
  | Ret s => level_keys s 1 = Ret [3; 7; 8]%Z /\ search_cost Z.ltb s 8%Z = Ret 4
  | _ => False
  end.
Proof. vm_compute. repeat split; reflexivity. Qed.
