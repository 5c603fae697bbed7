(** OrdMap refines the finite map; Range. *)
From Verif Require Import Base SplitMixModel SklSpec SklModel SklProofs SklRefine SklIterProofs OrdMapSpec OrdMapModel.
From Coq Require Import Sorting.Sorted.

Section P.
Context {K V : Type} (zeroK : K) (zeroV : V) (ltb eqb : K -> K -> bool).
Context (SWO : strict_weak_order ltb eqb).
Notation keysof := (fmap (fun e : K * V => (e.1, tt))).
Notation Inv := (Inv zeroK ltb).
Notation ent := (ent zeroK tt).
Notation ky := (ky zeroK).
Notation step := (o_step zeroK zeroV ltb eqb).
Notation istep := (ord_step ltb eqb).
Implicit Types (m : list (K * V)) (om : ordmap K V).

Lemma gm_get_spec g k : gm_get eqb g k = (map_get eqb g k : option V).
Proof.
  unfold map_get. induction g as [|[k' v] g IH]; [reflexivity|]. cbn [gm_get]. rewrite filter_cons. cbn [fst].
  destruct (eqb k' k) eqn:E.
  - destruct (decide (true = true)); [reflexivity|congruence].
  - destruct (decide (false = true)); [congruence|exact IH].
Qed.
Lemma gm_del_spec g k : gm_del eqb g k = map_del eqb (g : list (K * V)) k.
Proof.
  unfold map_del. induction g as [|[k' v] g IH]; [reflexivity|]. cbn [gm_del]. rewrite filter_cons. cbn [fst].
  destruct (eqb k' k) eqn:E.
  - destruct (decide (true = false)); [congruence|exact IH].
  - destruct (decide (false = false)); [f_equal; exact IH|congruence].
Qed.
Lemma gm_set_get g k v k' : map_get eqb (gomap_set eqb g k v) k' = if eqb k k' then Some v else map_get eqb (g : list (K * V)) k'.
Proof.
  unfold map_get. induction g as [|[k1 v1] g IH]; cbn [gomap_set].
  - rewrite filter_cons. cbn [fst]. destruct (eqb k k') eqn:E.
    + destruct (decide (true = true)); [reflexivity|congruence].
    + destruct (decide (false = true)); [congruence|reflexivity].
  - destruct (eqb k1 k) eqn:E1; rewrite !filter_cons; cbn [fst].
    + rewrite (eqb_cong ltb eqb SWO _ _ k' E1). destruct (eqb k k') eqn:E.
      * destruct (decide (true = true)); [reflexivity|congruence].
      * destruct (decide (false = true)); [congruence|]. reflexivity.
    + destruct (eqb k1 k') eqn:E2.
      * destruct (decide (true = true)); [|congruence]. cbn. destruct (eqb k k') eqn:E; [|reflexivity].
        exfalso. rewrite (eqb_cong ltb eqb SWO _ _ k E2), (eqb_sym ltb eqb SWO), E in E1. discriminate.
      * destruct (decide (false = true)); [congruence|exact IH].
Qed.

(** the key index of a map *)
Lemma keysof_place e l : keysof (place ltb e l) = place ltb (e.1, tt) (keysof l).
Proof.
  induction l as [|e' l IH]; [reflexivity|]. cbn. destruct (ltb e.1 e'.1); [reflexivity|].
  cbn. f_equal. exact IH.
Qed.
Lemma keysof_sorted m : keysof (sorted_entries ltb m) = sorted_entries ltb (keysof m).
Proof. induction m as [|e m IH]; [reflexivity|]. cbn. rewrite keysof_place, IH. reflexivity. Qed.
Lemma keysof_fst m : (keysof m).*1 = m.*1.
Proof. rewrite <- list_fmap_compose. apply list_fmap_ext. reflexivity. Qed.
Lemma keysof_has m k : map_has eqb (keysof m) k = map_has eqb m k.
Proof. induction m as [|e m IH]; [reflexivity|]. cbn. f_equal. exact IH. Qed.
Lemma keysof_del m k : keysof (map_del eqb m k) = map_del eqb (keysof m) k.
Proof.
  unfold map_del. induction m as [|e m IH]; [reflexivity|]. rewrite fmap_cons, !filter_cons. cbn [fst].
  destruct (decide (eqb e.1 k = false)); [rewrite fmap_cons; f_equal; exact IH|exact IH].
Qed.
Lemma keysof_set_has m k v : map_has eqb m k = true -> keysof (map_set eqb m k v) = keysof m.
Proof.
  intros H. unfold map_set. rewrite H. rewrite <- list_fmap_compose. apply list_fmap_ext. intros ? e _.
  cbn. destruct (eqb e.1 k); reflexivity.
Qed.
Lemma keysof_set_new m k v : map_has eqb m k = false -> keysof (map_set eqb m k v) = map_set eqb (keysof m) k tt.
Proof. intros H. unfold map_set. rewrite keysof_has, H, fmap_app. reflexivity. Qed.

Lemma has_get m k : map_has eqb m k = true <-> is_Some (map_get eqb m k).
Proof.
  unfold map_has. rewrite existsb_exists. rewrite (map_get_elem zeroK zeroV eqb (fun _ => []) (fun _ => [])).
  split; intros (e & He & Hk); exists e; rewrite ?elem_of_list_In in *; auto.
Qed.
Lemma has_get_false m k : map_has eqb m k = false <-> map_get eqb m k = None.
Proof.
  destruct (map_has eqb m k) eqn:E.
  - apply has_get in E as [v ->]. split; discriminate.
  - split; [intros _|reflexivity]. destruct (map_get eqb m k) eqn:E2; [|reflexivity].
    assert (map_has eqb m k = true) by (apply has_get; eauto). congruence.
Qed.

(** the sentinel at the end is untouched *)
Definition tail_ok (s : skl K unit) : Prop :=
  s_heap s !! s_tail s = Some (SkNode zeroK tt (replicate MAX_HEIGHT None) 0).

Record RelL om m (locs : list nat) : Prop := {
  rl_inv : Inv (o_skl om) locs;
  rl_keys : keysof m ≡ₚ ent (s_heap (o_skl om)) <$> locs;
  rl_get : forall k, gm_get eqb (o_m om) k = map_get eqb m k;
  rl_tail : tail_ok (o_skl om) }.
Definition Rel om m : Prop := exists locs, RelL om m locs.

Lemma rl_rel om m locs : RelL om m locs -> SklRefine.Rel zeroK tt ltb (o_skl om) (keysof m).
Proof. intros R. exists locs. split; [apply R|apply R]. Qed.
Lemma rl_uniq om m locs : RelL om m locs -> forall e e' m', m ≡ₚ e :: e' :: m' -> eqb e.1 e'.1 = false.
Proof.
  intros R e e' m' HP. eapply (rel_uniq zeroK tt ltb eqb SWO (o_skl om) (keysof m) (rl_rel _ _ _ R) (e.1, tt) (e'.1, tt) (keysof m')).
  rewrite HP. reflexivity.
Qed.
Lemma rl_get_self om m locs e : RelL om m locs -> e ∈ m -> map_get eqb m e.1 = Some e.2.
Proof.
  intros R He. unfold map_get.
  rewrite (filter_one ltb eqb SWO m e.1 (rl_uniq _ _ _ R) e He (eqb_refl ltb eqb SWO e.1)). reflexivity.
Qed.
Lemma rl_entries om m locs : RelL om m locs -> keysof (sorted_entries ltb m) = ent (s_heap (o_skl om)) <$> locs.
Proof. intros R. rewrite keysof_sorted. apply (rel_entries zeroK tt ltb eqb SWO _ _ _ (rl_inv _ _ _ R) (rl_keys _ _ _ R)). Qed.

Lemma tail_frame s locs s' : Inv s locs -> s_tail s' = s_tail s -> forall locs',
  frame zeroK s locs' s' -> s_tail s ∉ s_head s :: locs' -> tail_ok s -> tail_ok s'.
Proof.
  intros I Et locs' (_ & _ & F) Hn H. unfold tail_ok. rewrite Et, F; [exact H| |exact Hn].
  eapply inv_elem_bound; [exact I|]. apply elem_of_list_further; constructor.
Qed.
Lemma inv_tail_notin (s : skl K unit) locs : Inv s locs -> s_tail s ∉ s_head s :: locs.
Proof.
  intros I. pose proof (inv_nodup _ _ _ _ I) as HN. apply NoDup_cons in HN as [H1 HN].
  apply NoDup_cons in HN as [H2 _]. rewrite elem_of_cons in *. intros [H|H]; [apply H1; left; auto|auto].
Qed.

(** the index evolves with the map *)
Lemma skl_call om m locs c o s' r :
  RelL om m locs -> o <> MClear ->
  m_step zeroK tt ltb eqb (fun _ => []) (fun _ => []) (o_skl om) (c, o) = Ret (s', r) ->
  forall g m', (forall k, gm_get eqb g k = map_get eqb m' k) ->
  keysof m' = (map_step ltb eqb (fun _ => []) (fun _ => []) (keysof m) o).1 ->
  Rel (OrdMap g s') m'.
Proof.
  intros R Ho Hs g m' Hg Hm'.
  destruct (rel_step zeroK tt ltb eqb (fun _ => []) (fun _ => []) SWO _ _ c o (rl_rel _ _ _ R)) as (s2 & Hs2 & HR').
  rewrite Hs2 in Hs. injection Hs as -> <-.
  destruct (step_evolves zeroK tt ltb eqb _ _ SWO (o_skl om) locs c o s' _ (rl_inv _ _ _ R) Ho Hs2) as (locs' & I' & Eh & Et & Fr & _).
  exists locs'. constructor; cbn [o_skl o_m].
  - exact I'.
  - destruct HR' as (locs2 & I2 & HP2). rewrite Hm', HP2.
    pose proof (entries_spec zeroK tt ltb s' locs2 I2) as E1.
    pose proof (entries_spec zeroK tt ltb s' locs' I') as E2. rewrite E1 in E2. injection E2 as E2. rewrite E2. reflexivity.
  - exact Hg.
  - eapply tail_frame; [apply (rl_inv _ _ _ R)|exact Et|exact Fr| |apply (rl_tail _ _ _ R)].
    pose proof (inv_tail_notin _ _ I') as Hn. rewrite Et, Eh in Hn. exact Hn.
Qed.

Lemma ord_values_spec om m locs L R fuel it :
  RelL om m locs -> locs = L ++ R -> (it = Some (last_or (s_head (o_skl om)) L) \/ (it = None /\ L = [])) ->
  length R <= fuel ->
  ord_values_loop zeroV eqb fuel om it
  = Ret ((fun y => default zeroV (map_get eqb m (ky (s_heap (o_skl om)) y))) <$> R).
Proof.
  intros HR. revert L R it. induction fuel as [|fuel IH]; intros L R it HL Hit Hf; cbn [ord_values_loop];
    subst locs; rewrite (next_spec zeroK tt ltb _ _ L R (rl_inv _ _ _ HR) eq_refl it Hit); destruct R as [|y R]; cbn [rbind].
  - reflexivity.
  - cbn in Hf; lia.
  - reflexivity.
  - unfold SklProofs.ent. rewrite (IH (L ++ [y]) R).
    + cbn [rbind]. rewrite (rl_get _ _ _ HR). reflexivity.
    + rewrite <- app_assoc. reflexivity.
    + left. unfold last_or. rewrite last_snoc. reflexivity.
    + cbn in Hf; lia.
Qed.
Lemma locs_length om m locs : RelL om m locs -> length locs <= length (s_heap (o_skl om)).
Proof.
  intros R. pose proof (inv_nodup _ _ _ _ (rl_inv _ _ _ R)) as HN. pose proof (inv_alloc _ _ _ _ (rl_inv _ _ _ R)) as HA.
  apply NoDup_cons in HN as [_ HN]. apply NoDup_cons in HN as [_ HN].
  apply Forall_cons in HA as [_ HA]. apply Forall_cons in HA as [_ HA].
  rewrite <- (seq_length (length (s_heap (o_skl om))) 0). apply NoDup_incl_length; [apply NoDup_ListNoDup; exact HN|].
  intros x Hx. apply in_seq. rewrite Forall_forall in HA. apply elem_of_list_In in Hx. specialize (HA x Hx). cbn in HA. lia.
Qed.
Lemma sorted_values om m locs : RelL om m locs ->
  (fun y => default zeroV (map_get eqb m (ky (s_heap (o_skl om)) y))) <$> locs = (sorted_entries ltb m).*2.
Proof.
  intros R. pose proof (rl_entries _ _ _ R) as HE.
  assert (HI : forall e, e ∈ sorted_entries ltb m -> map_get eqb m e.1 = Some e.2).
  { intros e He. eapply rl_get_self; [exact R|]. rewrite <- (sorted_entries_perm ltb m). exact He. }
  revert HE HI. generalize (sorted_entries ltb m) as es. clear R. induction locs as [|y locs IH]; intros [|e es] HE HI; try discriminate; [reflexivity|].
  rewrite !fmap_cons in HE. injection HE as He _ HE. rewrite !fmap_cons. f_equal.
  - rewrite <- He, HI by constructor. reflexivity.
  - apply IH; [exact HE|]. intros e' He'. apply HI. apply elem_of_list_further; exact He'.
Qed.

Lemma ord_set_rel om m locs k v : RelL om m locs ->
  exists om', ord_set ltb eqb om k v = Ret om' /\ Rel om' (map_set eqb m k v).
Proof.
  intros R. unfold ord_set. rewrite (rl_get _ _ _ R).
  assert (Hg : forall k', gm_get eqb (gomap_set eqb (o_m om) k v) k' = map_get eqb (map_set eqb m k v) k').
  { intros k'. rewrite gm_get_spec, gm_set_get, (map_get_set ltb eqb SWO), <- gm_get_spec, (rl_get _ _ _ R). reflexivity. }
  destruct (map_get eqb m k) eqn:E; cbn [rbind].
  - eexists. split; [reflexivity|]. exists locs. constructor; cbn [o_m o_skl]; [apply R| |exact Hg|apply R].
    rewrite keysof_set_has by (apply has_get; rewrite E; eauto). apply R.
  - destruct (rel_step zeroK tt ltb eqb (fun _ => []) (fun _ => []) SWO _ _ 0%Z (MSet k tt) (rl_rel _ _ _ R)) as (s2 & Hs2 & _).
    pose proof Hs2 as Hs. unfold m_step in Hs. cbn [snd] in Hs.
    destruct (sk_insert ltb eqb (o_skl om) k tt) as [s1| |]; cbn in Hs; try discriminate. injection Hs as ->.
    cbn [rbind]. eexists. split; [reflexivity|].
    eapply (skl_call om m locs 0%Z (MSet k tt)); [exact R|discriminate|exact Hs2|exact Hg|].
    apply keysof_set_new. apply has_get_false. exact E.
Qed.
Lemma ord_del_rel om m locs k : RelL om m locs ->
  exists om', ord_del ltb eqb om k = Ret om' /\ Rel om' (map_del eqb m k).
Proof.
  intros R. unfold ord_del. rewrite (rl_get _ _ _ R).
  assert (Hg : forall k', gm_get eqb (gm_del eqb (o_m om) k) k' = map_get eqb (map_del eqb m k) k').
  { intros k'. rewrite gm_get_spec, gm_del_spec, !(map_get_del ltb eqb SWO), <- gm_get_spec, (rl_get _ _ _ R). reflexivity. }
  destruct (map_get eqb m k) eqn:E; cbn [rbind].
  - destruct (rel_step zeroK tt ltb eqb (fun _ => []) (fun _ => []) SWO _ _ 0%Z (MDel k) (rl_rel _ _ _ R)) as (s2 & Hs2 & _).
    pose proof Hs2 as Hs. unfold m_step in Hs. cbn [snd] in Hs.
    destruct (sk_delete ltb eqb (o_skl om) k) as [[s1 b]| |]; cbn in Hs; try discriminate. injection Hs as -> ->.
    cbn [rbind]. eexists. split; [reflexivity|].
    eapply (skl_call om m locs 0%Z (MDel k)); [exact R|discriminate|exact Hs2|exact Hg|]. apply keysof_del.
  - eexists. split; [reflexivity|]. exists locs.
    assert (Em : map_del eqb m k = m).
    { apply has_get_false in E. clear -E. unfold map_del. induction m as [|e m IH]; [reflexivity|].
      cbn in E. apply orb_false_iff in E as [E1 E2]. rewrite filter_cons_True by exact E1. f_equal. apply IH; exact E2. }
    rewrite Em. exact R.
Qed.

Lemma new_on_tail (h : list (sknode K unit)) seed : tail_ok (new_on zeroK tt h seed).
Proof.
  unfold tail_ok, new_on. cbn [s_heap s_tail]. rewrite lookup_app_r by lia.
  replace (S (length h) - length h) with 1 by lia. reflexivity.
Qed.
Lemma ord_clear_rel om m locs seed : RelL om m locs -> RelL (ord_clear zeroK om seed) [] [].
Proof.
  intros R. constructor; cbn [o_m o_skl ord_clear].
  - unfold sk_clear. apply new_inv. apply (inv_16 _ _ _ _ (rl_inv _ _ _ R)).
  - reflexivity.
  - reflexivity.
  - apply new_on_tail.
Qed.

Lemma ord_step_rel om m c o : Rel om m -> exists om', step om (c, o) = Ret (om', (istep m o).2) /\ Rel om' (istep m o).1.
Proof.
  intros [locs R]. destruct o; unfold o_step; cbn [snd fst ord_step].
  - destruct (ord_set_rel om m locs k v R) as (om' & -> & HR). cbn [rbind]. eauto.
  - destruct (ord_del_rel om m locs k R) as (om' & -> & HR). cbn [rbind]. eauto.
  - rewrite (rl_get _ _ _ R). eexists; split; [reflexivity|]. exists locs; exact R.
  - eexists; split; [|exists locs; exact R]. unfold sk_len. rewrite (inv_len _ _ _ _ (rl_inv _ _ _ R)).
    pose proof (Permutation_length (rl_keys _ _ _ R)) as HL. rewrite !fmap_length in HL. rewrite HL. reflexivity.
  - eexists; split; [reflexivity|]. exists []. eapply ord_clear_rel; exact R.
  - unfold sk_keys. rewrite (entries_spec zeroK tt ltb _ _ (rl_inv _ _ _ R)). cbn [rbind].
    rewrite <- (rl_entries _ _ _ R), keysof_fst. eexists; split; [reflexivity|exists locs; exact R].
  - unfold ord_values. rewrite (ord_values_spec om m locs [] locs _ it_new R eq_refl); [|right; auto|eapply locs_length; exact R].
    cbn [rbind]. rewrite (sorted_values _ _ _ R). eexists; split; [reflexivity|exists locs; exact R].
Qed.
Lemma ord_new_rel seed : Rel (ord_new zeroK seed) [].
Proof.
  exists []. constructor; cbn [o_m o_skl ord_new].
  - apply new_inv. constructor.
  - reflexivity.
  - reflexivity.
  - apply new_on_tail.
Qed.
Lemma ord_run om m hist : Rel om m ->
  exists om', run step om hist = (ideal_results istep m hist.*2, Ret om') /\ Rel om' (ideal_state istep m hist.*2).
Proof.
  intros R. apply (run_refines_oracle step istep Rel (fun _ _ => True)); auto.
  intros s a c o Hr _. apply ord_step_rel; exact Hr.
Qed.

(** *** Range *)
Definition before (s : skl K unit) (it : iter) (B : list nat) : Prop :=
  let x := default (s_head s) it in
  x < length (s_heap s) /\ nx (s_heap s) 0 x = Some (default (s_tail s) (head B)).

Lemma before_next s locs A B it : Inv s locs -> locs = A ++ B -> before s it B ->
  it_next s it = match B with
                 | [] => Ret (Some (s_tail s), None)
                 | y :: _ => Ret (Some y, Some (ent (s_heap s) y))
                 end.
Proof.
  intros I -> [Hx Hnx].
  transitivity (let! n := get_next (s_heap s) (default (s_head s) it) 0 in match n with None => Panic | Some y => if (y =? s_tail s)%nat then Ret (Some y, None) else let! nd := deref (s_heap s !! y) in Ret (Some y, Some (sk_key nd, sk_value nd)) end).
  { destruct it; reflexivity. }
  rewrite get_next_nx; [|apply (inv_16 _ _ _ _ I)|exact Hx|lia]. cbn [rbind]. rewrite Hnx.
  destruct B as [|y B]; cbn.
  - rewrite Nat.eqb_refl. reflexivity.
  - pose proof (inv_tail_notin _ _ I) as Hn. destruct (Nat.eqb_spec y (s_tail s)) as [->|_].
    { exfalso. apply Hn. rewrite elem_of_cons, elem_of_app, elem_of_cons. tauto. }
    destruct (deref_node zeroK tt (s_heap s) y) as (nd & En & Ek & Ev & _).
    { eapply inv_elem_bound; [exact I|]. rewrite !elem_of_cons, elem_of_app, elem_of_cons. tauto. }
    rewrite En. cbn. unfold SklProofs.ent. rewrite Ek, Ev. reflexivity.
Qed.
Lemma before_path (s : skl K unit) A y B : Inv s (A ++ y :: B) -> before s (Some y) B.
Proof.
  intros I. pose proof (inv_path _ _ _ _ I 0 ltac:(lia)) as Hp. rewrite lv_0 in Hp by apply (inv_hg _ _ _ _ I).
  change (y :: B) with ([y] ++ B) in Hp. rewrite app_assoc in Hp. apply path_app in Hp.
  unfold last_or in Hp. rewrite last_snoc in Hp. cbn in Hp. split; cbn [default id from_option].
  - eapply inv_elem_bound; [exact I|]. rewrite !elem_of_cons, elem_of_app, elem_of_cons. tauto.
  - destruct B as [|z B]; cbn in *; [exact Hp|apply Hp].
Qed.

Lemma del_current om m A y B : RelL om m (A ++ y :: B) ->
  exists om', ord_del ltb eqb om (ky (s_heap (o_skl om)) y) = Ret om' /\
    RelL om' (map_del eqb m (ky (s_heap (o_skl om)) y)) (A ++ B) /\ before (o_skl om') (Some y) B /\
    (forall z, z ∈ A ++ y :: B -> ky (s_heap (o_skl om')) z = ky (s_heap (o_skl om)) z).
Proof.
  intros R. set (k := ky (s_heap (o_skl om)) y). pose proof (rl_inv _ _ _ R) as I.
  pose proof (before_path _ _ _ _ I) as [Hb1 Hb2]. cbn [default id from_option] in Hb1, Hb2.
  pose proof (inv_sorted _ _ _ _ I) as HS. apply StronglySorted_app_inv in HS as (_ & HS & HAB).
  apply StronglySorted_inv in HS as [_ HS].
  assert (HL : Forall (fun z => ltb (ky (s_heap (o_skl om)) z) k = true) A).
  { rewrite Forall_forall. intros z Hz. apply (HAB z y); [exact Hz|constructor]. }
  assert (HR : Forall (fun z => ltb (ky (s_heap (o_skl om)) z) k = false) (y :: B)).
  { constructor; [apply (lt_irrefl _ _ SWO)|]. eapply Forall_impl; [exact HS|]. intros z Hz. apply (lt_nlt _ _ SWO). exact Hz. }
  pose proof (delete_inv zeroK tt ltb eqb (o_skl om) k A (y :: B) I HL HR) as Hd.
  unfold found in Hd. fold k in Hd. rewrite (eqb_refl _ _ SWO) in Hd.
  destruct Hd as (B' & s' & HB & E & Eh & Et & Fr & El & I' & Hent). injection HB as <-.
  destruct (ord_del_rel om m _ k R) as (om' & Ed & locs2 & R2). exists om'. split; [exact Ed|].
  unfold ord_del in Ed. rewrite (rl_get _ _ _ R) in Ed.
  destruct (map_get eqb m k) eqn:Eg.
  2:{ exfalso. assert (Hin : (k, tt) ∈ keysof m).
      { rewrite (rl_keys _ _ _ R), fmap_app, fmap_cons. apply elem_of_app; right.
        assert (Eu : ent (s_heap (o_skl om)) y = (k, tt)) by (unfold SklProofs.ent; destruct (vl tt (s_heap (o_skl om)) y); reflexivity).
        rewrite Eu. left. }
      apply elem_of_list_fmap in Hin as (e & He & Hin). injection He as He.
      pose proof (rl_get_self _ _ _ e R Hin) as Hg. rewrite <- He, Eg in Hg. discriminate. }
  rewrite E in Ed. cbn [rbind] in Ed. injection Ed as <-. cbn [o_skl] in *.
  assert (Hyn : y ∉ s_head (o_skl om) :: A ++ B).
  { pose proof (inv_nodup _ _ _ _ I) as HN. apply NoDup_cons in HN as [Hh HN]. apply NoDup_cons in HN as [_ HN].
    rewrite elem_of_cons. intros [->|Hin].
    - apply Hh. apply elem_of_list_further. rewrite elem_of_app, elem_of_cons. tauto.
    - apply NoDup_app in HN as (_ & H2 & H3). apply NoDup_cons in H3 as [H3 _].
      rewrite elem_of_app in Hin. destruct Hin as [Hin|Hin]; [apply (H2 y Hin); constructor|auto]. }
  split; [|split].
  - constructor; cbn [o_skl o_m].
    + exact I'.
    + pose proof (rl_keys _ _ _ R2) as HP2. rewrite HP2. cbn [o_skl].
      pose proof (entries_spec zeroK tt ltb s' locs2 (rl_inv _ _ _ R2)) as E1.
      pose proof (entries_spec zeroK tt ltb s' _ I') as E2. rewrite E1 in E2. injection E2 as E2. rewrite E2. reflexivity.
    + exact (rl_get _ _ _ R2).
    + exact (rl_tail _ _ _ R2).
  - destruct Fr as (F1 & F2 & F3). split; cbn [default id from_option]; [lia|].
    unfold nx in *. rewrite F3; [|exact Hb1|exact Hyn]. rewrite Et. exact Hb2.
  - intros z _. specialize (Hent z). unfold SklProofs.ent in Hent. injection Hent as Hent _. exact Hent.
Qed.

Lemma range_spec {A} (f : A -> K -> V -> A * bool * bool) fuel : forall a om m L R it es,
  RelL om m (L ++ R) -> before (o_skl om) it R -> length R <= fuel ->
  keysof es = ent (s_heap (o_skl om)) <$> R -> (forall e, e ∈ es -> map_get eqb m e.1 = Some e.2) ->
  exists om' m', range_loop zeroV eqb fuel (deleting_callback ltb eqb f) a om it
    = ((ideal_range eqb f a m es).1, Ret ((ideal_range eqb f a m es).2.1, om')) /\
    m' = (ideal_range eqb f a m es).2.2 /\ Rel om' m'.
Proof.
  induction fuel as [|fuel IH]; intros a om m L R it es HR Hb Hf Hes Hget;
    (assert (Hnx := before_next _ _ L R it (rl_inv _ _ _ HR) eq_refl Hb)); cbn [range_loop]; rewrite Hnx.
  - destruct R as [|y R]; [|cbn in Hf; lia]. destruct es as [|? ?]; [|discriminate].
    cbn. eexists _, _. split; [reflexivity|]. split; [reflexivity|]. eexists; exact HR.
  - destruct R as [|y R].
    + destruct es as [|? ?]; [|discriminate]. cbn. eexists _, _. split; [reflexivity|]. split; [reflexivity|]. eexists; exact HR.
    + destruct es as [|[k v] es]; [discriminate|]. rewrite !fmap_cons in Hes. injection Hes as Hk _ Hes. cbn [fst] in Hk.
      unfold SklProofs.ent at 1. rewrite (rl_get _ _ _ HR), <- Hk.
      pose proof (Hget (k, v) ltac:(constructor)) as Hkv. cbn [fst snd] in Hkv. rewrite Hkv. cbn [default id from_option].
      unfold deleting_callback at 1. cbn [ideal_range]. destruct (f a k v) as [[a' del] stop] eqn:Ef.
      assert (Hnext : exists om1 L', (if del then let! o1 := ord_del ltb eqb om k in Ret (a', o1, stop) else Ret (a', om, stop)) = Ret (a', om1, stop) /\
         RelL om1 (if del then map_del eqb m k else m) (L' ++ R) /\ before (o_skl om1) (Some y) R /\
         ent (s_heap (o_skl om1)) <$> R = ent (s_heap (o_skl om)) <$> R).
      { destruct del.
        - destruct (del_current om m L y R HR) as (om1 & E1 & R1 & B1 & K1). rewrite <- Hk in E1, R1. rewrite E1.
          exists om1, L. split; [reflexivity|]. split; [exact R1|]. split; [exact B1|].
          apply list_fmap_ext. intros i z Hz. apply elem_of_list_lookup_2 in Hz. unfold SklProofs.ent. rewrite K1 by (rewrite elem_of_app, elem_of_cons; tauto).
          destruct (vl tt (s_heap (o_skl om1)) z), (vl tt (s_heap (o_skl om)) z). reflexivity.
        - exists om, (L ++ [y]). split; [reflexivity|]. rewrite <- app_assoc. split; [exact HR|]. split; [|reflexivity].
          apply (before_path _ L). apply HR. }
      destruct Hnext as (om1 & L' & -> & R1 & B1 & K1).
      destruct stop; [cbn; eexists _, _; split; [reflexivity|]; split; [reflexivity|]; eexists; exact R1|].
      destruct (IH a' om1 _ L' R (Some y) es R1 B1 ltac:(cbn in Hf; lia) ltac:(rewrite K1; exact Hes)) as (om2 & m2 & E2 & Em2 & R2).
      { intros e He. destruct del; [|apply Hget; apply elem_of_list_further; exact He].
        rewrite (map_get_del ltb eqb SWO). rewrite (Hget e) by (apply elem_of_list_further; exact He).
        (* keys of es differ from k *)
        assert (Hin : (e.1, tt) ∈ ent (s_heap (o_skl om)) <$> R).
        { rewrite <- Hes. apply elem_of_list_fmap. exists e. auto. }
        apply elem_of_list_fmap in Hin as (z & Hz & Hzin). injection Hz as Hz _.
        pose proof (inv_sorted _ _ _ _ (rl_inv _ _ _ HR)) as HS. apply StronglySorted_app_inv in HS as (_ & HS & _).
        apply StronglySorted_inv in HS as [_ HS]. rewrite Forall_forall in HS. specialize (HS z Hzin). cbn in HS.
        rewrite <- Hk in HS. rewrite Hz. rewrite (lt_eqb _ _ SWO _ _ HS). reflexivity. }
      rewrite E2. destruct (ideal_range eqb f a' _ es) as [vs [a2 m3]]. cbn in *. eauto.
Qed.

Lemma range_rel {A} (f : A -> K -> V -> A * bool * bool) fuel a om m :
  Rel om m -> length m <= fuel ->
  exists om', ord_range zeroV eqb fuel (deleting_callback ltb eqb f) a om
    = ((ideal_range eqb f a m (sorted_entries ltb m)).1, Ret ((ideal_range eqb f a m (sorted_entries ltb m)).2.1, om')) /\
    Rel om' (ideal_range eqb f a m (sorted_entries ltb m)).2.2.
Proof.
  intros [locs R] Hf. unfold ord_range.
  destruct (range_spec f fuel a om m [] locs it_new (sorted_entries ltb m) R) as (om' & m' & E & Em & HR).
  - pose proof (inv_path _ _ _ _ (rl_inv _ _ _ R) 0 ltac:(lia)) as Hp. rewrite lv_0 in Hp by apply (inv_hg _ _ _ _ (rl_inv _ _ _ R)).
    split; cbn [default id from_option it_new].
    + eapply inv_elem_bound; [apply R|constructor].
    + destruct locs; cbn in *; [exact Hp|apply Hp].
  - pose proof (Permutation_length (rl_keys _ _ _ R)) as HL. rewrite !fmap_length in HL. lia.
  - apply rl_entries; exact R.
  - intros e He. eapply rl_get_self; [exact R|]. rewrite <- (sorted_entries_perm ltb m). exact He.
  - exists om'. split; [exact E|]. rewrite <- Em. exact HR.
Qed.

(** *** Range whose callback Clears the map *)
Lemma clear_loop seeds (h : list (sknode K unit)) T fuel : forall B x a om ext,
  all16 h -> s_heap (o_skl om) = h ++ ext -> all16 ext -> o_m om = [] -> length h <= s_tail (o_skl om) ->
  T < length h -> h !! T = Some (SkNode zeroK tt (replicate MAX_HEIGHT None) 0) ->
  x < length h -> Forall (fun y => y < length h) B -> path (nx h 0) x B T ->
  S (length B) <= fuel ->
  range_loop zeroV eqb fuel (clearing_callback (V := V) zeroK seeds) a om (Some x)
  = (((fun y => (ky h y, zeroV)) <$> B) ++ [(zeroK, zeroV)], Panic).
Proof.
  induction fuel as [|fuel IH]; intros B x a om ext H16 Hh Hext Hm Hst HT HTn Hx HB Hp Hf; [lia|].
  assert (Hlk : forall z, z < length h -> s_heap (o_skl om) !! z = h !! z).
  { intros z Hz. rewrite Hh. apply lookup_app_l. exact Hz. }
  assert (Hget : forall z, z < length h -> get_next (s_heap (o_skl om)) z 0 = Ret (nx h 0 z)).
  { intros z Hz. unfold get_next. rewrite Hlk by exact Hz. apply (get_next_nx h z 0 H16 Hz). lia. }
  cbn [range_loop]; unfold it_next. rewrite Hget by exact Hx. cbn [rbind].
  destruct B as [|y B]; cbn [path] in Hp.
  - rewrite Hp. cbn [rbind]. destruct (Nat.eqb_spec T (s_tail (o_skl om))) as [E|_]; [lia|].
    rewrite Hlk, HTn by exact HT. cbn [deref rbind sk_key]. rewrite Hm. cbn [gm_get default].
    unfold clearing_callback at 1. cbn [fmap list_fmap app].
    assert (Hpanic : forall a' om' f', s_heap (o_skl om') !! T = h !! T ->
      range_loop zeroV eqb f' (clearing_callback (V := V) zeroK seeds) a' om' (Some T) = ([], Panic)).
    { intros a' om' f' Hl. destruct f'; cbn [range_loop]; unfold it_next, get_next; rewrite Hl, HTn; reflexivity. }
    rewrite Hpanic; [reflexivity|]. cbn [ord_clear o_skl sk_clear new_on s_heap]. rewrite lookup_app_l; [apply Hlk; exact HT|].
    rewrite Hh, app_length. lia.
  - destruct Hp as [Hp Hp']. apply Forall_cons in HB as [Hy HB]. rewrite Hp. cbn [rbind].
    destruct (Nat.eqb_spec y (s_tail (o_skl om))) as [E|_]; [lia|].
    destruct (deref_node zeroK tt h y Hy) as (nd & En & Ek & _). rewrite Hlk, En by exact Hy. cbn [deref rbind].
    rewrite Hm. cbn [gm_get default]. unfold clearing_callback at 1.
    rewrite (IH B y (S a) (ord_clear zeroK om (seeds a)) (ext ++ [SkNode zeroK tt (replicate MAX_HEIGHT (Some (S (length (s_heap (o_skl om)))))) 0;
             SkNode zeroK tt (replicate MAX_HEIGHT None) 0])); auto.
    + rewrite fmap_cons, Ek. reflexivity.
    + cbn [ord_clear o_skl sk_clear new_on s_heap]. rewrite Hh, <- app_assoc. reflexivity.
    + apply Forall_app. split; [exact Hext|]. repeat constructor.
    + cbn [ord_clear o_skl sk_clear new_on s_tail]. rewrite Hh, app_length. lia.
    + cbn in Hf. lia.
Qed.

Lemma range_clear seeds fuel om m k v es :
  Rel om m -> sorted_entries ltb m = (k, v) :: es -> S (length m) <= fuel ->
  ord_range zeroV eqb fuel (clearing_callback (V := V) zeroK seeds) 0 om
  = ((k, v) :: ((fun e => (e.1, zeroV)) <$> es) ++ [(zeroK, zeroV)], Panic).
Proof.
  intros [locs R] Hes Hf. unfold ord_range.
  pose proof (rl_entries _ _ _ R) as HE. rewrite Hes in HE. destruct locs as [|y B]; [discriminate|].
  rewrite !fmap_cons in HE. injection HE as Hk _ HE. cbn [fst] in Hk.
  pose proof (inv_path _ _ _ _ (rl_inv _ _ _ R) 0 ltac:(lia)) as Hp. rewrite lv_0 in Hp by apply (inv_hg _ _ _ _ (rl_inv _ _ _ R)).
  destruct Hp as [Hp1 Hp].
  assert (Hb : before (o_skl om) it_new (y :: B)).
  { split; cbn [default id from_option it_new]; [eapply inv_elem_bound; [apply R|constructor]|exact Hp1]. }
  assert (Hbd : forall z, z ∈ s_head (o_skl om) :: s_tail (o_skl om) :: y :: B -> z < length (s_heap (o_skl om))).
  { intros z Hz. eapply inv_elem_bound; [apply R|exact Hz]. }
  destruct fuel as [|fuel]; [lia|]. cbn [range_loop].
  rewrite (before_next _ _ [] (y :: B) it_new (rl_inv _ _ _ R) eq_refl Hb). unfold SklProofs.ent at 1.
  rewrite (rl_get _ _ _ R), <- Hk.
  assert (Hkv : map_get eqb m k = Some v).
  { apply (rl_get_self _ _ _ (k, v) R). rewrite <- (sorted_entries_perm ltb m), Hes. constructor. }
  rewrite Hkv. cbn [default id from_option]. unfold clearing_callback at 1.
  set (h := s_heap (o_skl om)) in *.
  rewrite (clear_loop seeds h (s_tail (o_skl om)) fuel B y 1 (ord_clear zeroK om (seeds 0))
    [SkNode zeroK tt (replicate MAX_HEIGHT (Some (S (length h)))) 0; SkNode zeroK tt (replicate MAX_HEIGHT None) 0]).
  - f_equal. f_equal. f_equal.
    revert HE. clear. revert es. induction B as [|z B IH]; intros [|e es] HE; try discriminate; [reflexivity|].
    rewrite !fmap_cons in *. injection HE as H1 _ HE. rewrite H1. f_equal. apply IH; exact HE.
  - apply (inv_16 _ _ _ _ (rl_inv _ _ _ R)).
  - reflexivity.
  - repeat constructor.
  - reflexivity.
  - cbn [ord_clear o_skl sk_clear new_on s_tail]. fold h. lia.
  - apply Hbd. do 1 apply elem_of_list_further. constructor.
  - apply (rl_tail _ _ _ R).
  - apply Hbd. do 2 apply elem_of_list_further. constructor.
  - rewrite Forall_forall. intros z Hz. apply Hbd. do 3 apply elem_of_list_further. exact Hz.
  - exact Hp.
  - pose proof (Permutation_length (rl_keys _ _ _ R)) as HL. rewrite !fmap_length in HL. cbn [length] in HL. lia.
Qed.

Lemma range_clear_stop c fuel om m k v es :
  Rel om m -> sorted_entries ltb m = (k, v) :: es ->
  exists om', ord_range zeroV eqb fuel (fun (_ : unit) o _ _ => Ret (tt, ord_clear zeroK o c, true)) tt om
  = ([(k, v)], Ret (tt, om')) /\ Rel om' [].
Proof.
  intros [locs R] Hes. unfold ord_range.
  pose proof (rl_entries _ _ _ R) as HE. rewrite Hes in HE. destruct locs as [|y B]; [discriminate|].
  rewrite !fmap_cons in HE. injection HE as Hk _ HE. cbn [fst] in Hk.
  pose proof (inv_path _ _ _ _ (rl_inv _ _ _ R) 0 ltac:(lia)) as Hp. rewrite lv_0 in Hp by apply (inv_hg _ _ _ _ (rl_inv _ _ _ R)).
  destruct Hp as [Hp1 Hp].
  assert (Hb : before (o_skl om) it_new (y :: B)).
  { split; cbn [default id from_option it_new]; [eapply inv_elem_bound; [apply R|constructor]|exact Hp1]. }
  assert (Hkv : map_get eqb m k = Some v).
  { apply (rl_get_self _ _ _ (k, v) R). rewrite <- (sorted_entries_perm ltb m), Hes. constructor. }
  exists (ord_clear zeroK om c). split; [|exists []; eapply ord_clear_rel; exact R].
  destruct fuel as [|fuel]; cbn [range_loop];
  rewrite (before_next _ _ [] (y :: B) it_new (rl_inv _ _ _ R) eq_refl Hb); unfold SklProofs.ent at 1;
  rewrite (rl_get _ _ _ R), <- Hk, Hkv; reflexivity.
Qed.
End P.
