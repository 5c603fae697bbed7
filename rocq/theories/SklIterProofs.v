(** Iterators of the skip list, and readings of the ideal map. *)
From Verif Require Import Base SplitMixModel SklSpec SklModel SklProofs SklRefine.
From Coq Require Import Sorting.Sorted.

Section I.
Context {K V : Type} (zeroK : K) (zeroV : V) (ltb eqb : K -> K -> bool).
Context (showK : K -> list Z) (showV : V -> list Z).
Context (SWO : strict_weak_order ltb eqb).
Notation skl := (skl K V).
Implicit Types (s : skl) (m : list (K * V)) (locs : list nat) (e : K * V).
Notation ent := (ent zeroK zeroV).
Notation ky := (ky zeroK).
Notation Inv := (Inv zeroK ltb).
Notation found := (found zeroK eqb).
Notation sorted_entries := (sorted_entries ltb).
Notation Rel := (Rel zeroK zeroV ltb).
Notation step := (m_step zeroK zeroV ltb eqb showK showV).
Notation istep := (map_step ltb eqb showK showV).
Notation slt := (slt ltb).

(** *** The ideal map, read from the history *)
Definition uniq m : Prop := forall A e B e', m = A ++ e :: B -> e' ∈ A ++ B -> eqb e.1 e'.1 = false.

Lemma rel_uniq s m : Rel s m -> forall e e' m', m ≡ₚ e :: e' :: m' -> eqb e.1 e'.1 = false.
Proof.
  intros (locs & I & HP) e e' m' HP'. rewrite HP in HP'. clear HP.
  pose proof (rel_sorted zeroK zeroV ltb s locs I) as HS.
  revert HP' HS. generalize (ent (s_heap s) <$> locs) as l. intros l HP HS.
  assert (He : e ∈ l) by (rewrite HP; constructor).
  apply elem_of_list_split in He as (A & B & ->).
  rewrite <- Permutation_middle in HP. apply Permutation_cons_inv in HP.
  assert (He' : e' ∈ A ++ B) by (rewrite HP; constructor).
  apply StronglySorted_app_inv in HS as (_ & H2 & H3). apply StronglySorted_inv in H2 as [_ H2].
  rewrite elem_of_app in He'. destruct He' as [He'|He'].
  - apply (gt_eqb _ _ SWO). apply (H3 e' e); [exact He'|constructor].
  - apply (lt_eqb _ _ SWO). rewrite Forall_forall in H2. apply H2; exact He'.
Qed.

Lemma ideal_rel hist : exists s, Rel s (ideal_state istep [] hist).
Proof.
  destruct (skl_refines_rel zeroK zeroV ltb eqb showK showV SWO 0 ((fun o => (0%Z, o)) <$> hist)) as (s' & _ & H).
  exists s'. rewrite <- list_fmap_compose in H.
  assert (E : (snd ∘ (fun o : mop K V => (0%Z, o))) <$> hist = hist).
  { clear. induction hist as [|o hist IH]; [reflexivity|]. cbn. f_equal. exact IH. }
  rewrite E in H. exact H.
Qed.

Lemma eqb_trans x y z : eqb x y = true -> eqb y z = true -> eqb x z = true.
Proof.
  rewrite !(eq_spec _ _ SWO), !andb_true_iff, !negb_true_iff. intros [H1 H2] [H3 H4].
  split; eapply (nlt_trans _ _ SWO); eassumption.
Qed.
Lemma eqb_cong x y z : eqb x y = true -> eqb x z = eqb y z.
Proof.
  intros H. destruct (eqb y z) eqn:E.
  - eapply eqb_trans; eassumption.
  - destruct (eqb x z) eqn:E2; [|reflexivity].
    rewrite (eqb_sym _ _ SWO) in H. rewrite (eqb_trans _ _ _ H E2) in E. discriminate.
Qed.

Lemma get_filter m k : map_get eqb m k = snd <$> head (filter (fun e => eqb e.1 k = true) m).
Proof. reflexivity. Qed.

Lemma map_get_set m k v k' : map_get eqb (map_set eqb m k v) k' = if eqb k k' then Some v else map_get eqb m k'.
Proof.
  unfold map_set, map_get. destruct (map_has eqb m k) eqn:Eh.
  - induction m as [|e m IH]; [discriminate|]. cbn in Eh. rewrite fmap_cons, !filter_cons. cbn [fst snd].
    destruct (eqb e.1 k) eqn:Ek.
    + cbn [fst]. rewrite (eqb_cong _ _ k' Ek). destruct (decide (eqb k k' = true)) as [Hd|Hd].
      * rewrite Hd. reflexivity.
      * destruct (eqb k k') eqn:Ekk; [congruence|].
        (* the rest does not match k either: same filter *)
        clear IH Eh. induction m as [|e2 m IH2]; [reflexivity|].
        rewrite fmap_cons, !filter_cons. destruct (eqb e2.1 k) eqn:Ek2; cbn [fst].
        -- rewrite (eqb_cong _ _ k' Ek2), Ekk. destruct (decide (false = true)); [discriminate|exact IH2].
        -- destruct (decide (eqb e2.1 k' = true)); [reflexivity|exact IH2].
    + cbn in Eh. specialize (IH Eh). destruct (decide (eqb e.1 k' = true)) as [Hd|Hd].
      * destruct (eqb k k') eqn:Ekk; [|reflexivity].
        exfalso. rewrite (eqb_cong _ _ k Hd), (eqb_sym _ _ SWO), Ekk in Ek. discriminate.
      * exact IH.
  - rewrite filter_app, filter_cons, filter_nil. cbn [fst].
    induction m as [|e m IH].
    + cbn. destruct (decide (eqb k k' = true)) as [->|H]; [reflexivity|].
      destruct (eqb k k'); [congruence|reflexivity].
    + cbn in Eh. apply orb_false_iff in Eh as [Ek Eh]. rewrite filter_cons.
      destruct (decide (eqb e.1 k' = true)) as [Hd|Hd]; [|exact (IH Eh)].
      destruct (eqb k k') eqn:Ekk; [|reflexivity].
      exfalso. rewrite (eqb_cong _ _ k Hd), (eqb_sym _ _ SWO), Ekk in Ek. discriminate.
Qed.
Lemma map_get_del m k k' : map_get eqb (map_del eqb m k) k' = if eqb k k' then None else map_get eqb m k'.
Proof.
  unfold map_del, map_get. rewrite list_filter_filter. induction m as [|e m IH].
  - cbn. destruct (eqb k k'); reflexivity.
  - rewrite !filter_cons. destruct (decide (eqb e.1 k' = true /\ eqb e.1 k = false)) as [[H1 H2]|H].
    + destruct (decide (eqb e.1 k' = true)); [|congruence]. cbn.
      destruct (eqb k k') eqn:Ekk; [|reflexivity].
      exfalso. rewrite (eqb_cong _ _ k H1), (eqb_sym _ _ SWO), Ekk in H2. discriminate.
    + destruct (decide (eqb e.1 k' = true)) as [Hd|Hd]; [|exact IH].
      destruct (eqb k k') eqn:Ekk; [exact IH|].
      exfalso. apply H. split; [exact Hd|]. rewrite (eqb_cong _ _ k Hd), (eqb_sym _ _ SWO). exact Ekk.
Qed.

Lemma map_get_last_write hist k :
  map_get eqb (ideal_state istep [] hist) k = last_write eqb k (rev hist).
Proof.
  induction hist as [|o hist IH] using rev_ind; [reflexivity|].
  rewrite ideal_state_app, rev_app_distr. cbn [rev app].
  unfold ideal_state at 1. cbn [ideal_run]. destruct (istep _ o) as [m' r] eqn:E. cbn [snd].
  destruct o; cbn in E; injection E as <- _; cbn [last_write]; try exact IH.
  - rewrite map_get_set, IH. reflexivity.
  - rewrite map_get_del, IH. reflexivity.
  - reflexivity.
Qed.

(** presence in the ideal map *)
Lemma map_get_elem m k : is_Some (map_get eqb m k) <-> exists e, e ∈ m /\ eqb e.1 k = true.
Proof.
  unfold map_get. split.
  - intros [v H]. destruct (filter _ m) as [|e l] eqn:E; [discriminate|].
    exists e. assert (He : e ∈ filter (fun e => eqb e.1 k = true) m) by (rewrite E; constructor).
    apply elem_of_list_filter in He. tauto.
  - intros (e & He & Hk).
    assert (H : e ∈ filter (fun e => eqb e.1 k = true) m) by (apply elem_of_list_filter; auto).
    destruct (filter _ m); [inversion H|]. cbn. eauto.
Qed.
Lemma present_iff hist k : present eqb hist k <-> exists e, e ∈ ideal_state istep [] hist /\ eqb e.1 k = true.
Proof. unfold present. rewrite <- map_get_last_write. apply map_get_elem. Qed.

Lemma ascending_sorted (l : list (K * V)) : StronglySorted slt l -> ascending ltb l.*1.
Proof.
  induction 1 as [|x l HS IH HF]; [exact I|]. destruct l as [|y l]; [exact I|].
  cbn. split; [|exact IH]. apply Forall_cons in HF as [HF _]. exact HF.
Qed.

Lemma sorted_entries_strict hist : StronglySorted slt (sorted_entries (ideal_state istep [] hist)).
Proof.
  destruct (ideal_rel hist) as (s & locs & I & HP).
  rewrite (rel_entries zeroK zeroV ltb eqb SWO s locs _ I HP). apply (rel_sorted zeroK zeroV ltb s locs I).
Qed.

(** *** Keys, Values, Len of a state reached by a history *)
Lemma keys_spec seed hist s' :
  (run step (skl_new zeroK zeroV seed) hist).2 = Ret s' ->
  exists es, sk_keys s' = Ret es.*1 /\ sk_values s' = Ret es.*2 /\ sk_len s' = Z.of_nat (length es) /\
    ascending ltb es.*1 /\
    (forall k, present eqb hist.*2 k <-> exists k', k' ∈ es.*1 /\ eqb k' k = true) /\
    (forall k v, (k, v) ∈ es -> last_write eqb k (rev hist.*2) = Some v).
Proof.
  intros Hrun. destruct (skl_refines_rel zeroK zeroV ltb eqb showK showV SWO seed hist) as (s1 & H & HR).
  rewrite H in Hrun. injection Hrun as ->.
  pose proof HR as HR0. destruct HR as (locs & I & HP).
  set (m := ideal_state istep [] hist.*2) in *.
  exists (ent (s_heap s') <$> locs).
  unfold sk_keys, sk_values. rewrite (entries_spec zeroK zeroV ltb _ _ I). cbn [rbind].
  split; [reflexivity|]. split; [reflexivity|].
  split; [unfold sk_len; rewrite fmap_length; apply (inv_len _ _ _ _ I)|].
  split; [apply ascending_sorted, (rel_sorted zeroK zeroV ltb s' locs I)|]. split.
  - intros k. rewrite present_iff. fold m. split.
    + intros (e & He & Hk). exists e.1. split; [|exact Hk]. apply elem_of_list_fmap. exists e.
      split; [reflexivity|]. rewrite <- HP. exact He.
    + intros (k' & Hk' & Hk). apply elem_of_list_fmap in Hk' as (e & -> & He). exists e.
      split; [rewrite HP; exact He|exact Hk].
  - intros k v Hkv. rewrite <- map_get_last_write. fold m. rewrite <- HP in Hkv.
    pose proof Hkv as Hs. apply elem_of_list_split in Hs as (A & B & Em).
    pose proof (rel_uniq _ _ HR0) as HU. rewrite Em in HU |- *.
    assert (HAB : Forall (fun e => eqb e.1 k = false) (A ++ B)).
    { rewrite Forall_forall. intros e He. apply elem_of_list_split in He as (C & D & E).
      rewrite (eqb_sym _ _ SWO). change k with (k, v).1. apply (HU (k, v) e (C ++ D)).
      rewrite <- Permutation_middle, E, <- Permutation_middle. reflexivity. }
    apply Forall_app in HAB as [HA HB]. change v with (k, v).2 at 2.
    apply map_get_perm_some with (A := A) (B := B); auto. apply (eqb_refl _ _ SWO).
Qed.

(** *** Iterating over an unmodified map *)
Definition next_step s (it : iter) (_ : unit) := it_next s it.
Lemma nexts_spec s L R it n :
  Inv s (L ++ R) -> (it = Some (last_or (s_head s) L) \/ (it = None /\ L = [])) ->
  n <= S (length R) ->
  exists it', run (next_step s) it (replicate n tt)
  = (take n ((Some <$> (ent (s_heap s) <$> R)) ++ [None]), Ret it') /\
  (n = S (length R) -> it' = Some (s_tail s)).
Proof.
  revert L R it; induction n as [|n IH]; intros L R it I Hit Hn; cbn [replicate run].
  - exists it. split; [reflexivity|lia].
  - unfold next_step at 1. rewrite (next_spec zeroK zeroV ltb s _ L R I eq_refl it Hit).
    destruct R as [|y R].
    + cbn in Hn. assert (n = 0) as -> by lia. cbn. eexists; split; [reflexivity|auto].
    + destruct (IH (L ++ [y]) R (Some y)) as (it' & E & Ht).
      * rewrite <- app_assoc. exact I.
      * left. unfold last_or. rewrite last_snoc. reflexivity.
      * cbn in Hn; lia.
      * rewrite E. exists it'. cbn. split; [reflexivity|]. intros Hl. apply Ht. lia.
Qed.
Lemma next_tail s locs : Inv s locs -> it_next s (Some (s_tail s)) = Panic.
Proof.
  intros I. unfold it_next. rewrite get_next_nx.
  - rewrite (inv_tail _ _ _ _ I). reflexivity.
  - apply (inv_16 _ _ _ _ I).
  - eapply inv_elem_bound; [exact I|]. apply elem_of_list_further; constructor.
  - lia.
Qed.

Lemma iter_enumerates s m n :
  Rel s m -> n <= S (length m) ->
  exists it', run (next_step s) it_new (replicate n tt)
  = (take n ((Some <$> sorted_entries m) ++ [None]), Ret it') /\
  (n = S (length m) -> it_next s it' = Panic).
Proof.
  intros (locs & I & HP) Hn. rewrite (rel_entries zeroK zeroV ltb eqb SWO s locs m I HP).
  apply Permutation_length in HP. rewrite fmap_length in HP. rewrite HP in *.
  destruct (nexts_spec s [] locs it_new n I) as (it' & E & Ht); [right; auto|exact Hn|].
  exists it'. split; [exact E|]. intros Hl. rewrite (Ht Hl). eapply next_tail; exact I.
Qed.

Lemma seek_spec s m k :
  Rel s m ->
  exists it a, it_seek ltb eqb s k = Ret (it, a) /\
  match a with
  | None => it = it_new /\ forall e, e ∈ m -> eqb e.1 k = false
  | Some e => e ∈ m /\ eqb e.1 k = true /\
      forall n, n <= S (length (filter (fun e' => ltb k e'.1 = true) m)) ->
      exists it', run (next_step s) it (replicate n tt)
      = (take n ((Some <$> filter (fun e' => ltb k e'.1 = true) (sorted_entries m)) ++ [None]), Ret it')
  end.
Proof.
  intros HR. pose proof HR as (locs & I & HP).
  destruct (split_at_key zeroK ltb eqb SWO (s_heap s) k locs) as (L & R & -> & HL & HR').
  { apply (inv_sorted _ _ _ _ I). }
  unfold it_seek. destruct (search_spec zeroK zeroV ltb eqb s k L R I HL HR') as (ctx & E & _).
  rewrite E. cbn [rbind]. destruct (classify zeroK ltb eqb SWO s k L R I HL HR') as [CL CR].
  destruct (found s k R) as [x|].
  - destruct CR as (R' & -> & Hx & CR).
    destruct (deref_node zeroK zeroV (s_heap s) x) as (nd & En & Ek & Ev & _).
    { eapply inv_elem_bound; [exact I|]. rewrite !elem_of_cons, elem_of_app, elem_of_cons. tauto. }
    rewrite En. cbn [deref rbind]. eexists _, _. split; [reflexivity|]. rewrite <- Ek, <- Ev.
    assert (Ex : (ky (s_heap s) x, vl zeroV (s_heap s) x) = ent (s_heap s) x) by reflexivity. rewrite Ex.
    split; [rewrite HP, fmap_app, fmap_cons; apply elem_of_app; right; constructor|].
    split; [exact Hx|]. intros n Hn.
    rewrite (rel_entries zeroK zeroV ltb eqb SWO s _ m I HP).
    assert (Hf : filter (fun e' => ltb k e'.1 = true) (ent (s_heap s) <$> L ++ x :: R') = ent (s_heap s) <$> R').
    { pose proof (inv_sorted _ _ _ _ I) as HS. apply StronglySorted_app_inv in HS as (_ & HS & _).
      apply StronglySorted_inv in HS as [_ HS].
      rewrite fmap_app, filter_app, fmap_cons.
      assert (F1 : filter (fun e' => ltb k e'.1 = true) (ent (s_heap s) <$> L) = []).
      { clear -SWO HL. induction HL as [|y L Hy HL IH]; [reflexivity|]. rewrite fmap_cons.
        rewrite filter_cons_False; [exact IH|]. cbn. rewrite (lt_nlt _ _ SWO _ _ Hy). discriminate. }
      rewrite F1. cbn [app]. rewrite filter_cons_False.
      2:{ cbn. apply (eqb_nlt _ _ SWO) in Hx as [_ Hx]. rewrite Hx. discriminate. }
      clear -SWO HS Hx. induction HS as [|y R' Hy HS IH]; [reflexivity|]. rewrite fmap_cons.
      rewrite filter_cons_True; [f_equal; exact IH|]. cbn. eapply (lt_eq_lt _ _ SWO); eassumption. }
    rewrite Hf.
    assert (Hlen : length (filter (fun e' => ltb k e'.1 = true) m) = length R').
    { assert (HPf : filter (fun e' => ltb k e'.1 = true) m ≡ₚ filter (fun e' => ltb k e'.1 = true) (ent (s_heap s) <$> L ++ x :: R'))
        by (rewrite HP; reflexivity).
      apply Permutation_length in HPf. rewrite HPf, Hf, fmap_length. reflexivity. }
    rewrite Hlen in Hn.
    destruct (nexts_spec s (L ++ [x]) R' (Some x) n) as (it' & E' & _).
    + rewrite <- app_assoc. exact I.
    + left. unfold last_or. rewrite last_snoc. reflexivity.
    + exact Hn.
    + eauto.
  - eexists _, _. split; [reflexivity|]. split; [reflexivity|].
    intros e He. rewrite HP in He. apply elem_of_list_fmap in He as (y & -> & Hy). cbn.
    rewrite elem_of_app in Hy. rewrite Forall_forall in CL, CR. destruct Hy; auto.
Qed.

(** *** Iterating over a map that changes *)
(** one map call, seen through the live nodes *)
Lemma step_evolves s locs c o s' r :
  Inv s locs -> o <> MClear -> step s (c, o) = Ret (s', r) ->
  exists locs', Inv s' locs' /\ s_head s' = s_head s /\ s_tail s' = s_tail s /\ frame zeroK s locs' s' /\
    (forall y, y ∈ locs -> y ∉ locs' -> exists k, o = MDel k /\ eqb (ky (s_heap s) y) k = true).
Proof.
  intros I Ho Hs. unfold m_step in Hs; cbn [fst snd] in Hs.
  assert (Hsp : forall key, exists L R, locs = L ++ R /\ Forall (fun y => ltb (ky (s_heap s) y) key = true) L /\
              Forall (fun y => ltb (ky (s_heap s) y) key = false) R).
  { intros key. apply (split_at_key _ ltb eqb SWO). apply (inv_sorted _ _ _ _ I). }
  assert (Hsame : s' = s -> exists locs', Inv s' locs' /\ s_head s' = s_head s /\ s_tail s' = s_tail s /\ frame zeroK s locs' s' /\
    (forall y, y ∈ locs -> y ∉ locs' -> exists k, o = MDel k /\ eqb (ky (s_heap s) y) k = true)).
  { intros ->. exists locs. split; [exact I|]. split; [auto|]. split; [auto|]. split; [|tauto]. split; [lia|auto]. }
  destruct o as [key v|key|key| | | | | |]; try congruence.
  - destruct (Hsp key) as (L & R & -> & HL & HR).
    destruct (insert_inv zeroK zeroV ltb eqb SWO s key v L R I HL HR) as (s1 & E & E1 & E2 & Fr & Hs').
    rewrite E in Hs. cbn in Hs. injection Hs as <- _.
    destruct (found s key R) as [x|].
    + destruct Hs' as (I' & _). exists (L ++ R). do 4 (split; [assumption|]). tauto.
    + destruct Hs' as (I' & _). exists (L ++ length (s_heap s) :: R). do 3 (split; [assumption|]). split.
      * destruct Fr as (F1 & F2 & F3). split; [exact F1|]. split; [exact F2|]. intros y Hy Hyn. apply F3; [exact Hy|].
        intros Hc. apply Hyn. rewrite elem_of_cons, elem_of_app in *. rewrite elem_of_cons. tauto.
      * intros y Hy Hn. exfalso. apply Hn. rewrite elem_of_app in *. rewrite elem_of_cons. tauto.
  - destruct (Hsp key) as (L & R & -> & HL & HR).
    pose proof (delete_inv zeroK zeroV ltb eqb s key L R I HL HR) as Hd.
    destruct (classify zeroK ltb eqb SWO s key L R I HL HR) as [CL CR].
    destruct (found s key R) as [x|].
    + destruct CR as (R' & -> & Hx & CR). destruct Hd as (R2 & s1 & HR2 & E & E1 & E2 & Fr & _ & I' & Hent). injection HR2 as <-.
      rewrite E in Hs. cbn in Hs. injection Hs as <- _. exists (L ++ R'). do 4 (split; [assumption|]).
      intros y Hy Hn. exists key. split; [reflexivity|]. rewrite elem_of_app in *. rewrite elem_of_cons in Hy.
      destruct Hy as [Hy|[->|Hy]]; [tauto|exact Hx|tauto].
    + rewrite Hd in Hs. cbn in Hs. injection Hs as <- _. apply Hsame; reflexivity.
  - destruct (sk_get ltb eqb s key); cbn in Hs; try discriminate. injection Hs as <- _. apply Hsame; reflexivity.
  - injection Hs as <- _. apply Hsame; reflexivity.
  - destruct (sk_keys s); cbn in Hs; try discriminate. injection Hs as <- _. apply Hsame; reflexivity.
  - destruct (sk_values s); cbn in Hs; try discriminate. injection Hs as <- _. apply Hsame; reflexivity.
  - destruct (sk_to_string showK showV s); cbn in Hs; try discriminate. injection Hs as <- _. apply Hsame; reflexivity.
  - destruct (sk_to_map eqb s); cbn in Hs; try discriminate. injection Hs as <- _. apply Hsame; reflexivity.
Qed.

(** successor facts of live nodes *)
Lemma live_next s locs y : Inv s locs -> y ∈ locs ->
  exists z, nx (s_heap s) 0 y = Some z /\ (z = s_tail s \/ (z ∈ locs /\ ltb (ky (s_heap s) y) (ky (s_heap s) z) = true)) /\
  (forall l, l ∈ locs -> ltb (ky (s_heap s) y) (ky (s_heap s) l) = true ->
     z ∈ locs /\ ltb (ky (s_heap s) l) (ky (s_heap s) z) = false).
Proof.
  intros I Hy. apply elem_of_list_split in Hy as (A & B & ->).
  pose proof (inv_path _ _ _ _ I 0 ltac:(lia)) as Hp. rewrite lv_0 in Hp by apply (inv_hg _ _ _ _ I).
  change (y :: B) with ([y] ++ B) in Hp. rewrite app_assoc in Hp. apply path_app in Hp.
  unfold last_or in Hp. rewrite last_snoc in Hp. cbn in Hp.
  pose proof (inv_sorted _ _ _ _ I) as HS. apply StronglySorted_app_inv in HS as (_ & HS & HAB).
  apply StronglySorted_inv in HS as [HS HF].
  assert (Hpre : forall l, l ∈ A ++ y :: B -> ltb (ky (s_heap s) y) (ky (s_heap s) l) = true -> l ∈ B).
  { intros l Hl Hlt. rewrite elem_of_app, elem_of_cons in Hl. destruct Hl as [Hl|[->|Hl]]; [|rewrite (lt_irrefl _ _ SWO) in Hlt; discriminate|exact Hl].
    specialize (HAB l y Hl ltac:(constructor)). cbn in HAB.
    rewrite (lt_nlt _ _ SWO _ _ HAB) in Hlt. discriminate. }
  destruct B as [|z B]; cbn in Hp.
  - exists (s_tail s). split; [exact Hp|]. split; [auto|]. intros l Hl Hlt. specialize (Hpre l Hl Hlt). inversion Hpre.
  - destruct Hp as [Hp _]. exists z. split; [exact Hp|].
    assert (Hz : z ∈ A ++ y :: z :: B) by (rewrite elem_of_app, !elem_of_cons; tauto).
    apply Forall_cons in HF as [HF1 HF].
    split; [right; auto|]. intros l Hl Hlt. specialize (Hpre l Hl Hlt). split; [exact Hz|].
    rewrite elem_of_cons in Hpre. destruct Hpre as [->|Hin]; [apply (lt_irrefl _ _ SWO)|].
    apply StronglySorted_inv in HS as [_ HS]. rewrite Forall_forall in HS.
    apply (lt_nlt _ _ SWO). apply HS. exact Hin.
Qed.

Lemma head_next s locs : Inv s locs ->
  exists z, nx (s_heap s) 0 (s_head s) = Some z /\ (z = s_tail s /\ locs = [] \/ z ∈ locs) /\
  (forall l, l ∈ locs -> z ∈ locs /\ ltb (ky (s_heap s) l) (ky (s_heap s) z) = false).
Proof.
  intros I. pose proof (inv_path _ _ _ _ I 0 ltac:(lia)) as Hp. rewrite lv_0 in Hp by apply (inv_hg _ _ _ _ I).
  pose proof (inv_sorted _ _ _ _ I) as HS.
  destruct locs as [|z B]; cbn in Hp.
  - exists (s_tail s). split; [exact Hp|]. split; [auto|]. intros l Hl; inversion Hl.
  - destruct Hp as [Hp _]. exists z. split; [exact Hp|]. split; [right; constructor|].
    intros l Hl. split; [constructor|]. rewrite elem_of_cons in Hl. destruct Hl as [->|Hl]; [apply (lt_irrefl _ _ SWO)|].
    apply StronglySorted_inv in HS as [_ HS]. rewrite Forall_forall in HS. apply (lt_nlt _ _ SWO). apply HS. exact Hl.
Qed.

(** Ghost invariant of an iteration in progress. [H0] is the history before the
    iterator was made, [ms] the map calls made since (oldest first), [out] the
    entries returned so far. *)
Definition was_present (H0 ms : list (mop K V)) (k : K) : Prop :=
  exists p q, ms = p ++ q /\ present eqb (H0 ++ p) k.
Definition always_present (H0 ms : list (mop K V)) (k : K) : Prop :=
  forall p q, ms = p ++ q -> present eqb (H0 ++ p) k.

Definition Gok s (H0 ms : list (mop K V)) (G : nat -> Prop) (y : nat) : Prop :=
  y < length (s_heap s) /\ y <> s_tail s /\ y <> s_head s /\ was_present H0 ms (ky (s_heap s) y) /\
  exists z, nx (s_heap s) 0 y = Some z /\
    (z = s_tail s \/ (G z /\ ltb (ky (s_heap s) y) (ky (s_heap s) z) = true)) /\
    (forall k, always_present H0 ms k -> ltb (ky (s_heap s) y) k = true ->
       G z /\ ltb k (ky (s_heap s) z) = false).

Record J s locs (H0 ms : list (mop K V)) (G : nat -> Prop) (it : iter) (out : list (option (K * V))) : Prop := {
  j_inv : Inv s locs;
  j_rel : ideal_state istep [] (H0 ++ ms) ≡ₚ ent (s_heap s) <$> locs;
  j_live : forall y, y ∈ locs -> G y;
  j_ok : forall y, G y -> Gok s H0 ms G y;
  j_asc : StronglySorted slt (omap id out);
  j_was : forall e, Some e ∈ out -> was_present H0 ms e.1;
  j_it : match it with
         | None => out = []
         | Some y => y = s_tail s \/ (G y /\ Forall (fun e => ltb (ky (s_heap s) y) e.1 = false) (omap id out))
         end;
  j_cover : forall k, always_present H0 ms k ->
         (exists e, Some e ∈ out /\ eqb e.1 k = true) \/
         match it with None => True | Some y => y <> s_tail s /\ ltb (ky (s_heap s) y) k = true end }.

Lemma always_shrink H0 ms o k : always_present H0 (ms ++ [o]) k -> always_present H0 ms k.
Proof. intros H p q ->. apply (H p (q ++ [o])). rewrite app_assoc. reflexivity. Qed.
Lemma was_grow H0 ms o k : was_present H0 ms k -> was_present H0 (ms ++ [o]) k.
Proof. intros (p & q & -> & H). exists p, (q ++ [o]). rewrite app_assoc. auto. Qed.
Lemma was_now H0 ms k : present eqb (H0 ++ ms) k -> was_present H0 ms k.
Proof. intros H. exists ms, []. rewrite app_nil_r. auto. Qed.
Lemma always_now H0 ms k : always_present H0 ms k -> present eqb (H0 ++ ms) k.
Proof. intros H. apply (H ms []). rewrite app_nil_r. reflexivity. Qed.

Lemma present_live s locs H0 ms k :
  ideal_state istep [] (H0 ++ ms) ≡ₚ ent (s_heap s) <$> locs ->
  present eqb (H0 ++ ms) k <-> exists l, l ∈ locs /\ eqb (ky (s_heap s) l) k = true.
Proof.
  intros HP. rewrite present_iff. split.
  - intros (e & He & Hk). rewrite HP in He. apply elem_of_list_fmap in He as (l & -> & Hl). eauto.
  - intros (l & Hl & Hk). exists (ent (s_heap s) l). split; [|exact Hk]. rewrite HP.
    apply elem_of_list_fmap. eauto.
Qed.

Lemma live_Gok s locs H0 ms (G : nat -> Prop) y :
  Inv s locs -> ideal_state istep [] (H0 ++ ms) ≡ₚ ent (s_heap s) <$> locs ->
  (forall y, y ∈ locs -> G y) -> y ∈ locs -> Gok s H0 ms G y.
Proof.
  intros I HP HG Hy. pose proof (inv_nodup _ _ _ _ I) as HN.
  split; [eapply inv_elem_bound; [exact I|]; do 2 apply elem_of_list_further; exact Hy|].
  split. { intros ->. apply NoDup_cons in HN as [_ HN]. apply NoDup_cons in HN as [HN _]. auto. }
  split. { intros ->. apply NoDup_cons in HN as [HN _]. apply HN. apply elem_of_list_further; exact Hy. }
  split. { apply was_now. apply (present_live s locs); [exact HP|]. exists y. split; [exact Hy|]. apply (eqb_refl _ _ SWO). }
  destruct (live_next s locs y I Hy) as (z & Hz & Hz1 & Hz2). exists z. split; [exact Hz|]. split.
  - destruct Hz1 as [?|[? ?]]; auto.
  - intros k Hk Hlt. apply always_now, (present_live s locs) in Hk as (l & Hl & Hk); [|exact HP].
    apply (eqb_nlt _ _ SWO) in Hk as [Hk1 Hk2].
    assert (Hyl : ltb (ky (s_heap s) y) (ky (s_heap s) l) = true).
    { destruct (lt_cover _ _ SWO _ (ky (s_heap s) l) _ Hlt) as [H|H]; [exact H|congruence]. }
    destruct (Hz2 l Hl Hyl) as [Hz3 Hz4]. split; [auto|]. eapply (nlt_trans _ _ SWO); eassumption.
Qed.

Lemma J_map s locs H0 ms G it out c o :
  J s locs H0 ms G it out -> o <> MClear ->
  exists s' locs' G', step s (c, o) = Ret (s', (istep (ideal_state istep [] (H0 ++ ms)) o).2) /\
    J s' locs' H0 (ms ++ [o]) G' it out /\ s_tail s' = s_tail s.
Proof.
  intros [JI JR JL JO JA JW JT JC] Ho.
  destruct (rel_step zeroK zeroV ltb eqb showK showV SWO s _ c o ltac:(exists locs; split; [exact JI|exact JR])) as (s' & Hs & HR').
  destruct (step_evolves s locs c o s' _ JI Ho Hs) as (locs' & I' & Eh & Et & (F1 & F2 & F3) & Hgone).
  (* the abstract map is given by any invariant-satisfying list of live nodes *)
  assert (HP' : ideal_state istep [] (H0 ++ ms ++ [o]) ≡ₚ ent (s_heap s') <$> locs').
  { rewrite app_assoc, ideal_state_app. unfold ideal_state at 1. cbn [ideal_run].
    destruct (istep (ideal_state istep [] (H0 ++ ms)) o) as [m' r'] eqn:Em. cbn [snd fst] in *.
    destruct HR' as (locs2 & I2 & HP2). rewrite HP2.
    rewrite <- (rel_entries zeroK zeroV ltb eqb SWO s' locs2 _ I2 HP2).
    pose proof (entries_spec zeroK zeroV ltb s' locs2 I2) as E1.
    pose proof (entries_spec zeroK zeroV ltb s' locs' I') as E2. rewrite E1 in E2. injection E2 as E2.
    rewrite (rel_entries zeroK zeroV ltb eqb SWO s' locs2 _ I2 HP2). rewrite E2. reflexivity. }
  assert (Htail : s_tail s < length (s_heap s)).
  { eapply inv_elem_bound; [exact JI|]. apply elem_of_list_further; constructor. }
  exists s', locs', (fun y => G y \/ y ∈ locs'). split; [exact Hs|]. split; [|exact Et].
  assert (Hb : forall y, G y -> y < length (s_heap s)) by (intros y Hy; apply JO in Hy; apply Hy).
  assert (Hhead : forall y, G y -> y <> s_head s).
  { intros y Hy. apply JO in Hy. apply Hy. }
  constructor.
  - exact I'.
  - exact HP'.
  - auto.
  - intros y [Hy|Hy]; [|eapply live_Gok; eauto].
    destruct (decide (y ∈ locs')) as [Hl|Hl]; [eapply live_Gok; eauto|].
    destruct (JO y Hy) as (G1 & G2 & Gh & G3 & z & G4 & G5 & G6).
    assert (Enode : s_heap s' !! y = s_heap s !! y).
    { apply F3; [exact G1|]. rewrite elem_of_cons. intros [->|Hc]; [|auto]. eapply Hhead; eauto. }
    split; [lia|]. split; [congruence|]. split; [congruence|]. split; [rewrite F2 by exact G1; apply was_grow; exact G3|].
    exists z. split; [unfold nx in *; rewrite Enode; exact G4|]. split.
    + destruct G5 as [->|[G5 G5']]; [left; congruence|]. right. split; [auto|]. rewrite !F2 by auto. exact G5'.
    + intros k Hk Hlt. apply always_shrink in Hk. rewrite F2 in Hlt by exact G1.
      destruct (G6 k Hk Hlt) as [G7 G8]. split; [auto|]. rewrite F2 by auto. exact G8.
  - exact JA.
  - intros e He. apply was_grow. auto.
  - destruct it as [y|]; [|exact JT]. rewrite Et. destruct JT as [?|[Hy Hf]]; [auto|right].
    split; [auto|]. rewrite F2 by auto. exact Hf.
  - intros k Hk. apply always_shrink in Hk. destruct (JC k Hk) as [?|Hc]; [auto|right].
    destruct it as [y|]; [|exact I]. destruct Hc as [Hc1 Hc2]. split; [congruence|].
    destruct JT as [?|[Hy _]]; [congruence|]. rewrite F2 by auto. exact Hc2.
Qed.

Lemma J_next s locs H0 ms G it out :
  J s locs H0 ms G it out -> it <> Some (s_tail s) ->
  exists it' a, it_next s it = Ret (it', a) /\ J s locs H0 ms G it' (out ++ [a]) /\ (a = None <-> it' = Some (s_tail s)).
Proof.
  intros [JI JR JL JO JA JW JT JC] Hit.
  assert (Hh : s_head s < length (s_heap s)) by (eapply inv_elem_bound; [exact JI|constructor]).
  set (x := match it with None => s_head s | Some y => y end).
  assert (Hx : x < length (s_heap s)).
  { destruct it as [y|]; cbn; [|exact Hh]. destruct JT as [->|[Hy _]]; [congruence|]. apply JO in Hy. apply Hy. }
  assert (Enx : it_next s it = match nx (s_heap s) 0 x with
                | Some z => if Nat.eqb z (s_tail s) then Ret (Some z, None)
                            else let! nd := deref (s_heap s !! z) in Ret (Some z, Some (sk_key nd, sk_value nd))
                | None => Panic end).
  { transitivity (let! n := get_next (s_heap s) x 0 in match n with None => Panic | Some y => if (y =? s_tail s)%nat then Ret (Some y, None) else let! nd := deref (s_heap s !! y) in Ret (Some y, Some (sk_key nd, sk_value nd)) end).
    { destruct it; reflexivity. }
    rewrite get_next_nx; [destruct (nx (s_heap s) 0 x); reflexivity|apply (inv_16 _ _ _ _ JI)|exact Hx|lia]. }
  (* the successor *)
  assert (Hz : exists z, nx (s_heap s) 0 x = Some z /\ (z = s_tail s \/ G z /\ (it <> None -> ltb (ky (s_heap s) x) (ky (s_heap s) z) = true)) /\
     (forall k, always_present H0 ms k -> (it = None \/ ltb (ky (s_heap s) x) k = true) -> G z /\ ltb k (ky (s_heap s) z) = false)).
  { destruct it as [y|]; cbn in x.
    - destruct JT as [->|[Hy _]]; [congruence|]. destruct (JO y Hy) as (_ & _ & _ & _ & z & G4 & G5 & G6).
      exists z. split; [exact G4|]. split; [destruct G5 as [?|[? ?]]; auto|]. intros k Hk [?|Hlt]; [discriminate|auto].
    - destruct (head_next s locs JI) as (z & Hz & Hz1 & Hz2). exists z. split; [exact Hz|]. split.
      + destruct Hz1 as [[? _]|?]; [auto|right]. split; [auto|congruence].
      + intros k Hk _. apply always_now, (present_live s locs) in Hk as (l & Hl & Hk); [|exact JR].
        destruct (Hz2 l Hl) as [Hz3 Hz4]. split; [auto|].
        apply (eqb_nlt _ _ SWO) in Hk as [Hk1 Hk2]. eapply (nlt_trans _ _ SWO); eassumption. }
  destruct Hz as (z & Hz & Hz1 & Hz2). rewrite Enx, Hz.
  assert (Hcov : forall k, always_present H0 ms k -> (exists e, Some e ∈ out /\ eqb e.1 k = true) \/
     (it = None \/ ltb (ky (s_heap s) x) k = true)).
  { intros k Hk. destruct (JC k Hk) as [?|Hc]; [auto|right]. destruct it as [y|]; [right; apply Hc|auto]. }
  destruct (Nat.eqb_spec z (s_tail s)) as [->|Hzt].
  - exists (Some (s_tail s)), None. split; [reflexivity|]. split; [|tauto].
    constructor; auto.
    + rewrite omap_app. cbn. rewrite app_nil_r. exact JA.
    + intros e He. rewrite elem_of_app, elem_of_list_singleton in He. destruct He as [He|He]; [auto|discriminate].
    + intros k Hk. left. destruct (Hcov k Hk) as [(e & He & Hek)|Hc].
      * exists e. rewrite elem_of_app. auto.
      * destruct (Hz2 k Hk Hc) as [Hgt _]. apply JO in Hgt. destruct Hgt as (_ & Hne & _). congruence.
  - destruct Hz1 as [?|[HGz Hlt]]; [congruence|].
    destruct (JO z HGz) as (Hzb & _ & _ & Hzw & _).
    destruct (deref_node zeroK zeroV (s_heap s) z Hzb) as (nd & En & Ek & Ev & _).
    rewrite En. cbn [deref rbind]. rewrite <- Ek, <- Ev.
    eexists _, _. split; [reflexivity|]. split; [|split; [discriminate|congruence]].
    assert (Hbelow : Forall (fun e => ltb e.1 (ky (s_heap s) z) = true) (omap id out)).
    { destruct it as [y|]; [|subst out; constructor]. destruct JT as [?|[Hy Hf]]; [congruence|].
      eapply Forall_impl; [exact Hf|]. intros e He. cbn in He.
      destruct (lt_cover _ _ SWO _ e.1 _ (Hlt ltac:(discriminate))) as [Hc|Hc]; [|exact Hc].
      change (ltb (ky (s_heap s) y) e.1 = true) in Hc. congruence. }
    constructor; auto.
    + rewrite omap_app. cbn. apply StronglySorted_app_mk; [exact JA|repeat constructor|]. intros a b Ha Hb. apply elem_of_list_singleton in Hb as ->. rewrite Forall_forall in Hbelow. apply Hbelow; exact Ha.
    + intros e He. rewrite elem_of_app, elem_of_list_singleton in He. destruct He as [He|[= ->]]; [auto|exact Hzw].
    + right. split; [exact HGz|]. rewrite omap_app. apply Forall_app. split.
      * eapply Forall_impl; [exact Hbelow|]. intros e He. apply (lt_nlt _ _ SWO); exact He.
      * repeat constructor. apply (lt_irrefl _ _ SWO).
    + intros k Hk. destruct (Hcov k Hk) as [(e & He & Hek)|Hc].
      * left. exists e. rewrite elem_of_app. auto.
      * destruct (Hz2 k Hk Hc) as [_ Hnl]. destruct (eqb (ky (s_heap s) z) k) eqn:Ezk.
        -- left. eexists. split; [apply elem_of_app; right; apply elem_of_list_singleton; reflexivity|exact Ezk].
        -- right. split; [exact Hzt|]. rewrite (eqb_sym _ _ SWO) in Ezk. apply (neqb_nlt_gt _ _ SWO _ _ Ezk Hnl).
Qed.

Notation ii_step := (i_step zeroK zeroV ltb eqb showK showV).
Definition walking (o : iop K V) : Prop :=
  match o with IMap m => m <> MClear | INext => True | _ => False end.

Lemma J_run evs : forall s locs H0 ms G it out rs fin,
  J s locs H0 ms G it out -> (None ∈ out <-> it = Some (s_tail s)) ->
  Forall (fun c => walking c.2) evs ->
  run ii_step (s, it) evs = (rs, fin) ->
  exists s' locs' G' it',
    J s' locs' H0 (ms ++ map_calls (take (length rs) evs).*2) G' it' (out ++ iter_answers rs) /\
    (None ∈ out ++ iter_answers rs <-> it' = Some (s_tail s')) /\
    ((exists st, fin = Ret st) \/ (fin = Panic /\ it' = Some (s_tail s'))).
Proof.
  induction evs as [|[c o] evs IH]; intros s locs H0 ms G it out rs fin HJ Hnone Hev Hrun.
  - cbn in Hrun. injection Hrun as <- <-. exists s, locs, G, it. cbn. rewrite !app_nil_r. eauto.
  - apply Forall_cons in Hev as [Ho Hev]. cbn [run] in Hrun.
    destruct o as [m| | |]; try contradiction; unfold i_step at 1 in Hrun; cbn [fst snd] in Hrun.
    + destruct (J_map _ _ _ _ _ _ _ c m HJ Ho) as (s' & locs' & G' & Hs & HJ' & Et).
      rewrite Hs in Hrun. cbn [rbind] in Hrun.
      destruct (run ii_step (s', it) evs) as [rs' fin'] eqn:Er. injection Hrun as <- <-.
      destruct (IH _ _ _ _ _ _ _ _ _ HJ' ltac:(rewrite Et; exact Hnone) Hev Er) as (s2 & l2 & G2 & it2 & HJ2 & Hn2 & Hf2).
      exists s2, l2, G2, it2. cbn [length take fmap list_fmap map_calls iter_answers snd].
      rewrite <- app_assoc in HJ2. cbn [app] in HJ2. auto.
    + destruct (decide (it = Some (s_tail s))) as [->|Hit].
      * rewrite (next_tail s locs (j_inv _ _ _ _ _ _ _ HJ)) in Hrun. cbn in Hrun. injection Hrun as <- <-.
        exists s, locs, G, (Some (s_tail s)). cbn. rewrite !app_nil_r. auto.
      * destruct (J_next _ _ _ _ _ _ _ HJ Hit) as (it' & a & En & HJ' & Ha).
        rewrite En in Hrun. cbn [rbind] in Hrun.
        destruct (run ii_step (s, it') evs) as [rs' fin'] eqn:Er. injection Hrun as <- <-.
        destruct (IH s locs H0 ms G it' (out ++ [a]) rs' fin' HJ') as (s2 & l2 & G2 & it2 & HJ2 & Hn2 & Hf2); auto.
        { rewrite elem_of_app, elem_of_list_singleton. split; [intros [Hx|Hx]; [tauto|apply Ha; auto]|intros Hx; right; symmetry; apply Ha; exact Hx]. }
        exists s2, l2, G2, it2. cbn [length take fmap list_fmap map_calls iter_answers snd].
        rewrite <- app_assoc in HJ2, Hn2. cbn [app] in HJ2, Hn2. auto.
Qed.

Lemma ascending_omap (l : list (option (K * V))) : StronglySorted slt (omap id l) -> ascending ltb (omap id l).*1.
Proof. apply ascending_sorted. Qed.

Theorem iter_weak seed H0 s evs rs fin :
  (run step (skl_new zeroK zeroV seed) H0).2 = Ret s ->
  Forall (fun c => walking c.2) evs ->
  run ii_step (s, it_new) evs = (rs, fin) ->
  let ms := map_calls (take (length rs) evs).*2 in
  let answers := iter_answers rs in
  ascending ltb (omap id answers).*1 /\
  (forall k v, Some (k, v) ∈ answers -> was_present H0.*2 ms k) /\
  (None ∈ answers -> forall k, always_present H0.*2 ms k -> exists k' v, Some (k', v) ∈ answers /\ eqb k' k = true) /\
  (None ∉ answers -> exists st, fin = Ret st).
Proof.
  intros Hrun Hev Hev2 ms answers.
  destruct (skl_refines_rel zeroK zeroV ltb eqb showK showV SWO seed H0) as (s1 & H & locs & I & HP).
  rewrite H in Hrun. injection Hrun as ->.
  assert (HJ0 : J s locs H0.*2 [] (fun y => y ∈ locs) it_new []).
  { constructor; auto.
    - rewrite app_nil_r. exact HP.
    - intros y Hy. eapply live_Gok; eauto. rewrite app_nil_r. exact HP.
    - constructor.
    - intros e He; inversion He.
    - reflexivity.
    - intros k _. right. exact Logic.I. }
  destruct (J_run evs s locs H0.*2 [] _ it_new [] rs fin HJ0) as (s2 & l2 & G2 & it2 & HJ2 & Hn2 & Hf2); auto.
  { split; [intros Hx; inversion Hx|discriminate]. }
  cbn [app] in HJ2, Hn2. fold ms answers in HJ2, Hn2.
  split; [apply ascending_omap, (j_asc _ _ _ _ _ _ _ HJ2)|].
  split; [intros k v Hk; apply (j_was _ _ _ _ _ _ _ HJ2 (k, v) Hk)|].
  split.
  - intros Hn k Hk. apply Hn2 in Hn. destruct (j_cover _ _ _ _ _ _ _ HJ2 k Hk) as [([k' v] & He & Hek)|Hc]; [eauto|].
    subst it2. destruct Hc as [Hc _]. congruence.
  - intros Hn. destruct Hf2 as [?|[_ Hf]]; [auto|]. tauto.
Qed.

(** *** An iterator standing on a key that is still there *)
(** Next from a live node: the smallest entry above it *)
Lemma next_live s locs m x : Inv s locs -> m ≡ₚ ent (s_heap s) <$> locs -> x ∈ locs ->
  exists it', it_next s (Some x)
  = Ret (it', head (filter (fun e => ltb (ky (s_heap s) x) e.1 = true) (sorted_entries m))).
Proof.
  intros I HP Hx. rewrite (rel_entries zeroK zeroV ltb eqb SWO s locs m I HP).
  apply elem_of_list_split in Hx as (A & B & ->).
  change (x :: B) with ([x] ++ B) in I. rewrite app_assoc in I.
  rewrite (next_spec zeroK zeroV ltb s _ (A ++ [x]) B I eq_refl (Some x)).
  2:{ left. unfold last_or. rewrite last_snoc. reflexivity. }
  assert (Hf : filter (fun e => ltb (ky (s_heap s) x) e.1 = true) (ent (s_heap s) <$> A ++ x :: B) = ent (s_heap s) <$> B).
  { pose proof (inv_sorted _ _ _ _ I) as HS. rewrite <- app_assoc in HS.
    apply StronglySorted_app_inv in HS as (_ & HS & HAB). cbn [app] in HS, HAB.
    apply StronglySorted_inv in HS as [_ HS].
    rewrite fmap_app, filter_app, fmap_cons.
    assert (F1 : filter (fun e => ltb (ky (s_heap s) x) e.1 = true) (ent (s_heap s) <$> A) = []).
    { assert (HA : Forall (fun y => ltb (ky (s_heap s) y) (ky (s_heap s) x) = true) A).
      { rewrite Forall_forall. intros y Hy. apply (HAB y x); [exact Hy|constructor]. }
      clear -SWO HA. induction HA as [|y A Hy HA IH]; [reflexivity|]. rewrite fmap_cons.
      rewrite filter_cons_False; [exact IH|]. cbn. rewrite (lt_nlt _ _ SWO _ _ Hy). discriminate. }
    rewrite F1. cbn [app]. rewrite filter_cons_False by (cbn; rewrite (lt_irrefl _ _ SWO); discriminate).
    clear -HS. induction HS as [|y B Hy HS IH]; [reflexivity|]. rewrite fmap_cons.
    rewrite filter_cons_True; [f_equal; exact IH|exact Hy]. }
  rewrite Hf. destruct B as [|y B]; eauto.
Qed.

(** Next from a live node, with the new position *)
Definition cursor_rel (st : skl * iter) (a : list (K * V) * cursor K) : Prop :=
  exists locs, Inv st.1 locs /\ a.1 ≡ₚ ent (s_heap st.1) <$> locs /\
  match a.2 with
  | Start => st.2 = None
  | On k => exists x, x ∈ locs /\ st.2 = Some x /\ ky (s_heap st.1) x = k
  | End => True
  end.
Notation cstep := (cursor_step ltb eqb showK showV).

Lemma cursor_next_rel s it m cur :
  cursor_rel (s, it) (m, cur) -> cur <> End ->
  exists it', it_next s it = Ret (it', cursor_next ltb m cur) /\
    cursor_rel (s, it') (m, match cursor_next ltb m cur with Some e => On e.1 | None => End end).
Proof.
  intros (locs & I & HP & Hc) Hend. cbn [fst snd] in *.
  assert (Hgo : forall A B (oe : option (K * V)), locs = A ++ B -> (it = Some (last_or (s_head s) A) \/ (it = None /\ A = [])) ->
    oe = head (ent (s_heap s) <$> B) ->
    exists it', it_next s it = Ret (it', oe) /\
      cursor_rel (s, it') (m, match oe with Some e => On e.1 | None => End end)).
  { intros A B oe -> Hit ->. rewrite (next_spec zeroK zeroV ltb s _ A B I eq_refl it Hit).
    destruct B as [|y B]; cbn; (eexists; split; [reflexivity|]; eexists; split; [exact I|]; split; [exact HP|]); cbn; [exact Logic.I|].
    exists y. split; [rewrite elem_of_app, elem_of_cons; tauto|]. auto. }
  destruct cur as [|k|]; [| |congruence].
  - apply (Hgo [] locs); [reflexivity|right; auto|]. cbn. rewrite (rel_entries zeroK zeroV ltb eqb SWO s locs m I HP). reflexivity.
  - destruct Hc as (x & Hx & -> & <-). cbn [cursor_next].
    rewrite (rel_entries zeroK zeroV ltb eqb SWO s locs m I HP).
    apply elem_of_list_split in Hx as (A & B & ->).
    assert (Hf : filter (fun e => ltb (ky (s_heap s) x) e.1 = true) (ent (s_heap s) <$> A ++ x :: B) = ent (s_heap s) <$> B).
    { pose proof (inv_sorted _ _ _ _ I) as HS.
      apply StronglySorted_app_inv in HS as (_ & HS & HAB).
      apply StronglySorted_inv in HS as [_ HS].
      rewrite fmap_app, filter_app, fmap_cons.
      assert (F1 : filter (fun e => ltb (ky (s_heap s) x) e.1 = true) (ent (s_heap s) <$> A) = []).
      { assert (HA : Forall (fun y => ltb (ky (s_heap s) y) (ky (s_heap s) x) = true) A).
        { rewrite Forall_forall. intros y Hy. apply (HAB y x); [exact Hy|constructor]. }
        clear -SWO HA. induction HA as [|y A Hy HA IH]; [reflexivity|]. rewrite fmap_cons.
        rewrite filter_cons_False; [exact IH|]. cbn. rewrite (lt_nlt _ _ SWO _ _ Hy). discriminate. }
      rewrite F1. cbn [app]. rewrite filter_cons_False by (cbn; rewrite (lt_irrefl _ _ SWO); discriminate).
      clear -HS. induction HS as [|y B Hy HS IH]; [reflexivity|]. rewrite fmap_cons.
      rewrite filter_cons_True; [f_equal; exact IH|exact Hy]. }
    apply (Hgo (A ++ [x]) B); [rewrite <- app_assoc; reflexivity| |rewrite Hf; reflexivity].
    left. unfold last_or. rewrite last_snoc. reflexivity.
Qed.

Lemma filter_one m k : (forall e e' m', m ≡ₚ e :: e' :: m' -> eqb e.1 e'.1 = false) ->
  forall e, e ∈ m -> eqb e.1 k = true -> head (filter (fun e => eqb e.1 k = true) m) = Some e.
Proof.
  intros HU e He Hk. apply elem_of_list_split in He as (A & B & ->).
  assert (HA : forall e', e' ∈ A -> eqb e'.1 k = false).
  { intros e' He'. apply elem_of_list_split in He' as (C & D & ->).
    destruct (eqb e'.1 k) eqn:E'; [|reflexivity].
    assert (Hc : eqb e'.1 e.1 = false).
    { apply (HU e' e (C ++ D ++ B)). rewrite <- app_assoc. cbn [app].
      rewrite <- Permutation_middle. constructor. rewrite app_assoc, <- Permutation_middle, <- app_assoc. reflexivity. }
    rewrite (eqb_sym _ _ SWO) in Hk. rewrite (eqb_trans _ _ _ E' Hk) in Hc. discriminate. }
  rewrite filter_app, filter_cons_True by exact Hk.
  assert (F : filter (fun e => eqb e.1 k = true) A = []).
  { clear -HA. induction A as [|a A IH]; [reflexivity|]. rewrite filter_cons_False.
    - apply IH. intros e' He'. apply HA. apply elem_of_list_further; exact He'.
    - rewrite HA by constructor. discriminate. }
  rewrite F. reflexivity.
Qed.

Lemma cursor_seek_rel s it m cur k :
  cursor_rel (s, it) (m, cur) ->
  let a := head (filter (fun e => eqb e.1 k = true) m) in
  exists it', it_seek ltb eqb s k = Ret (it', a) /\
    cursor_rel (s, it') (m, match a with Some e => On e.1 | None => Start end).
Proof.
  intros (locs & I & HP & _) a. cbn [fst snd] in *.
  pose proof (rel_uniq s m ltac:(exists locs; split; assumption)) as HU.
  destruct (split_at_key zeroK ltb eqb SWO (s_heap s) k locs) as (L & R & -> & HL & HR').
  { apply (inv_sorted _ _ _ _ I). }
  unfold it_seek. destruct (search_spec zeroK zeroV ltb eqb s k L R I HL HR') as (ctx & E & _).
  rewrite E. cbn [rbind]. destruct (classify zeroK ltb eqb SWO s k L R I HL HR') as [CL CR].
  destruct (found s k R) as [x|].
  - destruct CR as (R' & -> & Hx & CR).
    destruct (deref_node zeroK zeroV (s_heap s) x) as (nd & En & Ek & Ev & _).
    { eapply inv_elem_bound; [exact I|]. rewrite !elem_of_cons, elem_of_app, elem_of_cons. tauto. }
    rewrite En. cbn [deref rbind]. rewrite <- Ek, <- Ev.
    assert (Ea : a = Some (ent (s_heap s) x)).
    { apply filter_one; [exact HU| |exact Hx]. rewrite HP, fmap_app, fmap_cons. apply elem_of_app; right; constructor. }
    rewrite Ea. eexists. split; [reflexivity|]. eexists. split; [exact I|]. split; [exact HP|]. cbn.
    exists x. split; [rewrite elem_of_app, elem_of_cons; tauto|]. auto.
  - assert (Ea : a = None).
    { subst a. destruct (filter _ m) as [|e l] eqn:Ef; [reflexivity|].
      assert (He : e ∈ filter (fun e => eqb e.1 k = true) m) by (rewrite Ef; constructor).
      apply elem_of_list_filter in He as [Hek He]. rewrite HP in He.
      apply elem_of_list_fmap in He as (y & -> & Hy). cbn in Hek. rewrite elem_of_app in Hy.
      rewrite Forall_forall in CL, CR. destruct Hy as [Hy|Hy]; [rewrite CL in Hek by exact Hy|rewrite CR in Hek by exact Hy]; discriminate. }
    rewrite Ea. eexists. split; [reflexivity|]. eexists. split; [exact I|]. split; [exact HP|]. reflexivity.
Qed.

Lemma cursor_map_rel s it m cur c o :
  cursor_rel (s, it) (m, cur) -> cursor_safe eqb (m, cur) (IMap o) ->
  exists s', step s (c, o) = Ret (s', (istep m o).2) /\ cursor_rel (s', it) ((istep m o).1, cur).
Proof.
  intros (locs & I & HP & Hc) Hsafe. cbn [fst snd] in *.
  destruct (rel_step zeroK zeroV ltb eqb showK showV SWO s m c o ltac:(exists locs; split; [exact I|exact HP])) as (s' & Hs & HR').
  exists s'. split; [exact Hs|]. destruct HR' as (locs2 & I2 & HP2).
  destruct cur as [|k|].
  - exists locs2. auto.
  - destruct Hc as (x & Hx & -> & <-).
    assert (Ho : o <> MClear) by (intros ->; exact Hsafe).
    destruct (step_evolves s locs c o s' _ I Ho Hs) as (locs' & I' & Eh & Et & (F1 & F2 & F3) & Hgone).
    exists locs'. split; [exact I'|]. split.
    + cbn [fst]. pose proof (entries_spec zeroK zeroV ltb s' locs2 I2) as E1.
      pose proof (entries_spec zeroK zeroV ltb s' locs' I') as E2. rewrite E1 in E2. injection E2 as E2.
      rewrite HP2, E2. reflexivity.
    + cbn [snd]. exists x. split; [|split; [reflexivity|]].
      * destruct (decide (x ∈ locs')) as [?|Hn]; [assumption|].
        destruct (Hgone x Hx Hn) as (k & -> & Hk). cbn in Hsafe. congruence.
      * apply F2. eapply inv_elem_bound; [exact I|]. do 2 apply elem_of_list_further. exact Hx.
  - exists locs2. auto.
Qed.

Theorem iter_cursor seed hist :
  (forall pre o post, hist.*2 = pre ++ o :: post -> cursor_safe eqb (ideal_state cstep ([], Start) pre) o) ->
  exists st, run ii_step (skl_new zeroK zeroV seed, it_new) hist = (ideal_results cstep ([], Start) hist.*2, Ret st).
Proof.
  intros HG. destruct (run_refines_oracle ii_step cstep cursor_rel (cursor_safe eqb)) with (hist := hist)
    (s := (skl_new zeroK zeroV seed, it_new)) (a := (@nil (K * V), @Start K)) as (st & H & _).
  - intros [s it] [m cur] c o HR HGo. destruct o as [o| |k|]; cbn [i_step fst snd].
    + destruct (cursor_map_rel s it m cur c o HR HGo) as (s' & E & HR').
      rewrite E. cbn [rbind]. exists (s', it). cbn [cursor_step].
      destruct (istep m o) as [m' r]. auto.
    + assert (Hne : cur <> End) by (intros ->; exact HGo).
      destruct (cursor_next_rel s it m cur HR Hne) as (it' & E & HR'). rewrite E. cbn [rbind]. exists (s, it'). split; [reflexivity|exact HR'].
    + destruct (cursor_seek_rel s it m cur k HR) as (it' & E & HR'). rewrite E. cbn [rbind]. exists (s, it'). split; [reflexivity|exact HR'].
    + eexists. split; [reflexivity|]. destruct HR as (locs & I & HP & _). exists locs. cbn. auto.
  - destruct (rel_new zeroK zeroV ltb seed) as (locs & I & HP). exists locs. split; [exact I|]. split; [exact HP|reflexivity].
  - exact HG.
  - eauto.
Qed.

Lemma iter_end_last seed H0 s evs rs fin :
  (run step (skl_new zeroK zeroV seed) H0).2 = Ret s ->
  Forall (fun c => walking c.2) evs ->
  run ii_step (s, it_new) evs = (rs, fin) ->
  forall p q, iter_answers rs = p ++ None :: q -> q = [].
Proof.
  intros Hrun Hev Hev2.
  destruct (skl_refines_rel zeroK zeroV ltb eqb showK showV SWO seed H0) as (s1 & H & locs & I & HP).
  rewrite H in Hrun. injection Hrun as ->.
  assert (HJ0 : J s locs H0.*2 [] (fun y => y ∈ locs) it_new []).
  { constructor; auto.
    - rewrite app_nil_r. exact HP.
    - intros y Hy. eapply live_Gok; eauto. rewrite app_nil_r. exact HP.
    - constructor.
    - intros e He; inversion He.
    - reflexivity.
    - intros k _. right. exact Logic.I. }
  clear H HP. revert rs Hev2. generalize (H0.*2) as hs, HJ0. clear HJ0 I.
  revert s locs.
  assert (Hgen : forall evs, Forall (fun c => walking c.2) evs -> forall s locs hs ms G it out rs,
     J s locs hs ms G it out -> run ii_step (s, it) evs = (rs, fin) ->
     (it = Some (s_tail s) -> iter_answers rs = []) /\ forall p q, iter_answers rs = p ++ None :: q -> q = []).
  { clear Hev evs. induction evs as [|[c o] evs IH]; intros Hev s locs hs ms G it out rs HJ Hr.
    - cbn in Hr. injection Hr as <- _. cbn. split; [auto|]. intros p q E. destruct p; discriminate.
    - apply Forall_cons in Hev as [Ho Hev]. cbn [run] in Hr.
      destruct o as [m| | |]; try contradiction; unfold i_step at 1 in Hr; cbn [fst snd] in Hr.
      + destruct (J_map _ _ _ _ _ _ _ c m HJ Ho) as (s' & locs' & G' & Hs & HJ' & Et).
        rewrite Hs in Hr. cbn [rbind] in Hr.
        destruct (run ii_step (s', it) evs) as [rs' fin'] eqn:Er. injection Hr as <- ->. cbn [iter_answers].
        rewrite <- Et. eapply IH; eauto.
      + destruct (decide (it = Some (s_tail s))) as [->|Hit].
        * rewrite (next_tail s locs (j_inv _ _ _ _ _ _ _ HJ)) in Hr. cbn in Hr. injection Hr as <- _.
          cbn. split; [auto|]. intros p q E. destruct p; discriminate.
        * destruct (J_next _ _ _ _ _ _ _ HJ Hit) as (it' & a & En & HJ' & Ha).
          rewrite En in Hr. cbn [rbind] in Hr.
          destruct (run ii_step (s, it') evs) as [rs' fin'] eqn:Er. injection Hr as <- ->. cbn [iter_answers].
          destruct (IH Hev _ _ _ _ _ _ _ _ HJ' Er) as [H1 H2]. split; [congruence|].
          intros p q E. destruct p as [|x p]; injection E as -> E.
          -- rewrite H1 in E by (apply Ha; reflexivity). auto.
          -- apply (H2 p q E). }
  intros s locs hs HJ rs Hr. apply (Hgen evs Hev _ _ _ _ _ _ _ _ HJ Hr).
Qed.

Lemma enumeration_spec seed hist s' :
  (run step (skl_new zeroK zeroV seed) hist).2 = Ret s' ->
  exists es, sk_keys s' = Ret es.*1 /\ sk_values s' = Ret es.*2 /\ sk_len s' = Z.of_nat (length es) /\
    sk_to_map eqb s' = Ret es /\
    sk_to_string showK showV s' = Ret ([115; 107; 108; 109; 97; 112; 120; 91]%Z ++ join_space (show_entry showK showV <$> es) ++ [93%Z]) /\
    ascending ltb es.*1 /\
    (forall k, present eqb hist.*2 k <-> exists k', k' ∈ es.*1 /\ eqb k' k = true) /\
    (forall k v, (k, v) ∈ es -> last_write eqb k (rev hist.*2) = Some v).
Proof.
  intros Hrun. destruct (keys_spec seed hist s' Hrun) as (es & H1 & H2 & H3 & H4 & H5 & H6).
  exists es. split; [exact H1|]. split; [exact H2|]. split; [exact H3|].
  destruct (skl_refines_rel zeroK zeroV ltb eqb showK showV SWO seed hist) as (s1 & H & HR).
  rewrite H in Hrun. injection Hrun as ->.
  pose proof HR as (locs & I & HP).
  assert (Ees : es = sorted_entries (ideal_state istep [] hist.*2)).
  { rewrite (rel_entries zeroK zeroV ltb eqb SWO s' locs _ I HP).
    unfold sk_keys, sk_values in *. rewrite (entries_spec zeroK zeroV ltb _ _ I) in H1, H2. cbn [rbind] in *.
    injection H1 as H1. injection H2 as H2. revert H1 H2. clear. generalize (ent (s_heap s') <$> locs) as l.
    intros l; revert es; induction l as [|[a b] l IH]; intros [|[c d] es]; cbn; intros; simplify_eq; [reflexivity|].
    f_equal. apply IH; auto. }
  split; [|split; [|auto]].
  - destruct (rel_step zeroK zeroV ltb eqb showK showV SWO s' _ 0%Z MToMap HR) as (s2 & Hs & _).
    unfold m_step in Hs. cbn in Hs. destruct (sk_to_map eqb s') as [l| |]; cbn in Hs; try discriminate.
    injection Hs as _ ->. rewrite Ees. reflexivity.
  - destruct (rel_step zeroK zeroV ltb eqb showK showV SWO s' _ 0%Z MString HR) as (s2 & Hs & _).
    unfold m_step in Hs. cbn in Hs. destruct (sk_to_string showK showV s') as [l| |]; cbn in Hs; try discriminate.
    injection Hs as _ ->. rewrite Ees. reflexivity.
Qed.
End I.
