(** Refinement of the skip list to the ideal ordered map. *)
From Verif Require Import Base SplitMixModel SklSpec SklModel SklProofs.
From Coq Require Import Sorting.Sorted.

Section R.
Context {K V : Type} (zeroK : K) (zeroV : V) (ltb eqb : K -> K -> bool).
Context (showK : K -> list Z) (showV : V -> list Z).
Context (SWO : strict_weak_order ltb eqb).
Notation skl := (skl K V).
Implicit Types (s : skl) (m : list (K * V)) (locs : list nat) (e : K * V).
Notation ent := (ent zeroK zeroV).
Notation ky := (ky zeroK).
Notation Inv := (Inv zeroK ltb).
Notation found := (found zeroK eqb).
Notation sorted_entries := (sorted_entries ltb).
Notation place := (place ltb).

Lemma eqb_sym x y : eqb x y = eqb y x.
Proof. rewrite !(eq_spec _ _ SWO). apply andb_comm. Qed.
Lemma eqb_refl x : eqb x x = true.
Proof. rewrite (eq_spec _ _ SWO), (lt_irrefl _ _ SWO). reflexivity. Qed.

(** *** the ideal's sorting *)
Definition wle e1 e2 : Prop := ltb e2.1 e1.1 = false.
Definition slt e1 e2 : Prop := ltb e1.1 e2.1 = true.

Lemma place_perm e l : place e l ≡ₚ e :: l.
Proof.
  induction l as [|e' l IH]; [reflexivity|]. cbn. destruct (ltb _ _); [reflexivity|].
  rewrite IH. apply Permutation_swap.
Qed.
Lemma sorted_entries_perm m : sorted_entries m ≡ₚ m.
Proof. induction m as [|e m IH]; [reflexivity|]. cbn. rewrite place_perm, IH. reflexivity. Qed.
Lemma place_sorted e l : StronglySorted wle l -> StronglySorted wle (place e l).
Proof.
  induction l as [|e' l IH]; intros H; cbn; [repeat constructor|].
  apply StronglySorted_inv in H as [H HF].
  destruct (ltb e.1 e'.1) eqn:E.
  - constructor; [constructor; assumption|]. constructor.
    + unfold wle. apply (lt_nlt _ _ SWO). exact E.
    + eapply Forall_impl; [exact HF|]. intros x Hx. unfold wle in *.
      eapply (nlt_trans _ _ SWO); [exact Hx|]. apply (lt_nlt _ _ SWO). exact E.
  - constructor; [auto|]. rewrite place_perm. constructor; [exact E|exact HF].
Qed.
Lemma sorted_entries_sorted m : StronglySorted wle (sorted_entries m).
Proof. induction m; cbn; [constructor|]. apply place_sorted; assumption. Qed.

Lemma sorted_unique l1 l2 : l1 ≡ₚ l2 -> StronglySorted wle l1 -> StronglySorted slt l2 -> l1 = l2.
Proof.
  revert l2; induction l1 as [|a l1 IH]; intros l2 HP H1 H2.
  - symmetry. apply Permutation_nil. exact HP.
  - destruct l2 as [|b l2]; [symmetry in HP; apply Permutation_nil in HP; discriminate|].
    apply StronglySorted_inv in H1 as [H1 F1]. apply StronglySorted_inv in H2 as [H2 F2].
    assert (a = b) as ->.
    { assert (Ha : a ∈ b :: l2) by (rewrite <- HP; constructor).
      assert (Hb : b ∈ a :: l1) by (rewrite HP; constructor).
      rewrite elem_of_cons in Ha, Hb. destruct Ha as [Ha|Ha]; [exact Ha|].
      destruct Hb as [Hb|Hb]; [auto|].
      rewrite Forall_forall in F1, F2. specialize (F1 _ Hb). specialize (F2 _ Ha).
      unfold wle, slt in *. congruence. }
    f_equal. apply IH; auto. apply Permutation_cons_inv with (a := b). exact HP.
Qed.

(** *** classification of the live nodes by a key *)
Lemma classify s key L R :
  Inv s (L ++ R) ->
  Forall (fun y => ltb (ky (s_heap s) y) key = true) L ->
  Forall (fun y => ltb (ky (s_heap s) y) key = false) R ->
  Forall (fun y => eqb (ky (s_heap s) y) key = false) L /\
  match found s key R with
  | None => Forall (fun y => eqb (ky (s_heap s) y) key = false) R
  | Some x => exists R', R = x :: R' /\ eqb (ky (s_heap s) x) key = true /\
                         Forall (fun y => eqb (ky (s_heap s) y) key = false) R'
  end.
Proof.
  intros I HL HR. split.
  - eapply Forall_impl; [exact HL|]. cbn; intros y Hy. apply (lt_eqb _ _ SWO). exact Hy.
  - destruct R as [|y R]; cbn; [constructor|].
    pose proof (inv_sorted _ _ _ _ I) as HS. apply StronglySorted_app_inv in HS as (_ & HS & _).
    apply StronglySorted_inv in HS as [_ HS].
    destruct (eqb (ky (s_heap s) y) key) eqn:E.
    + exists R. split; [reflexivity|]. split; [exact E|]. eapply Forall_impl; [exact HS|].
      cbn; intros z Hz. apply (gt_eqb _ _ SWO). eapply (lt_eq_lt _ _ SWO); eassumption.
    + constructor; [exact E|]. apply Forall_cons in HR as [HR _].
      pose proof (neqb_nlt_gt _ _ SWO _ _ E HR) as Hg.
      eapply Forall_impl; [exact HS|]. cbn; intros z Hz. apply (gt_eqb _ _ SWO).
      eapply (lt_trans _ _ SWO); eassumption.
Qed.

Definition Rel s m : Prop := exists locs, Inv s locs /\ m ≡ₚ ent (s_heap s) <$> locs.

Lemma rel_sorted s locs : Inv s locs -> StronglySorted slt (ent (s_heap s) <$> locs).
Proof.
  intros I. pose proof (inv_sorted _ _ _ _ I) as HS.
  induction HS as [|x l HS IH HF]; cbn; [constructor|]. constructor.
  - (* Inv is only used for HS *) clear -HS. induction HS as [|x l HS IH HF]; cbn; [constructor|].
    constructor; [exact IH|]. rewrite Forall_fmap. exact HF.
  - rewrite Forall_fmap. exact HF.
Qed.
Lemma rel_entries s locs m : Inv s locs -> m ≡ₚ ent (s_heap s) <$> locs ->
  sorted_entries m = ent (s_heap s) <$> locs.
Proof.
  intros I HP. apply sorted_unique.
  - rewrite sorted_entries_perm. exact HP.
  - apply sorted_entries_sorted.
  - apply rel_sorted; exact I.
Qed.

(** *** ideal operations on the permuted entries *)
Lemma filter_none key (P : bool) l :
  Forall (fun e => eqb e.1 key = negb P) l -> filter (fun e => eqb e.1 key = P) l = [].
Proof.
  induction 1 as [|e l H Hl IH]; [reflexivity|]. rewrite filter_cons_False; [exact IH|].
  rewrite H. destruct P; discriminate.
Qed.
Lemma filter_all key (P : bool) l :
  Forall (fun e => eqb e.1 key = P) l -> filter (fun e => eqb e.1 key = P) l = l.
Proof. induction 1 as [|e l H Hl IH]; [reflexivity|]. rewrite filter_cons_True by exact H. f_equal; exact IH. Qed.
Lemma map_has_perm m m' key : m ≡ₚ m' -> map_has eqb m key = map_has eqb m' key.
Proof.
  intros HP. unfold map_has. apply eq_true_iff_eq. rewrite !existsb_exists.
  split; intros (e & He & H); exists e; (split; [|exact H]); apply elem_of_list_In; apply elem_of_list_In in He;
  [rewrite <- HP|rewrite HP]; exact He.
Qed.
Lemma map_has_none l key : Forall (fun e => eqb e.1 key = false) l -> map_has eqb l key = false.
Proof. induction 1 as [|e l H Hl IH]; [reflexivity|]. cbn. rewrite H. exact IH. Qed.
Lemma map_has_mid A e B key : eqb e.1 key = true -> map_has eqb (A ++ e :: B) key = true.
Proof.
  intros H. apply existsb_exists. exists e. split; [|exact H]. apply elem_of_list_In, elem_of_app; right; constructor.
Qed.
Lemma map_get_perm_none m l key :
  m ≡ₚ l -> Forall (fun e => eqb e.1 key = false) l -> map_get eqb m key = None.
Proof.
  intros HP HF. unfold map_get.
  assert (E : filter (fun e => eqb e.1 key = true) m ≡ₚ []).
  { rewrite HP. rewrite (filter_none _ true); [reflexivity|exact HF]. }
  symmetry in E. apply Permutation_nil in E. rewrite E. reflexivity.
Qed.
Lemma map_get_perm_some m A e B key :
  m ≡ₚ A ++ e :: B -> Forall (fun e => eqb e.1 key = false) A -> eqb e.1 key = true ->
  Forall (fun e => eqb e.1 key = false) B -> map_get eqb m key = Some e.2.
Proof.
  intros HP HA He HB. unfold map_get.
  assert (E : filter (fun e => eqb e.1 key = true) m ≡ₚ [e]).
  { rewrite HP, filter_app. rewrite (filter_none _ true A) by exact HA.
    rewrite filter_cons_True by exact He. rewrite (filter_none _ true B) by exact HB. reflexivity. }
  apply Permutation_singleton_r in E. rewrite E. reflexivity.
Qed.
Lemma map_del_perm m A e B key :
  m ≡ₚ A ++ e :: B -> Forall (fun e => eqb e.1 key = false) A -> eqb e.1 key = true ->
  Forall (fun e => eqb e.1 key = false) B -> map_del eqb m key ≡ₚ A ++ B.
Proof.
  intros HP HA He HB. unfold map_del. rewrite HP, filter_app.
  rewrite (filter_all _ false A) by exact HA. rewrite filter_cons_False by congruence.
  rewrite (filter_all _ false B) by exact HB. reflexivity.
Qed.
Lemma map_del_none m l key :
  m ≡ₚ l -> Forall (fun e => eqb e.1 key = false) l -> map_del eqb m key = m.
Proof. intros HP HF. apply filter_all. rewrite HP. exact HF. Qed.
Lemma fmap_upd_id l key (v : V) :
  Forall (fun e => eqb e.1 key = false) l -> (fun e => if eqb e.1 key then (e.1, v) else e) <$> l = l.
Proof. induction 1 as [|e l H Hl IH]; [reflexivity|]. cbn. rewrite H. f_equal; exact IH. Qed.

Lemma ent_fmap_ext (h h' : list (sknode K V)) (l : list nat) : (forall y, y ∈ l -> ent h' y = ent h y) ->
  ent h' <$> l = ent h <$> l.
Proof. intros H. apply list_fmap_ext. intros i x Hi. apply H. eapply elem_of_list_lookup_2; eauto. Qed.

(** *** String and ToMap *)
Lemma render_join es first :
  sk_render showK showV first es
  = match es with [] => [] | _ => (if first then [] else [32%Z]) ++ join_space (show_entry showK showV <$> es) end.
Proof.
  revert first; induction es as [|[k v] es IH]; intros first; [reflexivity|].
  cbn [sk_render]. rewrite (IH false). destruct es as [|e es].
  - cbn. unfold show_entry; cbn. rewrite app_nil_r. reflexivity.
  - rewrite !fmap_cons. cbn [join_space]. f_equal. change (show_entry showK showV (k, v)) with (showK k ++ 58%Z :: showV v).
    rewrite <- app_assoc. reflexivity.
Qed.
Lemma gomap_set_new m k v : Forall (fun e => eqb e.1 k = false) m -> gomap_set eqb m k v = m ++ [(k, v)].
Proof. induction 1 as [|[k' v'] m H Hm IH]; [reflexivity|]. cbn in *. rewrite H, IH. reflexivity. Qed.
Lemma to_map_fold es acc :
  StronglySorted slt (acc ++ es) ->
  fold_left (fun m e => gomap_set eqb m e.1 e.2) es acc = acc ++ es.
Proof.
  revert acc; induction es as [|[k v] es IH]; intros acc H; cbn [fold_left]; [rewrite app_nil_r; reflexivity|].
  cbn [fst snd]. rewrite gomap_set_new.
  - rewrite IH; rewrite <- app_assoc; [reflexivity|exact H].
  - apply StronglySorted_app_inv in H as (_ & _ & H). rewrite Forall_forall. intros e He.
    apply (lt_eqb _ _ SWO). apply (H e (k, v)); [exact He|constructor].
Qed.

(** *** One call *)
Notation step := (m_step zeroK zeroV ltb eqb showK showV).
Notation istep := (map_step ltb eqb showK showV).

Lemma rel_step s m c o : Rel s m ->
  exists s', step s (c, o) = Ret (s', (istep m o).2) /\ Rel s' (istep m o).1.
Proof.
  intros (locs & I & HP). unfold m_step; cbn [fst snd].
  assert (Hsp : forall key, exists L R, locs = L ++ R /\ Forall (fun y => ltb (ky (s_heap s) y) key = true) L /\
              Forall (fun y => ltb (ky (s_heap s) y) key = false) R).
  { intros key. apply (split_at_key _ ltb eqb SWO). apply (inv_sorted _ _ _ _ I). }
  assert (Hmap : forall (P : K * V -> Prop) l, Forall (fun y => P (ent (s_heap s) y)) l -> Forall P (ent (s_heap s) <$> l)).
  { intros P l. rewrite Forall_fmap. auto. }
  destruct o as [key v|key|key| | | | | |]; cbn [map_step fst snd].
  - (* Set *)
    destruct (Hsp key) as (L & R & -> & HL & HR).
    destruct (insert_inv zeroK zeroV ltb eqb SWO s key v L R I HL HR) as (s' & E & _ & _ & _ & Hs').
    rewrite E. cbn [rbind]. exists s'. split; [reflexivity|].
    destruct (classify s key L R I HL HR) as [CL CR]. unfold map_set.
    destruct (found s key R) as [x|].
    + destruct CR as (R' & -> & Hx & CR). destruct Hs' as (I' & Hent & Hx').
      assert (Hhas : map_has eqb m key = true).
      { rewrite (map_has_perm _ _ _ HP), fmap_app, fmap_cons. apply map_has_mid. exact Hx. }
      rewrite Hhas. exists (L ++ x :: R'). split; [exact I'|].
      rewrite HP. rewrite !fmap_app, !fmap_cons, Hx'. 
      rewrite !fmap_upd_id by (apply Hmap; assumption).
      cbn [ent SklProofs.ent fst]. cbn. rewrite Hx.
      assert (HN : NoDup (L ++ x :: R')).
      { pose proof (inv_nodup _ _ _ _ I) as HN. apply NoDup_cons in HN as [_ HN]. apply NoDup_cons in HN. tauto. }
      rewrite <- Permutation_middle in HN. apply NoDup_cons in HN as [HN _]. rewrite elem_of_app in HN.
      rewrite (ent_fmap_ext (s_heap s) (s_heap s') L) by (intros y Hy; apply Hent; intros ->; tauto).
      rewrite (ent_fmap_ext (s_heap s) (s_heap s') R') by (intros y Hy; apply Hent; intros ->; tauto).
      reflexivity.
    + destruct Hs' as (I' & Hent & Hn).
      assert (Hhas : map_has eqb m key = false).
      { rewrite (map_has_perm _ _ _ HP). apply map_has_none. apply Hmap. apply Forall_app; split; assumption. }
      rewrite Hhas. exists (L ++ length (s_heap s) :: R). split; [exact I'|].
      rewrite HP, !fmap_app, fmap_cons, Hn.
      assert (Hnin : forall y, y ∈ L ++ R -> y <> length (s_heap s)).
      { intros y Hy ->. pose proof (inv_alloc _ _ _ _ I) as HF. rewrite Forall_forall in HF.
        specialize (HF (length (s_heap s))). rewrite !elem_of_cons in HF. specialize (HF (or_intror (or_intror Hy))). lia. }
      rewrite (ent_fmap_ext (s_heap s) (s_heap s') L) by (intros y Hy; apply Hent, Hnin, elem_of_app; auto).
      rewrite (ent_fmap_ext (s_heap s) (s_heap s') R) by (intros y Hy; apply Hent, Hnin, elem_of_app; auto).
      rewrite <- app_assoc. apply Permutation_app_head. symmetry. apply Permutation_cons_append.
  - (* Del *)
    destruct (Hsp key) as (L & R & -> & HL & HR).
    pose proof (delete_inv zeroK zeroV ltb eqb s key L R I HL HR) as Hd.
    destruct (classify s key L R I HL HR) as [CL CR].
    destruct (found s key R) as [x|].
    + destruct CR as (R' & -> & Hx & CR). destruct Hd as (R2 & s' & [= <-] & E & _ & _ & _ & _ & I' & Hent).
      rewrite E. cbn [rbind]. exists s'.
      assert (Hhas : map_has eqb m key = true).
      { rewrite (map_has_perm _ _ _ HP), fmap_app, fmap_cons. apply map_has_mid. exact Hx. }
      rewrite Hhas. split; [reflexivity|]. exists (L ++ R'). split; [exact I'|].
      rewrite fmap_app, fmap_cons in HP.
      rewrite (map_del_perm _ _ _ _ _ HP); [|apply Hmap; exact CL|exact Hx|apply Hmap; exact CR].
      rewrite (ent_fmap_ext (s_heap s) (s_heap s')) by (intros; apply Hent). rewrite fmap_app. reflexivity.
    + rewrite Hd. cbn [rbind]. exists s.
      assert (HF : Forall (fun e => eqb e.1 key = false) (ent (s_heap s) <$> L ++ R)).
      { apply Hmap. apply Forall_app; split; assumption. }
      rewrite (map_has_perm _ _ _ HP), (map_has_none _ _ HF). split; [reflexivity|].
      rewrite (map_del_none _ _ _ HP HF). exists (L ++ R). auto.
  - (* Get *)
    destruct (Hsp key) as (L & R & -> & HL & HR). unfold sk_get.
    destruct (search_spec zeroK zeroV ltb eqb s key L R I HL HR) as (ctx & E & _). rewrite E. cbn [rbind].
    destruct (classify s key L R I HL HR) as [CL CR].
    exists s. split; [|exists (L ++ R); auto].
    destruct (found s key R) as [x|].
    + destruct CR as (R' & -> & Hx & CR).
      destruct (deref_node zeroK zeroV (s_heap s) x) as (nd & En & Ek & Ev & _).
      { eapply inv_elem_bound; [exact I|]. rewrite !elem_of_cons, elem_of_app, elem_of_cons. tauto. }
      rewrite En. cbn [deref rbind]. rewrite fmap_app, fmap_cons in HP.
      rewrite (map_get_perm_some _ _ _ _ _ HP); [|apply Hmap; exact CL|exact Hx|apply Hmap; exact CR].
      cbn. rewrite Ev. reflexivity.
    + cbn [rbind]. rewrite (map_get_perm_none _ _ _ HP); [reflexivity|]. apply Hmap. apply Forall_app; split; assumption.
  - (* Len *)
    exists s. split; [|exists locs; auto]. unfold sk_len. rewrite (inv_len _ _ _ _ I).
    apply Permutation_length in HP. rewrite fmap_length in HP. rewrite HP. reflexivity.
  - (* Clear *)
    eexists; split; [reflexivity|]. exists []. split; [|reflexivity].
    apply new_inv. apply (inv_16 _ _ _ _ I).
  - (* Keys *)
    exists s. split; [|exists locs; auto]. unfold sk_keys. rewrite (entries_spec zeroK zeroV ltb _ _ I). cbn [rbind].
    rewrite (rel_entries s locs m I HP). reflexivity.
  - (* Values *)
    exists s. split; [|exists locs; auto]. unfold sk_values. rewrite (entries_spec zeroK zeroV ltb _ _ I). cbn [rbind].
    rewrite (rel_entries s locs m I HP). reflexivity.
  - (* String *)
    exists s. split; [|exists locs; auto]. unfold sk_to_string. rewrite (entries_spec zeroK zeroV ltb _ _ I). cbn [rbind].
    unfold show_map. rewrite (rel_entries s locs m I HP). rewrite render_join.
    destruct (ent (s_heap s) <$> locs); reflexivity.
  - (* ToMap *)
    exists s. split; [|exists locs; auto]. unfold sk_to_map. rewrite (entries_spec zeroK zeroV ltb _ _ I). cbn [rbind].
    rewrite (rel_entries s locs m I HP). rewrite to_map_fold; [reflexivity|]. apply (rel_sorted s locs I).
Qed.

Lemma rel_new seed : Rel (skl_new zeroK zeroV seed) [].
Proof. exists []. split; [apply new_inv; constructor|reflexivity]. Qed.

Lemma skl_refines_rel seed hist :
  exists s', run step (skl_new zeroK zeroV seed) hist = (ideal_results istep [] hist.*2, Ret s')
             /\ Rel s' (ideal_state istep [] hist.*2).
Proof.
  apply (run_refines_oracle step istep Rel (fun _ _ => True)).
  - intros s a c o HR _. apply rel_step; exact HR.
  - apply rel_new.
  - auto.
Qed.
Lemma skl_refines seed hist :
  exists s', run step (skl_new zeroK zeroV seed) hist = (ideal_results istep [] hist.*2, Ret s').
Proof. destruct (skl_refines_rel seed hist) as (s' & H & _). eauto. Qed.
End R.
