(** Range with a callback that uses the map. *)
From Verif Require Import Base SplitMixModel SklSpec SklModel SklProofs SklRefine SklIterProofs OrdMapSpec OrdMapModel OrdMapProofs OrdRangeModel.
From Coq Require Import Sorting.Sorted.

Section P.
Context {K V A : Type} (zeroK : K) (zeroV : V) (ltb eqb : K -> K -> bool).
Context (SWO : strict_weak_order ltb eqb).
Notation keysof := (fmap (fun e : K * V => (e.1, tt))).
Notation Inv := (Inv zeroK ltb).
Notation ent := (ent zeroK tt).
Notation ky := (ky zeroK).
Notation step := (o_step zeroK zeroV ltb eqb).
Notation istep := (ord_step ltb eqb).
Notation RelL := (RelL zeroK ltb eqb).
Notation Rel := (Rel zeroK ltb eqb).
Implicit Types (m : list (K * V)) (om : ordmap K V).

(** the iterator stands on node [x] of key [k]; [del]: [k] has just been deleted *)
Definition At om m (x : nat) (k : K) (del : bool) : Prop :=
  exists locs, RelL om m locs /\ x < length (s_heap (o_skl om)) /\ ky (s_heap (o_skl om)) x = k /\
  if del then exists L R, locs = L ++ R /\ before (o_skl om) (Some x) R /\
                Forall (fun y => ltb (ky (s_heap (o_skl om)) y) k = true) L /\
                Forall (fun y => ltb k (ky (s_heap (o_skl om)) y) = true) R
  else x ∈ locs.

Lemma same_locs s (locs locs' : list nat) : Inv s locs -> Inv s locs' -> ent (s_heap s) <$> locs = ent (s_heap s) <$> locs'.
Proof.
  intros I I'. pose proof (entries_spec zeroK tt ltb s locs I) as E1.
  pose proof (entries_spec zeroK tt ltb s locs' I') as E2. rewrite E1 in E2. injection E2 as E2. exact E2.
Qed.

(** what a call does to the key index *)
Lemma o_step_skl om c o om' r : step om (c, o) = Ret (om', r) -> o <> OClear ->
  o_skl om' = o_skl om \/
  exists mo r', m_step zeroK tt ltb eqb (fun _ => []) (fun _ => []) (o_skl om) (c, mo) = Ret (o_skl om', r') /\
    mo <> MClear /\ forall k', mo = MDel k' -> o = ODel k'.
Proof.
  intros H Ho. destruct o; unfold o_step in H; cbn [fst snd] in H.
  - unfold ord_set in H. destruct (gm_get eqb (o_m om) k); cbn [rbind] in H.
    + injection H as <- <-. left. reflexivity.
    + destruct (sk_insert ltb eqb (o_skl om) k tt) as [s1| |] eqn:E; cbn in H; try discriminate.
      injection H as <- <-. right. exists (MSet k tt), MUnit. split.
      * unfold m_step. cbn [fst snd]. rewrite E. reflexivity.
      * split; [discriminate|]. intros k' Hk. discriminate.
  - unfold ord_del in H. destruct (gm_get eqb (o_m om) k); cbn [rbind] in H.
    + destruct (sk_delete ltb eqb (o_skl om) k) as [[s1 b]| |] eqn:E; cbn in H; try discriminate.
      injection H as <- <-. right. exists (MDel k), (MBool b). split.
      * unfold m_step. cbn [fst snd]. rewrite E. reflexivity.
      * split; [discriminate|]. intros k' Hk. injection Hk as ->. reflexivity.
    + injection H as <- <-. left. reflexivity.
  - injection H as <- <-. left. reflexivity.
  - injection H as <- <-. left. reflexivity.
  - congruence.
  - destruct (sk_keys (o_skl om)); cbn in H; try discriminate. injection H as <- <-. left. reflexivity.
  - destruct (ord_values zeroV eqb om); cbn in H; try discriminate. injection H as <- <-. left. reflexivity.
Qed.

Lemma reads_same om c o om' r : step om (c, o) = Ret (om', r) -> reads o = true -> om' = om.
Proof.
  intros H Ho. destruct o; try discriminate; unfold o_step in H; cbn [fst snd] in H.
  - congruence.
  - congruence.
  - destruct (sk_keys (o_skl om)); cbn in H; try discriminate. congruence.
  - destruct (ord_values zeroV eqb om); cbn in H; try discriminate. congruence.
Qed.
Lemma reads_ideal m o : reads o = true -> (istep m o).1 = m.
Proof. destruct o; try discriminate; reflexivity. Qed.

Lemma relL_of om m locs : Rel om m -> Inv (o_skl om) locs -> RelL om m locs.
Proof.
  intros [locs2 R] I. constructor; [exact I| |apply R|apply R].
  rewrite (rl_keys _ _ _ _ _ _ R). rewrite (same_locs _ _ _ (rl_inv _ _ _ _ _ _ R) I). reflexivity.
Qed.


Lemma lt_congr x y z : eqb y z = true -> ltb x y = ltb x z.
Proof.
  intros H. rewrite (eq_spec _ _ SWO), andb_true_iff, !negb_true_iff in H. destruct H as [H1 H2].
  destruct (ltb x y) eqn:E1, (ltb x z) eqn:E2; try reflexivity.
  - destruct (lt_cover _ _ SWO x z y E1); congruence.
  - destruct (lt_cover _ _ SWO x y z E2); congruence.
Qed.
Lemma lt_congl x y z : eqb y z = true -> ltb y x = ltb z x.
Proof.
  intros H. rewrite (eq_spec _ _ SWO), andb_true_iff, !negb_true_iff in H. destruct H as [H1 H2].
  destruct (ltb y x) eqn:E1, (ltb z x) eqn:E2; try reflexivity.
  - destruct (lt_cover _ _ SWO y z x E1); congruence.
  - destruct (lt_cover _ _ SWO z y x E2); congruence.
Qed.

(** deleting the key under the iterator, by an equal key [k] *)
Lemma del_under om m LL y RR k : RelL om m (LL ++ y :: RR) -> eqb (ky (s_heap (o_skl om)) y) k = true ->
  exists om', ord_del ltb eqb om k = Ret om' /\
    RelL om' (map_del eqb m k) (LL ++ RR) /\ before (o_skl om') (Some y) RR /\
    (forall z, ky (s_heap (o_skl om')) z = ky (s_heap (o_skl om)) z).
Proof.
  intros R Hyk. pose proof (rl_inv _ _ _ _ _ _ R) as I.
  pose proof (before_path _ _ _ _ _ _ I) as [Hb1 Hb2]. cbn [default id from_option] in Hb1, Hb2.
  pose proof (inv_sorted _ _ _ _ I) as HS. apply StronglySorted_app_inv in HS as (_ & HS & HAB).
  apply StronglySorted_inv in HS as [_ HS].
  assert (HL : Forall (fun z => ltb (ky (s_heap (o_skl om)) z) k = true) LL).
  { rewrite Forall_forall. intros z Hz. rewrite <- (lt_congr _ _ _ Hyk). apply (HAB z y); [exact Hz|constructor]. }
  assert (HR : Forall (fun z => ltb (ky (s_heap (o_skl om)) z) k = false) (y :: RR)).
  { constructor; [rewrite <- (lt_congr _ _ _ Hyk); apply (lt_irrefl _ _ SWO)|]. eapply Forall_impl; [exact HS|].
    intros z Hz. rewrite <- (lt_congr _ _ _ Hyk). apply (lt_nlt _ _ SWO). exact Hz. }
  pose proof (delete_inv zeroK tt ltb eqb (o_skl om) k LL (y :: RR) I HL HR) as Hd.
  unfold found in Hd. rewrite Hyk in Hd.
  destruct Hd as (B' & s' & HB & E & Eh & Et & Fr & El & I' & Hent). injection HB as <-.
  destruct (ord_del_rel zeroK zeroV ltb eqb SWO om m _ k R) as (om' & Ed & R2). exists om'. split; [exact Ed|].
  unfold ord_del in Ed. rewrite (rl_get _ _ _ _ _ _ R) in Ed.
  destruct (map_get eqb m k) eqn:Eg.
  2:{ exfalso. assert (Hin : ent (s_heap (o_skl om)) y ∈ keysof m).
      { rewrite (rl_keys _ _ _ _ _ _ R), fmap_app, fmap_cons. apply elem_of_app; right. left. }
      apply elem_of_list_fmap in Hin as (e & He & Hin). injection He as He _.
      apply (has_get_false zeroK zeroV) in Eg. unfold map_has in Eg.
      apply not_true_iff_false in Eg. apply Eg. apply existsb_exists. exists e. split; [apply elem_of_list_In; exact Hin|].
      rewrite <- He. exact Hyk. }
  rewrite E in Ed. cbn [rbind] in Ed. injection Ed as <-. cbn [o_skl] in *.
  assert (Hyn : y ∉ s_head (o_skl om) :: LL ++ RR).
  { pose proof (inv_nodup _ _ _ _ I) as HN. apply NoDup_cons in HN as [Hh HN]. apply NoDup_cons in HN as [_ HN].
    rewrite elem_of_cons. intros [->|Hin].
    - apply Hh. apply elem_of_list_further. rewrite elem_of_app, elem_of_cons. tauto.
    - apply NoDup_app in HN as (_ & H2 & H3). apply NoDup_cons in H3 as [H3 _].
      rewrite elem_of_app in Hin. destruct Hin as [Hin|Hin]; [apply (H2 y Hin); constructor|auto]. }
  split; [apply relL_of; assumption|]. split.
  - destruct Fr as (F1 & F2 & F3). split; cbn [default id from_option o_skl]; [lia|].
    unfold nx in *. rewrite F3; [|exact Hb1|exact Hyn]. rewrite Et. exact Hb2.
  - intros z. specialize (Hent z). unfold SklProofs.ent in Hent. injection Hent as Hent _. exact Hent.
Qed.

Lemma at_step om m x k del c o :
  At om m x k del -> o <> OClear -> (del = true -> reads o = true) ->
  exists om', step om (c, o) = Ret (om', (istep m o).2) /\
    At om' (istep m o).1 x k (match o with ODel k' => del || eqb k k' | _ => del end).
Proof.
  intros (locs & R & Hx & Hk & Hd) Ho Hr.
  destruct (ord_step_rel zeroK zeroV ltb eqb SWO om m c o ltac:(exists locs; exact R)) as (om' & E & R').
  exists om'. split; [exact E|].
  destruct del.
  { specialize (Hr eq_refl). pose proof (reads_same _ _ _ _ _ E Hr) as ->.
    rewrite reads_ideal by exact Hr. exists locs. split; [exact R|]. split; [exact Hx|]. split; [exact Hk|].
    destruct o; try discriminate; exact Hd. }
  destruct (match o with ODel k' => eqb k k' | _ => false end) eqn:Edel.
  - (* the key under the iterator is deleted *)
    destruct o as [|k'| | | | |]; try discriminate. cbn [orb]. rewrite Edel.
    apply elem_of_list_split in Hd as (LL & RR & ->).
    destruct (del_under om m LL x RR k' R) as (om2 & E2 & R2 & B2 & K2); [rewrite Hk; exact Edel|].
    assert (Ekk : om' = om2).
    { unfold o_step in E. cbn [fst snd] in E. rewrite E2 in E. cbn in E. congruence. }
    subst om2.
    pose proof (inv_sorted _ _ _ _ (rl_inv _ _ _ _ _ _ R)) as HS. apply StronglySorted_app_inv in HS as (_ & HS & HAB).
    apply StronglySorted_inv in HS as [_ HS].
    exists (LL ++ RR). split; [exact R2|]. split; [apply B2|]. split; [rewrite K2; exact Hk|].
    exists LL, RR. split; [reflexivity|]. split; [exact B2|]. split.
    + rewrite Forall_forall. intros z Hz. rewrite K2, <- Hk. apply (HAB z x); [exact Hz|constructor].
    + eapply Forall_impl; [exact HS|]. intros z Hz. cbn in Hz. rewrite Hk in Hz. rewrite K2. exact Hz.
  - (* it stays *)
    assert (Ed : match o with ODel k' => false || eqb k k' | _ => false end = false) by (destruct o; auto).
    rewrite Ed.
    destruct (o_step_skl om c o om' _ E Ho) as [Es|(mo & r' & Es & Hmo & Hdel)].
    + exists locs. rewrite Es. split; [|auto]. apply relL_of; [exact R'|]. rewrite Es. apply R.
    + destruct (step_evolves zeroK tt ltb eqb _ _ SWO (o_skl om) locs c mo _ _ (rl_inv _ _ _ _ _ _ R) Hmo Es)
        as (locs' & I' & Eh & Et & (F1 & F2 & F3) & Hgone).
      exists locs'. split; [apply relL_of; assumption|]. split; [lia|]. split; [rewrite F2 by exact Hx; exact Hk|].
      destruct (decide (x ∈ locs')) as [?|Hn]; [assumption|]. exfalso.
      destruct (Hgone x Hd Hn) as (k' & Hm & Hkk). rewrite (Hdel k' Hm) in Edel. rewrite Hk in Hkk. congruence.
Qed.

Lemma at_exec (p : cprog K V A) : forall om m x k del,
  At om m x k del -> gentle eqb k del p ->
  exists om' del', exec zeroK zeroV ltb eqb p om
    = Ret ((ideal_exec ltb eqb p m).1.1, om', (ideal_exec ltb eqb p m).2) /\
    At om' (ideal_exec ltb eqb p m).1.2 x k del'.
Proof.
  induction p as [a stop|c o q IH]; intros om m x k del HA HG.
  - exists om, del. split; [reflexivity|exact HA].
  - destruct HG as (H1 & H2 & H3). destruct (at_step om m x k del c o HA H1 H2) as (om1 & E1 & A1).
    cbn [exec ideal_exec]. rewrite E1. cbn [rbind]. destruct (istep m o) as [m1 r]. cbn [fst snd] in *.
    exact (IH r om1 m1 x k _ A1 (H3 r)).
Qed.

Lemma keysof_filter k (l : list (K * V)) : keysof (filter (fun e => ltb k e.1 = true) l) = filter (fun e => ltb k e.1 = true) (keysof l).
Proof.
  induction l as [|e l IH]; [reflexivity|]. rewrite fmap_cons, !filter_cons. cbn [fst].
  destruct (decide (ltb k e.1 = true)); [rewrite fmap_cons; f_equal; exact IH|exact IH].
Qed.
Lemma filter_above h k (L R : list nat) :
  Forall (fun y => ltb (ky h y) k = true) L -> Forall (fun y => ltb k (ky h y) = true) R ->
  filter (fun e => ltb k e.1 = true) (ent h <$> L ++ R) = ent h <$> R.
Proof.
  intros HL HR. rewrite fmap_app, filter_app.
  assert (F1 : filter (fun e => ltb k e.1 = true) (ent h <$> L) = []).
  { induction HL as [|y L Hy HL IH]; [reflexivity|]. rewrite fmap_cons, filter_cons_False; [exact IH|].
    cbn. rewrite (lt_nlt _ _ SWO _ _ Hy). discriminate. }
  rewrite F1. induction HR as [|y R Hy HR IH]; [reflexivity|]. cbn [app] in *. rewrite fmap_cons, filter_cons_True; [f_equal; exact IH|exact Hy].
Qed.

(** the next visit *)
Definition Before om m (it : iter) (cur : cursor K) : Prop :=
  match cur with
  | Start => it = None /\ Rel om m
  | On k => exists x del, it = Some x /\ At om m x k del
  | End => False
  end.
Lemma next_visit om m it cur : Before om m it cur ->
  match cursor_next ltb m cur with
  | None => exists it', it_next (o_skl om) it = Ret (it', None)
  | Some (k, v) => exists y, it_next (o_skl om) it = Ret (Some y, Some (k, tt)) /\ At om m y k false /\
                   gm_get eqb (o_m om) k = Some v
  end /\ Rel om m.
Proof.
  intros HB.
  assert (Hgo : forall L R es, RelL om m (L ++ R) -> before (o_skl om) it R -> keysof es = ent (s_heap (o_skl om)) <$> R ->
    (forall e, e ∈ es -> e ∈ m) ->
    match head es with
    | None => exists it', it_next (o_skl om) it = Ret (it', None)
    | Some (k, v) => exists y, it_next (o_skl om) it = Ret (Some y, Some (k, tt)) /\ At om m y k false /\
                     gm_get eqb (o_m om) k = Some v
    end).
  { intros L R es HR Hb Hes Hin. rewrite (before_next zeroK ltb _ _ L R it (rl_inv _ _ _ _ _ _ HR) eq_refl Hb).
    destruct R as [|y R], es as [|[k v] es]; try discriminate; cbn [head]; [eauto|].
    rewrite !fmap_cons in Hes. injection Hes as Hk Hu Hes. cbn [fst] in Hk. exists y.
    split; [|split].
    - unfold SklProofs.ent. rewrite <- Hk, <- Hu. reflexivity.
    - exists (L ++ y :: R). split; [exact HR|].
      assert (Hy : y ∈ L ++ y :: R) by (rewrite elem_of_app, elem_of_cons; tauto).
      split; [eapply inv_elem_bound; [apply HR|]; do 2 apply elem_of_list_further; exact Hy|]. split; [auto|exact Hy].
    - rewrite (rl_get _ _ _ _ _ _ HR). apply (rl_get_self zeroK ltb eqb SWO _ _ _ (k, v) HR). apply Hin. constructor. }
  assert (Hsub : forall e, e ∈ sorted_entries ltb m -> e ∈ m).
  { intros e He. rewrite <- (sorted_entries_perm ltb m). exact He. }
  destruct cur as [|k|]; cbn [Before cursor_next] in *; [| |contradiction].
  - destruct HB as [-> [locs R]]. split; [|exists locs; exact R].
    apply (Hgo [] locs); [exact R| |eapply rl_entries; eassumption|exact Hsub].
    pose proof (inv_path _ _ _ _ (rl_inv _ _ _ _ _ _ R) 0 ltac:(lia)) as Hp. rewrite lv_0 in Hp by apply (inv_hg _ _ _ _ (rl_inv _ _ _ _ _ _ R)).
    split; cbn [default id from_option].
    + eapply inv_elem_bound; [apply R|constructor].
    + destruct locs; cbn in *; [exact Hp|apply Hp].
  - destruct HB as (x & del & -> & locs & R & Hx & Hk & Hd). split; [|exists locs; exact R].
    assert (HLR : exists L R, locs = L ++ R /\ before (o_skl om) (Some x) R /\
       filter (fun e => ltb k e.1 = true) (ent (s_heap (o_skl om)) <$> locs) = ent (s_heap (o_skl om)) <$> R).
    { destruct del.
      - destruct Hd as (L1 & R1 & -> & B1 & HL & HR). exists L1, R1. split; [reflexivity|]. split; [exact B1|].
        apply filter_above; assumption.
      - apply elem_of_list_split in Hd as (L1 & R1 & ->). exists (L1 ++ [x]), R1. rewrite <- app_assoc. split; [reflexivity|].
        split; [apply (before_path zeroK ltb _ L1); apply R|].
        pose proof (inv_sorted _ _ _ _ (rl_inv _ _ _ _ _ _ R)) as HS. apply StronglySorted_app_inv in HS as (_ & HS & HAB).
        apply StronglySorted_inv in HS as [_ HS]. cbn [app] in *.
        assert (HL : Forall (fun y => ltb (ky (s_heap (o_skl om)) y) k = true) L1).
        { rewrite Forall_forall. intros z Hz. rewrite <- Hk. apply (HAB z x); [exact Hz|constructor]. }
        rewrite <- (filter_above (s_heap (o_skl om)) k L1 R1 HL).
        + rewrite !fmap_app, !filter_app, fmap_cons. f_equal. apply filter_cons_False. cbn. rewrite Hk, (lt_irrefl _ _ SWO). discriminate.
        + eapply Forall_impl; [exact HS|]. intros z Hz. cbn in Hz. rewrite Hk in Hz. exact Hz. }
    destruct HLR as (L1 & R1 & -> & B1 & HF). apply (Hgo L1 R1); [exact R|exact B1| |].
    + rewrite keysof_filter, (rl_entries zeroK ltb eqb SWO _ _ _ R), HF. reflexivity.
    + intros e He. apply elem_of_list_filter in He as [_ He]. auto.
Qed.

Lemma range_live (f : A -> K -> V -> cprog K V A) :
  (forall a k v, gentle eqb k false (f a k v)) ->
  forall fuel a om m it cur, Before om m it cur ->
  exists fin, range_loop zeroV eqb fuel (fun a om k v => exec zeroK zeroV ltb eqb (f a k v) om) a om it
    = ((live_range ltb eqb fuel f a m cur).1, fin) /\
  match (live_range ltb eqb fuel f a m cur).2 with
  | Ret (a', m') => exists om', fin = Ret (a', om') /\ Rel om' m'
  | Panic => False
  | Spin => fin = Spin
  end.
Proof.
  intros HG. induction fuel as [|fuel IH]; intros a om m it cur HB;
    destruct (next_visit om m it cur HB) as [Hn HR]; cbn [range_loop live_range];
    (destruct (cursor_next ltb m cur) as [[k v]|];
     [destruct Hn as (y & E & HA & Hg); rewrite E, Hg; cbn [default id from_option];
      destruct (at_exec (f a k v) om m y k false HA (HG a k v)) as (om1 & del1 & E1 & A1); rewrite E1;
      destruct (ideal_exec ltb eqb (f a k v) m) as [[a1 m1] stop]; cbn [fst snd] in *;
      assert (HR1 : Rel om1 m1) by (destruct A1 as (locs1 & R1 & _); exists locs1; exact R1);
      destruct stop; [eexists; split; [reflexivity|]; cbn; eauto|]
     |destruct Hn as (it' & E); rewrite E; eexists; split; [reflexivity|]; cbn; eauto]).
  - eexists. split; [reflexivity|]. reflexivity.
  - destruct (IH a1 om1 m1 (Some y) (On k)) as (fin & E2 & HF).
    { exists y, del1. split; [reflexivity|exact A1]. }
    rewrite E2. destruct (live_range ltb eqb fuel f a1 m1 (On k)) as [vs r]. cbn [fst snd] in *. exists fin. split; [reflexivity|exact HF].
Qed.

(** *** Range ends when nothing is set above the key visited *)
Definition above (cur : cursor K) m : list (K * V) :=
  match cur with Start => m | On k => filter (fun e => ltb k e.1 = true) m | End => [] end.
Lemma above_set k m k' v : ltb k k' = false -> length (above (On k) (map_set eqb m k' v)) = length (above (On k) m).
Proof.
  intros H. cbn [above]. unfold map_set. destruct (map_has eqb m k').
  - induction m as [|e m IH]; [reflexivity|]. rewrite fmap_cons, !filter_cons.
    assert (Ef : (if eqb e.1 k' then (e.1, v) else e).1 = e.1) by (destruct (eqb e.1 k'); reflexivity).
    rewrite Ef. destruct (decide (ltb k e.1 = true)); cbn [length]; [f_equal|]; exact IH.
  - rewrite filter_app, filter_cons_False, filter_nil, app_nil_r by (cbn; rewrite H; discriminate). reflexivity.
Qed.
Lemma above_del k m k' : length (above (On k) (map_del eqb m k')) <= length (above (On k) m).
Proof.
  cbn [above]. unfold map_del. induction m as [|e m IH]; [reflexivity|].
  rewrite (filter_cons (fun e => eqb e.1 k' = false)).
  destruct (decide (eqb e.1 k' = false)); rewrite !filter_cons; destruct (decide (ltb k e.1 = true)); cbn [length]; lia.
Qed.
Lemma above_exec (p : cprog K V A) k : forall m, no_set_above ltb k p ->
  length (above (On k) (ideal_exec ltb eqb p m).1.2) <= length (above (On k) m).
Proof.
  induction p as [a stop|c o q IH]; intros m H; [cbn; lia|]. destruct H as [H1 H2]. cbn [ideal_exec].
  destruct (istep m o) as [m1 r] eqn:E.
  etransitivity; [apply (IH r m1 (H2 r))|].
  destruct o; cbn [ord_step] in E; injection E as <- _; try lia.
  - rewrite above_set by exact H1. lia.
  - apply above_del.
  - cbn. lia.
Qed.
Lemma above_next m cur k v : cursor_next ltb m cur = Some (k, v) ->
  S (length (above (On k) m)) <= length (above cur m).
Proof.
  intros H.
  assert (Hin : (k, v) ∈ above cur m).
  { destruct cur as [|k0|]; cbn [cursor_next above] in *; [| |discriminate].
    - rewrite <- (sorted_entries_perm ltb m). destruct (sorted_entries ltb m); cbn in H; [discriminate|]. injection H as ->. constructor.
    - assert (He : (k, v) ∈ filter (fun e => ltb k0 e.1 = true) (sorted_entries ltb m)).
      { destruct (filter _ _); cbn in H; [discriminate|]. injection H as ->. constructor. }
      apply elem_of_list_filter in He as [H1 H2]. apply elem_of_list_filter. split; [exact H1|].
      rewrite <- (sorted_entries_perm ltb m). exact H2. }
  assert (Hsub : above (On k) m = filter (fun e => ltb k e.1 = true) (above cur m)).
  { destruct cur as [|k0|]; [reflexivity| |cbn in Hin; apply elem_of_nil in Hin; contradiction]. cbn [above] in *.
    apply elem_of_list_filter in Hin as [Hk _]. cbn in Hk. symmetry. rewrite list_filter_filter. apply list_filter_iff.
    intros e. split; [tauto|]. intros He. split; [exact He|]. eapply (lt_trans _ _ SWO); eassumption. }
  rewrite Hsub. apply elem_of_list_split in Hin as (l1 & l2 & ->).
  rewrite filter_app, filter_cons_False by (cbn; rewrite (lt_irrefl _ _ SWO); discriminate).
  rewrite !app_length. cbn [length].
  pose proof (filter_length (fun e : K * V => ltb k e.1 = true) l1). pose proof (filter_length (fun e : K * V => ltb k e.1 = true) l2). lia.
Qed.
Lemma live_ends (f : A -> K -> V -> cprog K V A) :
  (forall a k v, no_set_above ltb k (f a k v)) ->
  forall fuel a m cur, length (above cur m) <= fuel ->
  exists r, (live_range ltb eqb fuel f a m cur).2 = Ret r.
Proof.
  intros HG. induction fuel as [|fuel IH]; intros a m cur Hf; cbn [live_range];
    destruct (cursor_next ltb m cur) as [[k v]|] eqn:En; try (eexists; reflexivity);
    pose proof (above_next m cur k v En) as Ha; [lia|].
  pose proof (above_exec (f a k v) k m (HG a k v)) as Hx.
  destruct (ideal_exec ltb eqb (f a k v) m) as [[a1 m1] stop]. destruct stop; [eexists; reflexivity|]. cbn [fst snd] in Hx.
  destruct (IH a1 m1 (On k)) as (r & Hr); [lia|].
  destruct (live_range ltb eqb fuel f a1 m1 (On k)) as [vs r']. exists r. exact Hr.
Qed.
End P.
