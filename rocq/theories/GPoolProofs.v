(** sync.Pool is a bag: the proof. *)
From Verif Require Import Base Conc PDeqModel PDeqSpec PDeqProofs PDeqCount GPoolModel GPoolSpec.
Open Scope Z_scope.

Lemma steps_snoc_inv {S L} (step : S -> L -> S -> Prop) s ls l s2 : steps step s (ls ++ [l]) s2 -> exists s1, steps step s ls s1 /\ step s1 l s2.
Proof.
  intros H. remember (ls ++ [l]) as tr eqn:E. destruct H as [|s ls' s1 l' s2 H1 H2]; [destruct ls; discriminate|].
  apply app_inj_tail in E as [-> ->]. eauto.
Qed.
Lemma steps_app_inv {S L} (step : S -> L -> S -> Prop) s l1 l2 s2 : steps step s (l1 ++ l2) s2 -> exists s1, steps step s l1 s1 /\ steps step s1 l2 s2.
Proof.
  revert s2. induction l2 as [|l l2 IH] using rev_ind; intros s2 H.
  - rewrite app_nil_r in H. exists s2. split; [exact H|constructor].
  - rewrite app_assoc in H. apply steps_snoc_inv in H as (s1 & H1 & H2). destruct (IH _ H1) as (s0 & A & B). exists s0. split; [exact A|econstructor; eassumption].
Qed.
Lemma steps_one {S L} (step : S -> L -> S -> Prop) s l s2 : steps step s [l] s2 -> step s l s2.
Proof.
  intros H. apply (steps_snoc_inv step s []) in H as (s1 & H1 & H2). remember [] as tr eqn:E. destruct H1 as [|s ls s1 l' s' H1 H3]; [exact H2|]. destruct ls; discriminate.
Qed.
(** a dequeue with c in it or in the hands of its users *)
Definition QI (q : dq) (c : list nat) : Prop :=
  exists H T a, 0 < q_n q /\ q_n q < W /\ (q_n q | W) /\ R (q_n q) H T (q_d q) a /\ inside a c /\
    (q_shut q = true -> pushing (d_own (q_d q)) = false) /\ (q_gone q = true -> q_shut q = true /\ a_l a = []).
Definition J (s : gp) (b : list nat) : Prop :=
  exists cs vcs, Forall2 QI (g_dq s) cs /\ Forall2 QI (g_vdq s) vcs /\
    b ≡ₚ (omap id (g_priv s) ++ concat cs) ++ omap id (g_vpriv s) ++ concat vcs.

Lemma a_own_push n h t sl o c l d' : d_step n (D h t sl o c) l d' -> (exists x, l = LPush x) -> pushing o = true.
Proof. intros HS [x ->]. inversion HS; subst; reflexivity. Qed.
Lemma QI_step q l q' c : q_step q l q' -> QI q c -> exists c', QI q' c' /\ l <> LHeadRet None /\ (forall i, l <> LTailRet i None) /\
  forall x, (count_occ Nat.eq_dec c' x + ret_of x l = count_occ Nat.eq_dec c x + push_of x l)%nat.
Proof.
  intros HS (H & T & a & H1 & H2 & H3 & HR & HI & Hs & Hg). destruct HS as [n d sh go l d' go' HS Hp Hgo Hgo2]. cbn [q_n q_d q_shut q_gone] in *.
  destruct (sim n H1 H2 H3 _ _ _ _ _ _ HR HS) as (H' & T' & a' & HA & HR'). destruct (a_count _ _ _ _ _ HA HI) as (c' & HI' & Hc).
  destruct (a_some _ _ _ _ HA) as [S1 S2]. exists c'. split; [|auto]. exists H', T', a'. cbn [q_n q_d q_shut q_gone]. do 5 (split; [assumption|]). split.
  - intros ->. destruct (pushing (d_own d')) eqn:E; [|reflexivity]. destruct (Hp eq_refl) as [Q|Q]; [rewrite (Hs eq_refl) in Q; discriminate|discriminate].
  - intros ->. destruct Hgo as [<-|[-> [i ->]]].
    + destruct (Hg eq_refl) as [-> E]. split; [reflexivity|]. destruct d as [h t sl o cc]. pose proof (a_own_push _ _ _ _ _ _ _ _ HS) as NP. cbn in Hs. specialize (Hs eq_refl).
      destruct HA; cbn [a_l] in *; try exact E; try reflexivity.
      * rewrite (NP ltac:(eauto)) in Hs. discriminate.
      * apply app_eq_nil in E as [-> _]. reflexivity.
      * discriminate.
    + split; [reflexivity|]. inversion HA; subst; reflexivity.
Qed.
Lemma QI_quiet q c : QI q c -> q_quiet q -> c ≡ₚ q_items q.
Proof.
  intros (H & T & a & H1 & H2 & H3 & HR & (m & _ & Hm & ->) & Hs & Hg) [QO QC]. destruct q as [n d sh go]. cbn [q_n q_d q_shut q_gone] in *.
  assert (EO : a_own a = None) by (pose proof (r_own _ _ _ _ _ HR) as G; rewrite QO in G; exact G).
  assert (EM : m = []). { destruct m as [|[i x] m]; [reflexivity|]. exfalso. pose proof (proj1 (Hm i x) ltac:(left)) as E. pose proof (r_cons _ _ _ _ _ HR i) as G. rewrite QC in G. cbn in G. congruence. }
  rewrite EO, EM. cbn [option_list fmap list_fmap app]. change (option_list None) with (@nil nat). rewrite app_nil_r. unfold q_items. cbn [q_n q_d q_gone]. destruct go; [destruct (Hg eq_refl) as [_ ->]; reflexivity|].
  rewrite (r_h _ _ _ _ _ HR), (r_t _ _ _ _ _ HR). pose proof (r_len _ _ _ _ _ HR) as EL. pose proof (r_n _ _ _ _ _ HR) as En. pose proof (r_live _ _ _ _ _ HR) as LV.
  rewrite Zminus_mod_idemp_l, Zminus_mod_idemp_r, (Z.mod_small (H - T) W) by lia. rewrite EL, Nat2Z.id.
  assert (G : forall l k, (forall j x, l !! j = Some x -> d_slot d ((T + Z.of_nat (k + j)) mod n) = Sw true (Some x)) ->
    omap (fun j => w_read (d_slot d ((T mod W + Z.of_nat j) mod n))) (seq k (length l)) = l).
  { induction l as [|x l IH]; intros k Hl; [reflexivity|]. cbn [length seq omap list_omap]. pose proof (Hl 0%nat x eq_refl) as E0. rewrite Nat.add_0_r in E0.
    rewrite <- Zplus_mod_idemp_l, (ix_W n H1 H3 T), Zplus_mod_idemp_l, E0. cbn [w_read w_typ w_val]. f_equal. apply IH. intros j y Hj. rewrite <- (Hl (S j) y Hj). f_equal. f_equal. lia. }
  rewrite G; [reflexivity|]. exact LV.
Qed.
Lemma concat_insert (cs : list (list nat)) k c c' : cs !! k = Some c -> exists r, concat cs ≡ₚ c ++ r /\ concat (<[k := c']> cs) ≡ₚ c' ++ r.
Proof.
  revert k. induction cs as [|e cs IH]; intros k E; [rewrite lookup_nil in E; discriminate|]. destruct k as [|k]; cbn in *.
  - injection E as ->. exists (concat cs). split; reflexivity.
  - destruct (IH k E) as (r & P1 & P2). exists (e ++ r). rewrite P1, P2. split; rewrite !app_assoc; apply Permutation_app_tail; apply Permutation_app_comm.
Qed.
Lemma omap_insert (ps : list (option nat)) p o o' : ps !! p = Some o -> exists r, omap id ps ≡ₚ option_list o ++ r /\ omap id (<[p := o']> ps) ≡ₚ option_list o' ++ r.
Proof.
  revert p. induction ps as [|e ps IH]; intros p E; [rewrite lookup_nil in E; discriminate|]. destruct p as [|p].
  - injection E as ->. exists (omap id ps). split; [destruct o; reflexivity|destruct o'; reflexivity].
  - destruct (IH p E) as (r & P1 & P2). exists (option_list e ++ r).
    assert (C : forall l : list (option nat), omap id (e :: l) = option_list e ++ omap id l) by (intros l; destruct e; reflexivity).
    change (<[S p := o']> (e :: ps)) with (e :: <[p := o']> ps). rewrite !C, P1, P2. split; rewrite !app_assoc; apply Permutation_app_tail; apply Permutation_app_comm.
Qed.
Lemma omap_none m : omap id (replicate m (@None nat)) = [].
Proof. induction m as [|m IH]; [reflexivity|exact IH]. Qed.
Lemma J_init m : J (g_init m) [].
Proof. exists [], []. cbn. rewrite omap_none. auto. Qed.
Lemma bag_label l c c' r b : b ≡ₚ c ++ r ->
  (forall x, (count_occ Nat.eq_dec c' x + ret_of x l = count_occ Nat.eq_dec c x + push_of x l)%nat) -> exists b', b_step b (g_lab l) b' /\ b' ≡ₚ c' ++ r.
Proof.
  intros P Q.
  assert (Same : (forall x, push_of x l = 0%nat) -> (forall x, ret_of x l = 0%nat) -> b ≡ₚ c' ++ r).
  { intros A B. rewrite P. apply Permutation_app_tail. apply (Permutation_count_occ Nat.eq_dec). intros x. specialize (Q x). rewrite A, B in Q. lia. }
  destruct l as [x| | | |[x|]| |i|i [x|]|i|]; cbn [g_lab]; try (exists b; split; [constructor|apply Same; reflexivity]).
  - exists (x :: b). split; [constructor|]. rewrite P. change (x :: c ++ r) with ((x :: c) ++ r). apply Permutation_app_tail. apply (Permutation_count_occ Nat.eq_dec). intros y.
    specialize (Q y). rewrite cnt_cons. cbn in Q. lia.
  - exists (c' ++ r). split; [|reflexivity]. constructor. rewrite P. change (x :: c' ++ r) with ((x :: c') ++ r). apply Permutation_app_tail. apply (Permutation_count_occ Nat.eq_dec). intros y.
    specialize (Q y). rewrite cnt_cons. cbn in Q. lia.
  - exists (c' ++ r). split; [|reflexivity]. constructor. rewrite P. change (x :: c' ++ r) with ((x :: c') ++ r). apply Permutation_app_tail. apply (Permutation_count_occ Nat.eq_dec). intros y.
    specialize (Q y). rewrite cnt_cons. cbn in Q. lia.
Qed.
Lemma F2_quiet qs cs : Forall2 QI qs cs -> Forall q_quiet qs -> concat cs ≡ₚ concat (map q_items qs).
Proof.
  induction 1 as [|q c qs cs H1 _ IH]; intros HQ; [reflexivity|]. apply Forall_cons in HQ as [Q1 Q2]. cbn. rewrite (IH Q2), (QI_quiet _ _ H1 Q1). reflexivity.
Qed.
Lemma J_quiet s b : J s b -> g_quiet s -> b ≡ₚ g_items s.
Proof. intros (cs & vcs & F & VF & P) [Q1 Q2]. rewrite P. unfold g_items, items. rewrite (F2_quiet _ _ F Q1), (F2_quiet _ _ VF Q2). reflexivity. Qed.

Lemma J_step s l s' b : g_step s l s' -> J s b -> exists b', b_step b l b' /\ J s' b'.
Proof.
  intros HS (cs & vcs & F & VF & P). destruct HS; cbn [g_priv g_dq g_vpriv g_vdq] in *.
  - destruct (omap_insert _ _ _ (Some x) H) as (r & P1 & P2). exists (x :: b). split; [constructor|]. exists cs, vcs. do 2 (split; [assumption|]). cbn [g_priv g_vpriv]. rewrite P2, P, P1. reflexivity.
  - destruct (omap_insert _ _ _ None H) as (r & P1 & P2). exists ((r ++ concat cs) ++ omap id vps ++ concat vcs). split.
    + constructor. rewrite P, P1. reflexivity.
    + exists cs, vcs. do 2 (split; [assumption|]). cbn [g_priv g_vpriv]. rewrite P2. reflexivity.
  - destruct (omap_insert _ _ _ None H) as (r & P1 & P2). exists ((omap id ps ++ concat cs) ++ r ++ concat vcs). split.
    + constructor. rewrite P, P1. change (option_list (Some x)) with [x]. cbn [app]. symmetry. apply Permutation_middle.
    + exists cs, vcs. do 2 (split; [assumption|]). cbn [g_priv g_vpriv]. rewrite P2. reflexivity.
  - exists b. split; [constructor|]. exists (cs ++ [[]]), vcs. cbn [g_priv g_dq g_vpriv g_vdq]. split; [|split; [assumption|]].
    + apply Forall2_app; [exact F|]. constructor; [|constructor]. exists 0, 0, a_init. cbn. destruct H as [A B]. do 3 (split; [assumption|]). split; [apply R_init; [assumption|split; [lia|reflexivity]]|]. split; [apply inside_init|]. split; discriminate.
    + rewrite concat_app. cbn. rewrite app_nil_r. exact P.
  - exists b. split; [constructor|]. destruct (Forall2_lookup_l _ _ _ _ _ F H) as (c & Hc & QIc). exists (<[k := c]> cs), vcs. cbn [g_priv g_dq g_vpriv g_vdq]. split; [|split; [assumption|]].
    + apply Forall2_insert; [exact F|]. destruct QIc as (h & t & a & A1 & A2 & A3 & A4 & A5 & A6 & A7). cbn in *. exists h, t, a. cbn. do 5 (split; [assumption|]). split; [intros _; rewrite H0; reflexivity|]. intros G. destruct (A7 G). auto.
    + rewrite list_insert_id by exact Hc. exact P.
  - destruct (Forall2_lookup_l _ _ _ _ _ F H) as (c & Hc & QIc). destruct (QI_step _ _ _ _ H0 QIc) as (c' & QIc' & _ & _ & Qc). destruct (concat_insert _ _ _ c' Hc) as (r & P1 & P2).
    destruct (bag_label l c c' (omap id ps ++ r ++ omap id vps ++ concat vcs) b) as (b' & B & PB); [|exact Qc|].
    + rewrite P, P1. rewrite !app_assoc. apply Permutation_app_tail. apply Permutation_app_tail. apply Permutation_app_tail. apply Permutation_app_comm.
    + exists b'. split; [exact B|]. exists (<[k := c']> cs), vcs. cbn [g_priv g_dq g_vpriv g_vdq]. split; [apply Forall2_insert; assumption|]. split; [assumption|].
      rewrite PB, P2. rewrite !app_assoc. apply Permutation_app_tail. apply Permutation_app_tail. apply Permutation_app_tail. apply Permutation_app_comm.
  - destruct (Forall2_lookup_l _ _ _ _ _ VF H) as (c & Hc & QIc). destruct (QI_step _ _ _ _ H0 QIc) as (c' & QIc' & _ & _ & Qc). destruct (concat_insert _ _ _ c' Hc) as (r & P1 & P2).
    destruct (bag_label l c c' ((omap id ps ++ concat cs ++ omap id vps) ++ r) b) as (b' & B & PB); [|exact Qc|].
    + rewrite P, P1. rewrite !app_assoc. apply Permutation_app_tail. rewrite <- !app_assoc. rewrite (Permutation_app_comm c). rewrite <- !app_assoc. reflexivity.
    + exists b'. split; [exact B|]. exists cs, (<[k := c']> vcs). cbn [g_priv g_dq g_vpriv g_vdq]. split; [assumption|]. split; [apply Forall2_insert; assumption|].
      rewrite PB, P2. rewrite !app_assoc. apply Permutation_app_tail. rewrite <- !app_assoc. rewrite (Permutation_app_comm c'). rewrite <- !app_assoc. reflexivity.
  - exists b. split; [constructor|]. exists cs, vcs. auto.
  - destruct H as [Q1 Q2]. cbn in Q1, Q2. exists (omap id ps ++ concat cs). split.
    + constructor. rewrite P. unfold items. rewrite (F2_quiet _ _ VF Q2). apply Permutation_app_comm.
    + exists [], cs. cbn. rewrite omap_none. split; [constructor|]. split; [exact F|]. reflexivity.
Qed.
Lemma J_steps m tr s : steps g_step (g_init m) tr s -> exists b, steps b_step [] tr b /\ J s b.
Proof.
  intros HS. remember (g_init m) as s0 eqn:E. revert E. induction HS as [s|s tr s1 l s2 HS IH Hst]; intros ->.
  - exists []. split; [constructor|apply J_init].
  - destruct (IH eq_refl) as (b & B & HJ). destruct (J_step _ _ _ _ Hst HJ) as (b' & B' & HJ'). exists b'. split; [econstructor; eassumption|exact HJ'].
Qed.
Lemma bag_count tr b : steps b_step [] tr b -> forall x, puts x tr = (gets x tr + drops x tr + count_occ Nat.eq_dec b x)%nat.
Proof.
  intros HS x. remember [] as b0 eqn:E. revert E. induction HS as [b|b tr b1 l b2 HS IH Hst]; intros ->; [reflexivity|].
  specialize (IH eq_refl). unfold puts, gets, drops in *. rewrite !sum_list_with_app. cbn [sum_list_with]. destruct Hst as [b y|b y b' P|b c b' P|b y|b].
  - rewrite cnt_cons. lia.
  - apply (cnt_perm x) in P. rewrite cnt_cons in P. lia.
  - apply (cnt_perm x) in P. rewrite count_occ_app in P. lia.
  - lia.
  - lia.
Qed.

(** the victim cache only shrinks between two collections *)
Definition VB (s : gp) (M : nat -> nat) : Prop :=
  exists vcs, Forall2 QI (g_vdq s) vcs /\ Forall (fun q => d_own (q_d q) = OIdle) (g_vdq s) /\
    forall x, (count_occ Nat.eq_dec (omap id (g_vpriv s) ++ concat vcs) x <= M x)%nat.
Lemma VB_step s l s' M : g_step s l s' -> (forall c, l <> GDrop c) -> VB s M -> VB s' M.
Proof.
  intros HS ND (vcs & F & I & B). destruct HS; cbn [g_priv g_dq g_vpriv g_vdq] in *; try (exists vcs; auto; fail).
  - destruct (omap_insert _ _ _ None H) as (r & P1 & P2). exists vcs. split; [exact F|]. split; [exact I|]. intros y. specialize (B y). cbn [g_vpriv]. rewrite count_occ_app in *.
    rewrite (cnt_perm y _ _ P1) in B. rewrite (cnt_perm y _ _ P2). change (option_list None) with (@nil nat). rewrite count_occ_app in B. cbn [app]. lia.
  - destruct (Forall2_lookup_l _ _ _ _ _ F H) as (c & Hc & QIc). destruct (QI_step _ _ _ _ H0 QIc) as (c' & QIc' & _ & _ & Qc). destruct (concat_insert _ _ _ c' Hc) as (r & P1 & P2).
    pose proof (proj1 (Forall_lookup _ _) I _ _ H) as Io. cbn in Io.
    exists (<[k := c']> vcs). cbn [g_vpriv g_vdq]. split; [apply Forall2_insert; assumption|]. split; [apply Forall_insert; [exact I|congruence]|].
    intros x. specialize (B x). specialize (Qc x). rewrite count_occ_app in *. rewrite (cnt_perm x _ _ P1), count_occ_app in B. rewrite (cnt_perm x _ _ P2), count_occ_app.
    assert (PZ : push_of x l = 0%nat); [|lia]. destruct l as [y| | | | | | | | |]; try reflexivity. exfalso. remember (LPush y) as l eqn:El. destruct H0 as [n d sh go l d' go' HS _ _ _]. destruct d as [h t sl o cc]. cbn in Io.
    pose proof (a_own_push _ _ _ _ _ _ _ _ HS (ex_intro _ y El)) as Q. rewrite Io in Q. discriminate.
  - destruct (ND _ eq_refl).
Qed.
Lemma gc_inv s c s' : g_step s (GDrop c) s' -> g_quiet s /\ c = items (g_vpriv s) (g_vdq s) /\ g_vpriv s' = g_priv s /\ g_vdq s' = g_dq s.
Proof.
  intros HS. remember (GDrop c) as l eqn:E. destruct HS; try discriminate.
  - destruct l as [| | | |[]| | |? []| |]; discriminate.
  - destruct l as [| | | |[]| | |? []| |]; discriminate.
  - injection E as <-. cbn. auto.
Qed.
Lemma VB_gc s c s' b : g_step s (GDrop c) s' -> J s b -> g_quiet s /\ c = items (g_vpriv s) (g_vdq s) /\ VB s' (fun x => count_occ Nat.eq_dec (items (g_priv s) (g_dq s)) x).
Proof.
  intros HS (cs & vcs & F & VF & P). destruct (gc_inv _ _ _ HS) as (HQ & Ec & E1 & E2). split; [exact HQ|]. split; [exact Ec|]. destruct HQ as [Q1 Q2].
  exists cs. rewrite E1, E2. split; [exact F|]. split; [eapply Forall_impl; [exact Q1|]; intros q [Q _]; exact Q|].
  intros x. unfold items. rewrite !count_occ_app, (cnt_perm x _ _ (F2_quiet _ _ F Q1)). lia.
Qed.
Lemma VB_drop s c s' M : g_step s (GDrop c) s' -> VB s M -> forall x, (count_occ Nat.eq_dec c x <= M x)%nat.
Proof.
  intros HS (vcs & F & I & B) x. specialize (B x). destruct (gc_inv _ _ _ HS) as ([Q1 Q2] & -> & _).
  unfold items. rewrite count_occ_app in *. rewrite <- (cnt_perm x _ _ (F2_quiet _ _ F Q2)). exact B.
Qed.
