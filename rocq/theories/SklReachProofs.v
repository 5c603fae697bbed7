(** What a SkipListMap can reach in memory: proofs. *)
From Verif Require Import Base SplitMixModel SklSpec SklModel SklProofs SklRefine SklLevelProofs.
From Coq Require Import Sorting.Sorted.

(** *** Pointers *)
(** node a holds a pointer to node b *)
Definition points {K V} (h : list (sknode K V)) (a b : nat) : Prop := exists nd, h !! a = Some nd /\ Some b ∈ sk_next nd.
(** what can be reached from the pointers in rs *)
Definition reachable {K V} (h : list (sknode K V)) (rs : list nat) (x : nat) : Prop := exists r, r ∈ rs /\ rtc (points h) r x.

Section Reach.
Context {K V : Type} (zeroK : K) (zeroV : V) (ltb eqb : K -> K -> bool).
Context (showK : K -> list Z) (showV : V -> list Z).
Context (SWO : strict_weak_order ltb eqb).
Notation skl := (skl K V).
Notation step := (m_step zeroK zeroV ltb eqb showK showV).
Notation istep := (map_step ltb eqb showK showV).
Notation Inv := (Inv zeroK ltb).
Notation ky := (@ky K V zeroK).
Notation ent := (ent zeroK zeroV).
Notation Rel := (Rel zeroK zeroV ltb).

(** pointers above the height of a node, and those of the tail, are nil; the sentinels hold nothing *)
Record Up (s : skl) : Prop := {
  up_tail : forall i, nx (s_heap s) i (s_tail s) = None;
  up_head : hg (s_heap s) (s_head s) = 0;
  up_node : forall x i, 1 <= hg (s_heap s) x -> hg (s_heap s) x <= i -> nx (s_heap s) i x = None;
  up_zero : ent (s_heap s) (s_head s) = (zeroK, zeroV) /\ ent (s_heap s) (s_tail s) = (zeroK, zeroV);
  up_tail_hg : hg (s_heap s) (s_tail s) = 0 }.

Lemma ctx_good s L R ctx j c : Inv s (L ++ R) -> Up s -> ctx_ok s L ctx -> j < 16 -> ctx !! j = Some c ->
  c ∈ s_head s :: L /\ c <> s_tail s /\ (hg (s_heap s) c = 0 \/ j < hg (s_heap s) c).
Proof.
  intros I U [_ C] Hj Hc. rewrite C in Hc by exact Hj. injection Hc as Hc. pose proof (last_or_elem (s_head s) (lv (s_heap s) j L)) as H. rewrite Hc in H.
  pose proof (inv_nodup _ _ _ _ I) as N. apply NoDup_cons in N as [N1 N2]. apply NoDup_cons in N2 as [N2 _].
  rewrite elem_of_cons in H. destruct H as [->|H].
  - split; [constructor|]. split; [intros E; apply N1; rewrite E; constructor|]. left. apply (up_head _ U).
  - apply lv_elem in H as [H1 H2]. split; [apply elem_of_list_further; exact H2|]. split; [|auto]. intros ->. apply N2. apply elem_of_app. auto.
Qed.

Lemma up_insert s key v L R s' : Inv s (L ++ R) -> Up s ->
  Forall (fun y => ltb (ky (s_heap s) y) key = true) L -> Forall (fun y => ltb (ky (s_heap s) y) key = false) R ->
  sk_insert ltb eqb s key v = Ret s' -> Up s'.
Proof.
  intros I U HL HR E. destruct (search_spec zeroK zeroV ltb eqb s key L R I HL HR) as (ctx & Es & HC). pose proof U as [U1 U2 U3 U4 U5].
  unfold sk_insert in E. rewrite Es in E. cbn [rbind] in E. destruct (found zeroK eqb s key R) as [x|] eqn:F.
  - destruct (s_heap s !! x) as [nd|] eqn:En; cbn in E; [|discriminate]. injection E as <-.
    assert (HX : forall i y, nx (<[x := SkNode (sk_key nd) v (sk_next nd) (sk_height nd)]> (s_heap s)) i y = nx (s_heap s) i y).
    { intros i y. unfold nx. destruct (decide (y = x)) as [->|Hy]; [rewrite list_lookup_insert by (eapply lookup_lt_Some; eassumption); rewrite En; reflexivity|rewrite list_lookup_insert_ne by congruence; reflexivity]. }
    assert (HH : forall y, hg (<[x := SkNode (sk_key nd) v (sk_next nd) (sk_height nd)]> (s_heap s)) y = hg (s_heap s) y).
    { intros y. unfold hg. destruct (decide (y = x)) as [->|Hy]; [rewrite list_lookup_insert by (eapply lookup_lt_Some; eassumption); rewrite En; reflexivity|rewrite list_lookup_insert_ne by congruence; reflexivity]. }
    assert (Hx : x ∈ L ++ R). { destruct R as [|y R']; cbn in F; [discriminate|]. destruct (eqb _ _); [|discriminate]. injection F as ->. apply elem_of_app. right. constructor. }
    pose proof (inv_nodup _ _ _ _ I) as N. apply NoDup_cons in N as [N1 N2]. apply NoDup_cons in N2 as [N2 _].
    assert (HE : forall y, y <> x -> ent (<[x := SkNode (sk_key nd) v (sk_next nd) (sk_height nd)]> (s_heap s)) y = ent (s_heap s) y).
    { intros y Hy. unfold ent, SklProofs.ky, vl. rewrite list_lookup_insert_ne by congruence. reflexivity. }
    split; cbn [s_heap s_head s_tail].
    + intros i. rewrite HX. apply U1.
    + rewrite HH. exact U2.
    + intros y i. rewrite HH, HX. apply U3.
    + rewrite !HE; [exact U4| |]; intros Q; [apply N2; rewrite Q; exact Hx|apply N1; rewrite Q; apply elem_of_list_further; exact Hx].
    + rewrite HH. exact U5.
  - pose proof (rand_height_range (s_seed s)) as Hrh. destruct (rand_height (s_seed s)) as [seed level]. cbn in Hrh.
    set (n := length (s_heap s)) in *. set (h0 := s_heap s ++ [SkNode key v (replicate MAX_HEIGHT None) level]) in *.
    assert (Hnew : h0 !! n = Some (SkNode key v (replicate MAX_HEIGHT None) level)). { unfold h0, n. rewrite lookup_app_r, Nat.sub_diag by lia. reflexivity. }
    assert (Hl0 : length h0 = S n) by (unfold h0; rewrite app_length; cbn; unfold n; lia).
    assert (Hold : forall y, y < n -> h0 !! y = s_heap s !! y) by (intros; apply lookup_app_l; assumption).
    assert (Hout : forall y, n < y -> h0 !! y = None) by (intros; apply lookup_ge_None_2; lia).
    assert (Hb : forall y, y ∈ s_head s :: s_tail s :: L ++ R -> y < n) by (intros y Hy; eapply inv_elem_bound; eassumption).
    destruct (link_levels_spec zeroK zeroV ctx n level h0 0) as (h' & E' & _ & _ & Hk' & Hx').
    { apply Forall_app; split; [apply (inv_16 _ _ _ _ I)|]. constructor; [reflexivity|constructor]. }
    { lia. } { lia. }
    { intros j Hj. destruct HC as [HC1 HC2]. destruct (ctx_good s L R ctx j _ I U (conj HC1 HC2) Hj (HC2 j Hj)) as (G1 & _). eexists. split; [apply HC2; exact Hj|].
      assert (last_or (s_head s) (lv (s_heap s) j L) < n) by (apply Hb; rewrite !elem_of_cons, elem_of_app; rewrite elem_of_cons in G1; tauto). lia. }
    rewrite E' in E. cbn [rbind] in E. injection E as <-.
    assert (Hh : forall y, y < n -> hg h' y = hg (s_heap s) y). { intros y Hy. destruct (Hk' y) as (_ & _ & ->). unfold hg. rewrite Hold by exact Hy. reflexivity. }
    assert (Hn : forall y j, y < n -> nx h0 j y = nx (s_heap s) j y). { intros y j Hy. unfold nx. rewrite Hold by exact Hy. reflexivity. }
    assert (He : forall y, y < n -> ent h' y = ent (s_heap s) y). { intros y Hy. unfold ent. destruct (Hk' y) as (-> & -> & _). unfold SklProofs.ky, vl. rewrite Hold by exact Hy. reflexivity. }
    assert (H16 : forall y j, 16 <= j -> y < n -> nx (s_heap s) j y = None).
    { intros y j Hj Hy. unfold nx. destruct (s_heap s !! y) as [nd|] eqn:En; [|reflexivity]. pose proof (inv_16 _ _ _ _ I) as A. unfold all16 in A. rewrite Forall_lookup in A. specialize (A _ _ En). rewrite (lookup_ge_None_2 (sk_next nd) j) by lia. reflexivity. }
    assert (HT : s_tail s < n) by (apply Hb; do 2 constructor). assert (HHd : s_head s < n) by (apply Hb; constructor).
    split; cbn [s_heap s_head s_tail].
    + intros i. rewrite Hx'. destruct (decide (s_tail s = n)); [lia|]. destruct (decide (ctx !! i = Some (s_tail s))) as [Q|Q].
      * destruct (decide (i < 16)) as [Hi|Hi]; [|rewrite lookup_ge_None_2 in Q by (destruct HC; lia); discriminate]. destruct (ctx_good s L R ctx i _ I U HC Hi Q) as (_ & X & _). congruence.
      * rewrite Hn by exact HT. rewrite U1. destruct (decide _); reflexivity.
    + rewrite Hh by exact HHd. exact U2.
    + intros y i H1 H2. rewrite Hx'. destruct (decide (y = n)) as [->|Hyn].
      * assert (Hg : hg h' n = level) by (destruct (Hk' n) as (_ & _ & ->); unfold hg; rewrite Hnew; reflexivity). rewrite Hg in *.
        destruct (decide _); [lia|]. unfold nx. rewrite Hnew. cbn [sk_next]. destruct (replicate MAX_HEIGHT None !! i) as [o|] eqn:Q; [|reflexivity]. apply lookup_replicate_1 in Q as [-> _]. reflexivity.
      * destruct (decide (y < n)) as [Hlt|Hge].
        -- rewrite Hh in H1, H2 by exact Hlt. rewrite Hn by exact Hlt. destruct (decide (ctx !! i = Some y)) as [Q|Q].
           ++ destruct (decide (i < 16)) as [Hi|Hi]; [|rewrite lookup_ge_None_2 in Q by (destruct HC; lia); discriminate]. destruct (ctx_good s L R ctx i _ I U HC Hi Q) as (_ & _ & [X|X]); lia.
           ++ rewrite U3 by assumption. destruct (decide _); reflexivity.
        -- exfalso. destruct (Hk' y) as (_ & _ & G). rewrite G in H1. unfold hg in H1. rewrite Hout in H1 by lia. lia.
    + rewrite !He by assumption. exact U4.
    + rewrite Hh by assumption. exact U5.
Qed.

Lemma up_delete s key L R s' b : Inv s (L ++ R) -> Up s ->
  Forall (fun y => ltb (ky (s_heap s) y) key = true) L -> Forall (fun y => ltb (ky (s_heap s) y) key = false) R ->
  sk_delete ltb eqb s key = Ret (s', b) -> Up s'.
Proof.
  intros I U HL HR E. destruct (search_spec zeroK zeroV ltb eqb s key L R I HL HR) as (ctx & Es & HC). pose proof U as [U1 U2 U3 U4 U5].
  unfold sk_delete in E. rewrite Es in E. cbn [rbind] in E. destruct (found zeroK eqb s key R) as [x|] eqn:F; [|injection E as <- _; exact U].
  assert (Hx : x ∈ L ++ R). { destruct R as [|y R']; cbn in F; [discriminate|]. destruct (eqb _ _); [|discriminate]. injection F as ->. apply elem_of_app. right. constructor. }
  assert (HxL : x ∉ s_head s :: L).
  { destruct R as [|y R']; cbn in F; [discriminate|]. destruct (eqb _ _); [|discriminate]. injection F as ->.
    pose proof (inv_nodup _ _ _ _ I) as N. apply NoDup_cons in N as [N1 N2]. apply NoDup_cons in N2 as [_ N2]. apply NoDup_app in N2 as (_ & N2 & _).
    rewrite elem_of_cons. intros [->|Q]; [apply N1; apply elem_of_list_further; exact Hx|]. apply (N2 _ Q). constructor. }
  assert (Hb : forall y, y ∈ s_head s :: s_tail s :: L ++ R -> y < length (s_heap s)) by (intros y Hy; eapply inv_elem_bound; eassumption).
  destruct (deref_node zeroK zeroV (s_heap s) x) as (nd & En & _ & _ & Eh); [apply Hb; do 2 apply elem_of_list_further; exact Hx|]. rewrite En in E. cbn [deref rbind] in E. rewrite <- Eh in E.
  assert (Hg : 1 <= hg (s_heap s) x <= 16) by (pose proof (inv_hg _ _ _ _ I) as H; rewrite Forall_forall in H; apply H; exact Hx).
  destruct (unlink_levels_spec zeroK zeroV ctx x (hg (s_heap s) x) (s_heap s) 0) as (h' & E' & _ & _ & Hk' & Hx').
  { apply (inv_16 _ _ _ _ I). } { apply Hb; do 2 apply elem_of_list_further; exact Hx. } { lia. }
  { intros j Hj. destruct HC as [HC1 HC2]. destruct (ctx_good s L R ctx j _ I U (conj HC1 HC2) Hj (HC2 j Hj)) as (G1 & _). eexists. split; [apply HC2; exact Hj|].
    split; [apply Hb; rewrite !elem_of_cons, elem_of_app; rewrite elem_of_cons in G1; tauto|]. intros Q. apply HxL. rewrite <- Q. exact G1. }
  rewrite E' in E. cbn [rbind] in E. injection E as <- _. 
  assert (HC16 : forall i c, ctx !! i = Some c -> i < 16) by (intros i c Q; destruct HC as [HC1 _]; apply lookup_lt_Some in Q; lia).
  split; cbn [s_heap s_head s_tail].
  - intros i. rewrite Hx'. destruct (decide (ctx !! i = Some (s_tail s))) as [Q|Q].
    + destruct (ctx_good s L R ctx i _ I U HC (HC16 _ _ Q) Q) as (_ & X & _). congruence.
    + rewrite U1. destruct (decide _); reflexivity.
  - destruct (Hk' (s_head s)) as (_ & _ & ->). exact U2.
  - intros y i. destruct (Hk' y) as (_ & _ & ->). intros H1 H2. rewrite Hx'. destruct (decide (ctx !! i = Some y)) as [Q|Q].
    + destruct (ctx_good s L R ctx i _ I U HC (HC16 _ _ Q) Q) as (_ & _ & [X|X]); lia.
    + rewrite U3 by assumption. destruct (decide _); reflexivity.
  - unfold ent. destruct (Hk' (s_head s)) as (-> & -> & _). destruct (Hk' (s_tail s)) as (-> & -> & _). exact U4.
  - destruct (Hk' (s_tail s)) as (_ & _ & ->). exact U5.
Qed.

Lemma up_new h seed : (forall x i, 1 <= hg h x -> hg h x <= i -> nx h i x = None) -> Up (new_on zeroK zeroV h seed).
Proof.
  intros H. unfold new_on. assert (L1 : forall a b : sknode K V, (h ++ [a; b]) !! length h = Some a) by (intros; rewrite lookup_app_r, Nat.sub_diag by lia; reflexivity).
  assert (L2 : forall a b : sknode K V, (h ++ [a; b]) !! S (length h) = Some b) by (intros; rewrite lookup_app_r by lia; replace (S (length h) - length h) with 1 by lia; reflexivity).
  split; cbn [s_heap s_head s_tail].
  - intros i. unfold nx. rewrite L2. cbn [sk_next]. destruct (replicate MAX_HEIGHT None !! i) as [o|] eqn:Q; [|reflexivity]. apply lookup_replicate_1 in Q as [-> _]. reflexivity.
  - unfold hg. rewrite L1. reflexivity.
  - intros x i. unfold hg, nx. destruct (decide (x < length h)) as [Hx|Hx].
    + rewrite lookup_app_l by exact Hx. apply H.
    + destruct (decide (x = length h)) as [->|N1]; [rewrite L1; cbn; lia|]. destruct (decide (x = S (length h))) as [->|N2]; [rewrite L2; cbn; lia|].
      rewrite lookup_ge_None_2 by (rewrite app_length; cbn; lia). lia.
  - unfold ent, SklProofs.ky, vl. rewrite L1, L2. split; reflexivity.
  - unfold hg. rewrite L2. reflexivity.
Qed.

Lemma up_step s m o s' r : Rel s m -> Up s -> step s o = Ret (s', r) -> Up s'.
Proof.
  destruct o as [c o]. intros (locs & I & _) U E.
  assert (Hsp : forall key, exists L R, locs = L ++ R /\ Forall (fun y => ltb (ky (s_heap s) y) key = true) L /\ Forall (fun y => ltb (ky (s_heap s) y) key = false) R).
  { intros key. apply (split_at_key zeroK ltb eqb SWO). apply (inv_sorted _ _ _ _ I). }
  unfold m_step in E. cbn [fst snd] in E. destruct o as [key v|key|key| | | | | |].
  - destruct (Hsp key) as (L & R & -> & HL & HR). destruct (sk_insert ltb eqb s key v) as [s1| |] eqn:E1; cbn in E; [|discriminate..]. injection E as <- _. eapply up_insert; eassumption.
  - destruct (Hsp key) as (L & R & -> & HL & HR). destruct (sk_delete ltb eqb s key) as [[s1 b]| |] eqn:E1; cbn in E; [|discriminate..]. injection E as <- _. eapply up_delete; eassumption.
  - destruct (sk_get ltb eqb s key); cbn in E; [|discriminate..]. injection E as <- _. exact U.
  - injection E as <- _. exact U.
  - injection E as <- _. apply up_new. apply (up_node _ U).
  - destruct (sk_keys s); cbn in E; [|discriminate..]. injection E as <- _. exact U.
  - destruct (sk_values s); cbn in E; [|discriminate..]. injection E as <- _. exact U.
  - destruct (sk_to_string showK showV s); cbn in E; [|discriminate..]. injection E as <- _. exact U.
  - destruct (sk_to_map eqb s); cbn in E; [|discriminate..]. injection E as <- _. exact U.
Qed.
Lemma up_run hist : forall s m s' rs, Rel s m -> Up s -> run step s hist = (rs, Ret s') -> Up s'.
Proof.
  induction hist as [|o hist IH]; intros s m s' rs HR U; cbn [run]; [intros [= _ <-]; exact U|].
  destruct o as [c o]. destruct (rel_step zeroK zeroV ltb eqb showK showV SWO s m c o HR) as (s1 & E & HR'). rewrite E.
  destruct (run step s1 hist) as [rs1 e] eqn:E1. intros [= _ ->]. eapply IH; [exact HR'| |exact E1]. exact (up_step s m _ _ _ HR U E).
Qed.

(** *** reachability *)
Lemma path_next f x ls e y z : path f x ls e -> y ∈ x :: ls -> f y = Some z -> z ∈ ls ++ [e].
Proof.
  revert x. induction ls as [|a ls IH]; intros x Hp Hy Hz; cbn in Hp.
  - apply elem_of_list_singleton in Hy as ->. rewrite Hp in Hz. injection Hz as <-. constructor.
  - destruct Hp as [H1 H2]. apply elem_of_cons in Hy as [->|Hy]; [rewrite H1 in Hz; injection Hz as <-; constructor|]. cbn. apply elem_of_list_further. eapply IH; eassumption.
Qed.
Lemma path_rtc (r : nat -> nat -> Prop) f x ls e : (forall a b, f a = Some b -> r a b) -> path f x ls e -> forall y, y ∈ x :: ls ++ [e] -> rtc r x y.
Proof.
  intros Hr. revert x. induction ls as [|a ls IH]; intros x Hp y Hy; cbn in Hp.
  - cbn in Hy. rewrite !elem_of_cons, elem_of_nil in Hy. destruct Hy as [->|[->|[]]]; [apply rtc_refl|]. apply rtc_once. apply Hr. exact Hp.
  - destruct Hp as [H1 H2]. apply elem_of_cons in Hy as [->|Hy]; [apply rtc_refl|]. eapply rtc_l; [apply Hr; exact H1|]. apply IH; assumption.
Qed.
Lemma points_nx (h : list (sknode K V)) a b : points h a b <-> exists i, nx h i a = Some b.
Proof.
  unfold points, nx. split.
  - intros (nd & E & H). apply elem_of_list_lookup in H as [i H]. exists i. rewrite E, H. reflexivity.
  - intros [i H]. destruct (h !! a) as [nd|] eqn:E; [|discriminate]. exists nd. split; [reflexivity|]. destruct (sk_next nd !! i) as [o|] eqn:Q; [|discriminate]. subst o. apply elem_of_list_lookup. eauto.
Qed.
Lemma reach_locs s locs : Inv s locs -> Up s -> forall x, reachable (s_heap s) [s_head s; s_tail s] x <-> x ∈ s_head s :: s_tail s :: locs.
Proof.
  intros I U x. pose proof (inv_hg _ _ _ _ I) as HG. split.
  - intros (r & Hr & H). assert (Hr' : r ∈ s_head s :: s_tail s :: locs) by (rewrite !elem_of_cons in *; rewrite elem_of_nil in Hr; tauto). clear Hr.
    induction H as [|a b c Hab H IH]; [exact Hr'|]. apply IH. clear IH H. apply points_nx in Hab as [i Hi].
    assert (Hi16 : i < 16).
    { unfold nx in Hi. destruct (s_heap s !! a) as [nd|] eqn:En; [|discriminate]. pose proof (inv_16 _ _ _ _ I) as A. unfold all16 in A. rewrite Forall_lookup in A. specialize (A _ _ En).
      destruct (decide (i < 16)); [assumption|]. rewrite (lookup_ge_None_2 (sk_next nd) i) in Hi by lia. discriminate. }
    pose proof (inv_path _ _ _ _ I i Hi16) as P. assert (Ha : a ∈ s_head s :: lv (s_heap s) i locs).
    { rewrite !elem_of_cons in Hr'. destruct Hr' as [->|[->|Hr']]; [constructor|rewrite (up_tail _ U) in Hi; discriminate|].
      apply elem_of_list_further. apply lv_elem. split; [|exact Hr']. destruct (decide (i < hg (s_heap s) a)); [assumption|]. rewrite (up_node _ U) in Hi; [discriminate| |lia].
      rewrite Forall_forall in HG. specialize (HG a Hr'). lia. }
    pose proof (path_next _ _ _ _ _ _ P Ha Hi) as Q. rewrite elem_of_app, elem_of_list_singleton in Q. rewrite !elem_of_cons. destruct Q as [Q|Q]; [apply lv_elem in Q; tauto|auto].
  - intros Hx. exists (s_head s). split; [constructor|]. pose proof (inv_path _ _ _ _ I 0 ltac:(lia)) as P. rewrite lv_0 in P by exact HG.
    eapply path_rtc; [|exact P|]; [intros a b Hab; apply points_nx; eauto|]. rewrite !elem_of_cons, elem_of_app, elem_of_list_singleton in *. tauto.
Qed.
End Reach.
