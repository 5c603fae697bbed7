(** Proofs for SklExactProps.v. *)
From Verif Require Import Base Conc SplitMixModel SklSpec SklModel SklProofs SklRefine SklIterProofs SklExactSpec SklExactModel.
From Coq Require Import Sorting.Sorted.

Section E.
Context {K V : Type} (zeroK : K) (zeroV : V) (ltb eqb : K -> K -> bool).
Context (showK : K -> list Z) (showV : V -> list Z).
Context (SWO : strict_weak_order ltb eqb).
Notation skl := (skl K V).
Implicit Types (s : skl) (m : list (K * V)) (locs : list nat) (e : K * V).
Notation ent := (ent zeroK zeroV).
Notation ky := (ky zeroK).
Notation Inv := (Inv zeroK ltb).
Notation found := (found zeroK eqb).
Notation sorted_entries := (sorted_entries ltb).
Notation step := (m_step zeroK zeroV ltb eqb showK showV).
Notation istep := (map_step ltb eqb showK showV).

(** *** what a call does to the nodes *)
Lemma step_shape s locs c o s' r :
  Inv s locs -> o <> MClear -> step s (c, o) = Ret (s', r) ->
  exists locs', Inv s' locs' /\ s_head s' = s_head s /\ s_tail s' = s_tail s /\ frame zeroK s locs' s' /\
    (forall y, y ∈ locs' -> y ∈ locs \/ length (s_heap s) <= y) /\
    (forall y, y ∈ locs -> y ∈ locs' <-> forall k, o = MDel k -> eqb (ky (s_heap s) y) k = false).
Proof.
  intros I Ho Hs. unfold m_step in Hs; cbn [fst snd] in Hs.
  assert (Hsp : forall key, exists L R, locs = L ++ R /\ Forall (fun y => ltb (ky (s_heap s) y) key = true) L /\
              Forall (fun y => ltb (ky (s_heap s) y) key = false) R).
  { intros key. apply (split_at_key _ ltb eqb SWO). apply (inv_sorted _ _ _ _ I). }
  assert (Hsame : s' = s -> (forall k, o = MDel k -> forall y, y ∈ locs -> eqb (ky (s_heap s) y) k = false) -> exists locs', Inv s' locs' /\ s_head s' = s_head s /\ s_tail s' = s_tail s /\ frame zeroK s locs' s' /\
    (forall y, y ∈ locs' -> y ∈ locs \/ length (s_heap s) <= y) /\
    (forall y, y ∈ locs -> y ∈ locs' <-> forall k, o = MDel k -> eqb (ky (s_heap s) y) k = false)).
  { intros -> HK. exists locs. split; [exact I|]. split; [auto|]. split; [auto|]. split; [split; [lia|auto]|]. split; [auto|]. intros y Hy. split; [intros _ k Ek; exact (HK k Ek y Hy)|auto]. }
  destruct o as [key v|key|key| | | | | |]; try congruence.
  - destruct (Hsp key) as (L & R & -> & HL & HR).
    destruct (insert_inv zeroK zeroV ltb eqb SWO s key v L R I HL HR) as (s1 & E & E1 & E2 & Fr & Hs').
    rewrite E in Hs. cbn in Hs. injection Hs as <- _.
    destruct (found s key R) as [x|].
    + destruct Hs' as (I' & _). exists (L ++ R). do 4 (split; [assumption|]). split; [auto|]. intros y Hy. split; [discriminate|auto].
    + destruct Hs' as (I' & _). exists (L ++ length (s_heap s) :: R). do 3 (split; [assumption|]). split; [|split].
      * destruct Fr as (F1 & F2 & F3). split; [exact F1|]. split; [exact F2|]. intros y Hy Hyn. apply F3; [exact Hy|].
        intros Hc. apply Hyn. rewrite elem_of_cons, elem_of_app in *. rewrite elem_of_cons. tauto.
      * intros y Hy. rewrite elem_of_app, elem_of_cons in Hy. rewrite elem_of_app. destruct Hy as [Hy|[->|Hy]]; auto.
      * intros y Hy. split; [discriminate|]. intros _. rewrite elem_of_app in *. rewrite elem_of_cons. tauto.
  - destruct (Hsp key) as (L & R & -> & HL & HR).
    pose proof (delete_inv zeroK zeroV ltb eqb s key L R I HL HR) as Hd.
    destruct (classify zeroK ltb eqb SWO s key L R I HL HR) as [CL CR].
    destruct (found s key R) as [x|].
    + destruct CR as (R' & -> & Hx & CR). destruct Hd as (R2 & s1 & HR2 & E & E1 & E2 & Fr & _ & I' & Hent). injection HR2 as <-.
      rewrite E in Hs. cbn in Hs. injection Hs as <- _. exists (L ++ R'). do 4 (split; [assumption|]). split.
      * intros y Hy. left. rewrite elem_of_app in *. rewrite elem_of_cons. tauto.
      * intros y Hy. rewrite elem_of_app in *. rewrite elem_of_cons in Hy. rewrite Forall_forall in CL, CR. split.
        -- intros Hy' k [= <-]. destruct Hy' as [H|H]; [exact (CL y H)|exact (CR y H)].
        -- intros Hk. specialize (Hk key eq_refl). destruct Hy as [H|[->|H]]; [auto|congruence|auto].
    + rewrite Hd in Hs. cbn in Hs. injection Hs as <- _. apply Hsame; [reflexivity|]. intros k [= <-] y Hy. rewrite Forall_forall in CL, CR.
      rewrite elem_of_app in Hy. destruct Hy as [H|H]; [exact (CL y H)|exact (CR y H)].
  - destruct (sk_get ltb eqb s key); cbn in Hs; try discriminate. injection Hs as <- _. apply Hsame; [reflexivity|discriminate].
  - injection Hs as <- _. apply Hsame; [reflexivity|discriminate].
  - destruct (sk_keys s); cbn in Hs; try discriminate. injection Hs as <- _. apply Hsame; [reflexivity|discriminate].
  - destruct (sk_values s); cbn in Hs; try discriminate. injection Hs as <- _. apply Hsame; [reflexivity|discriminate].
  - destruct (sk_to_string showK showV s); cbn in Hs; try discriminate. injection Hs as <- _. apply Hsame; [reflexivity|discriminate].
  - destruct (sk_to_map eqb s); cbn in Hs; try discriminate. injection Hs as <- _. apply Hsame; [reflexivity|discriminate].
Qed.

(** *** the entries above a live node, and from it on *)
Lemma split_entries s A x B m : Inv s (A ++ x :: B) -> m ≡ₚ ent (s_heap s) <$> (A ++ x :: B) ->
  above ltb m (ky (s_heap s) x) = ent (s_heap s) <$> B /\ from ltb m (ky (s_heap s) x) = ent (s_heap s) <$> (x :: B).
Proof.
  intros I HP. unfold above, from. rewrite (rel_entries zeroK zeroV ltb eqb SWO s _ m I HP).
  pose proof (inv_sorted _ _ _ _ I) as HS. apply StronglySorted_app_inv in HS as (_ & HS & HAB). apply StronglySorted_inv in HS as [_ HS].
  assert (HA : Forall (fun y => ltb (ky (s_heap s) y) (ky (s_heap s) x) = true) A).
  { rewrite Forall_forall. intros y Hy. apply (HAB y x); [exact Hy|constructor]. }
  rewrite fmap_app, !filter_app, fmap_cons.
  assert (F1 : filter (fun e => ltb (ky (s_heap s) x) e.1 = true) (ent (s_heap s) <$> A) = []).
  { clear -SWO HA. induction HA as [|y A Hy HA IH]; [reflexivity|]. rewrite fmap_cons. rewrite filter_cons_False; [exact IH|]. cbn. rewrite (lt_nlt _ _ SWO _ _ Hy). discriminate. }
  assert (F2 : filter (fun e => ltb e.1 (ky (s_heap s) x) = false) (ent (s_heap s) <$> A) = []).
  { clear -HA. induction HA as [|y A Hy HA IH]; [reflexivity|]. rewrite fmap_cons. rewrite filter_cons_False; [exact IH|]. cbn. rewrite Hy. discriminate. }
  assert (F3 : filter (fun e => ltb (ky (s_heap s) x) e.1 = true) (ent (s_heap s) <$> B) = ent (s_heap s) <$> B).
  { clear -HS. induction HS as [|y B Hy HS IH]; [reflexivity|]. rewrite fmap_cons. rewrite filter_cons_True; [f_equal; exact IH|exact Hy]. }
  assert (F4 : filter (fun e => ltb e.1 (ky (s_heap s) x) = false) (ent (s_heap s) <$> B) = ent (s_heap s) <$> B).
  { clear -HS SWO. induction HS as [|y B Hy HS IH]; [reflexivity|]. rewrite fmap_cons. rewrite filter_cons_True; [f_equal; exact IH|]. cbn. apply (lt_nlt _ _ SWO). exact Hy. }
  rewrite F1, F2. cbn [app]. rewrite filter_cons_False by (cbn; rewrite (lt_irrefl _ _ SWO); discriminate). rewrite filter_cons_True by (cbn; apply (lt_irrefl _ _ SWO)).
  rewrite F3, F4. auto.
Qed.
Lemma live_path s A x B : Inv s (A ++ x :: B) -> path (nx (s_heap s) 0) x B (s_tail s).
Proof.
  intros I. pose proof (inv_path _ _ _ _ I 0 ltac:(lia)) as Hp. rewrite lv_0 in Hp by apply (inv_hg _ _ _ _ I).
  change (x :: B) with ([x] ++ B) in Hp. rewrite app_assoc in Hp. apply path_app in Hp. unfold last_or in Hp. rewrite last_snoc in Hp. exact Hp.
Qed.
Lemma path_snoc f x ls z (e : nat) : path f x ls z -> f z = Some e -> path f x (ls ++ [z]) e.
Proof. revert x. induction ls as [|y ls IH]; intros x; cbn; [auto|]. intros [H1 H2] H3. split; [exact H1|]. apply IH; assumption. Qed.
Lemma path_join f x ls z ls' (e : nat) : path f x ls z -> path f z ls' e -> path f x (ls ++ z :: ls') e.
Proof. revert x. induction ls as [|y ls IH]; intros x; cbn; [auto|]. intros [H1 H2] H3. split; [exact H1|]. apply IH; assumption. Qed.

(** *** where an iterator stands *)
Definition off s locs (y : nat) : Prop := y < length (s_heap s) /\ y <> s_head s /\ y <> s_tail s /\ y ∉ locs.
Definition at_target s locs (z : nat) (t : target K) : Prop :=
  match t with
  | TKey k => z ∈ locs /\ ky (s_heap s) z = k
  | TEnd => z = s_tail s
  | TOld => off s locs z /\ ent (s_heap s) z = (zeroK, zeroV) /\ nx (s_heap s) 0 z = None
  end.
Definition at_place s locs (it : iter) (c : place K V) : Prop :=
  match c with
  | PStart => it = None
  | POn k => exists x, it = Some x /\ x ∈ locs /\ ky (s_heap s) x = k
  | POff ds t => exists x xs z, it = Some x /\ path (nx (s_heap s) 0) x xs z /\ Forall (off s locs) (x :: xs) /\ ent (s_heap s) <$> xs = ds /\ at_target s locs z t
  | PDone => exists x, it = Some x /\ x < length (s_heap s) /\ x <> s_head s /\ x ∉ locs /\ nx (s_heap s) 0 x = None
  end.
Record X (st : skl * (nat -> iter)) (a : list (K * V) * (nat -> place K V)) locs : Prop := {
  x_inv : Inv st.1 locs;
  x_map : a.1 ≡ₚ ent (s_heap st.1) <$> locs;
  x_tail : ent (s_heap st.1) (s_tail st.1) = (zeroK, zeroV);
  x_at : forall i, at_place st.1 locs (st.2 i) (a.2 i) }.

Lemma same_node h h' y : h' !! y = h !! y -> ent h' y = ent h y /\ nx h' 0 y = nx h 0 y.
Proof. intros E. unfold ent, SklProofs.ky, vl, nx. rewrite E. auto. Qed.
Lemma ents_same h h' (l : list nat) : (forall y, y ∈ l -> h' !! y = h !! y) -> ent h' <$> l = ent h <$> l.
Proof. intros H. induction l as [|y l IH]; [reflexivity|]. rewrite !fmap_cons. rewrite (proj1 (same_node h h' y (H y ltac:(constructor)))), IH; [reflexivity|]. intros z Hz. apply H. right. exact Hz. Qed.

(** a call other than Clear *)
Lemma place_map s s' locs locs' m o it c :
  Inv s locs -> Inv s' locs' -> m ≡ₚ ent (s_heap s) <$> locs -> s_head s' = s_head s -> s_tail s' = s_tail s -> frame zeroK s locs' s' ->
  (forall y, y ∈ locs' -> y ∈ locs \/ length (s_heap s) <= y) ->
  (forall y, y ∈ locs -> y ∈ locs' <-> forall k, o = MDel k -> eqb (ky (s_heap s) y) k = false) ->
  o <> MClear -> at_place s locs it c -> at_place s' locs' it (place_after ltb eqb m o c).
Proof.
  intros I I' HP Eh Et (F1 & F2 & F3) Hsub Hlive Ho HC.
  assert (Hoff : forall y, off s locs y -> off s' locs' y /\ s_heap s' !! y = s_heap s !! y).
  { intros y (H1 & H2 & H3 & H4). assert (y ∉ locs') by (intros Hy; destruct (Hsub y Hy); [tauto|lia]). split; [|apply F3; [exact H1|rewrite elem_of_cons; tauto]].
    unfold off. rewrite Eh, Et. repeat split; try assumption; lia. }
  assert (Hkeep : forall y, y ∈ locs -> y ∈ locs' -> ky (s_heap s') y = ky (s_heap s) y).
  { intros y H1 _. apply F2. eapply inv_elem_bound; [exact I|]. do 2 apply elem_of_list_further. exact H1. }
  assert (Hgone : forall y, y ∈ locs -> y ∉ locs' -> off s' locs' y /\ s_heap s' !! y = s_heap s !! y).
  { intros y H1 H2. pose proof (inv_nodup _ _ _ _ I) as HN. apply NoDup_cons in HN as [N1 HN]. apply NoDup_cons in HN as [N2 _]. rewrite elem_of_cons in N1.
    assert (y < length (s_heap s)) by (eapply inv_elem_bound; [exact I|]; do 2 apply elem_of_list_further; exact H1).
    assert (y <> s_head s) by (intros ->; tauto). assert (y <> s_tail s) by (intros ->; tauto).
    split; [|apply F3; [assumption|rewrite elem_of_cons; tauto]]. unfold off. rewrite Eh, Et. repeat split; try assumption; lia. }
  assert (Hpath : forall x xs z, path (nx (s_heap s) 0) x xs z -> Forall (off s locs) (x :: xs) -> path (nx (s_heap s') 0) x xs z /\ Forall (off s' locs') (x :: xs) /\ ent (s_heap s') <$> xs = ent (s_heap s) <$> xs).
  { intros x xs z H1 H2. rewrite Forall_forall in H2. split; [|split].
    - eapply path_ext; [|exact H1]. intros y Hy. apply same_node. apply Hoff. apply H2. exact Hy.
    - rewrite Forall_forall. intros y Hy. apply Hoff. apply H2. exact Hy.
    - apply ents_same. intros y Hy. apply Hoff. apply H2. right. exact Hy. }
  (* where a deleted live node points *)
  assert (Hdel : forall x k, x ∈ locs -> o = MDel k -> eqb (ky (s_heap s) x) k = true ->
            exists z, nx (s_heap s) 0 x = Some z /\ at_target s' locs' z (target_of (above ltb m (ky (s_heap s) x))) /\ x ∉ locs' /\ take 1 (from ltb m (ky (s_heap s) x)) = [ent (s_heap s) x]).
  { intros x k Hx -> Hk. assert (Hx' : x ∉ locs') by (intros H; apply (Hlive x Hx) with (k := k) in H; [congruence|reflexivity]).
    apply elem_of_list_split in Hx as (A & B & ->). destruct (split_entries s A x B m I HP) as [-> ->]. pose proof (live_path s A x B I) as Hp.
    destruct B as [|z B]; cbn in Hp |- *.
    - exists (s_tail s). rewrite Et. auto.
    - destruct Hp as [Hp _]. exists z. split; [exact Hp|]. split; [|auto]. assert (Hz : z ∈ A ++ x :: z :: B) by (rewrite elem_of_app, !elem_of_cons; tauto).
      assert (Hz' : z ∈ locs'). { apply (Hlive z Hz). intros k0 [= <-]. pose proof (inv_sorted _ _ _ _ I) as HS. apply StronglySorted_app_inv in HS as (_ & HS & _).
        apply StronglySorted_inv in HS as [_ HS]. apply Forall_cons in HS as [HS _]. apply (gt_eqb _ _ SWO). eapply (lt_eq_lt _ _ SWO); eassumption. }
      split; [exact Hz'|]. rewrite (Hkeep z Hz Hz'). reflexivity. }
  assert (Hsame : (forall x k k0, o = MDel k -> x ∈ locs -> ky (s_heap s) x = k0 -> (c = POn k0 \/ exists ds, c = POff ds (TKey k0)) -> eqb k0 k = false) -> at_place s' locs' it c).
  { intros HN. destruct c as [|k|ds t|]; cbn in HC |- *.
    - exact HC.
    - destruct HC as (x & -> & Hx & Ek). exists x. split; [reflexivity|]. assert (Hx' : x ∈ locs') by (apply (Hlive x Hx); intros k0 Ek0; rewrite Ek; eapply HN; eauto).
      split; [exact Hx'|]. rewrite Hkeep by assumption. exact Ek.
    - destruct HC as (x & xs & z & -> & H1 & H2 & H3 & H4). destruct (Hpath _ _ _ H1 H2) as (G1 & G2 & G3). exists x, xs, z. split; [reflexivity|]. split; [exact G1|]. split; [exact G2|].
      split; [congruence|]. destruct t as [k| |]; cbn in H4 |- *.
      + destruct H4 as [H4 Ek]. assert (Hx' : z ∈ locs') by (apply (Hlive z H4); intros k0 Ek0; rewrite Ek; eapply HN; eauto). split; [exact Hx'|]. rewrite Hkeep by assumption. exact Ek.
      + congruence.
      + destruct H4 as (H4 & H5 & H6). destruct (Hoff z H4) as [J1 J2]. destruct (same_node _ _ z J2) as [J3 J4]. rewrite J3, J4. auto.
    - destruct HC as (x & -> & H1 & H2 & H3 & H4). exists x. split; [reflexivity|]. split; [lia|]. split; [congruence|].
      assert (Hx' : x ∉ locs') by (intros Hy; destruct (Hsub x Hy); [tauto|lia]). split; [exact Hx'|].
      rewrite <- H4. apply same_node. apply F3; [exact H1|]. rewrite elem_of_cons. tauto. }
  destruct o as [| k' | | | | | | | ]; try congruence; try (apply Hsame; discriminate).
  destruct c as [|k|ds [k| |]|]; cbn [place_after]; try (apply Hsame; intros ? ? ? _ _ _ [?|[? ?]]; congruence).
  - destruct (eqb k k') eqn:Ek; [|apply Hsame; intros x k1 k0 [= <-] _ _ [[= <-]|[? ?]]; congruence].
    destruct HC as (x & -> & Hx & <-). destruct (Hdel x k' Hx eq_refl Ek) as (z & E1 & E2 & E3 & _). destruct (Hgone x Hx E3) as [G1 G2].
    cbn. exists x, [], z. split; [reflexivity|]. split; [cbn; rewrite (proj2 (same_node _ _ x G2)); exact E1|]. split; [constructor; [exact G1|constructor]|]. split; [reflexivity|exact E2].
  - destruct (eqb k k') eqn:Ek; [|apply Hsame; intros x k1 k0 [= <-] _ _ [?|[? [= <-]]]; congruence].
    destruct HC as (x & xs & z & -> & H1 & H2 & H3 & H4). destruct H4 as [H4 H5]. subst k. destruct (Hdel z k' H4 eq_refl Ek) as (z' & E1 & E2 & E3 & E4). destruct (Hgone z H4 E3) as [G1 G2].
    destruct (Hpath _ _ _ H1 H2) as (P1 & P2 & P3). cbn. exists x, (xs ++ [z]), z'. split; [reflexivity|]. split.
    + apply path_snoc; [exact P1|]. rewrite (proj2 (same_node _ _ z G2)). exact E1.
    + split; [|split; [|exact E2]].
      * change (x :: xs ++ [z]) with ((x :: xs) ++ [z]). apply Forall_app. split; [exact P2|constructor; [exact G1|constructor]].
      * rewrite fmap_app, P3, H3, E4. cbn. rewrite (proj1 (same_node _ _ z G2)). reflexivity.
Qed.

(** Clear *)
Lemma place_clear s locs m it c seed : Inv s locs -> m ≡ₚ ent (s_heap s) <$> locs -> ent (s_heap s) (s_tail s) = (zeroK, zeroV) -> at_place s locs it c ->
  at_place (sk_clear zeroK zeroV s seed) [] it (place_after ltb eqb m MClear c).
Proof.
  intros I HP HT HC. set (s' := sk_clear zeroK zeroV s seed).
  assert (Hold : forall y, y < length (s_heap s) -> off s' [] y /\ s_heap s' !! y = s_heap s !! y).
  { intros y Hy. unfold s', sk_clear, new_on, off; cbn [s_heap s_head s_tail]. rewrite app_length. cbn [length]. split; [split; [lia|]; split; [lia|]; split; [lia|]; intros H; inversion H|].
    apply lookup_app_l. exact Hy. }
  assert (Hb : forall y, y ∈ locs -> y < length (s_heap s)) by (intros y Hy; eapply inv_elem_bound; [exact I|]; do 2 apply elem_of_list_further; exact Hy).
  assert (Hpath : forall x xs z, path (nx (s_heap s) 0) x xs z -> Forall (fun y => y < length (s_heap s)) (x :: xs) -> path (nx (s_heap s') 0) x xs z /\ Forall (off s' []) (x :: xs) /\ ent (s_heap s') <$> xs = ent (s_heap s) <$> xs).
  { intros x xs z H1 H2. rewrite Forall_forall in H2. split; [|split].
    - eapply path_ext; [|exact H1]. intros y Hy. apply same_node. apply Hold. apply H2. exact Hy.
    - rewrite Forall_forall. intros y Hy. apply Hold. apply H2. exact Hy.
    - apply ents_same. intros y Hy. apply Hold. apply H2. right. exact Hy. }
  assert (Htail : s_tail s < length (s_heap s)) by (eapply inv_elem_bound; [exact I|]; right; left).
  assert (Hold_tail : at_target s' [] (s_tail s) TOld).
  { destruct (Hold _ Htail) as [G1 G2]. destruct (same_node _ _ _ G2) as [G3 G4]. unfold at_target. rewrite G3, G4. split; [exact G1|]. split; [exact HT|]. apply (inv_tail _ _ _ _ I). }
  destruct c as [|k|ds [k| |]|]; cbn [place_after].
  - exact HC.
  - destruct HC as (x & -> & Hx & <-). apply elem_of_list_split in Hx as (A & B & ->). destruct (split_entries s A x B m I HP) as [-> _].
    pose proof (live_path s A x B I) as Hp. destruct (Hpath x B (s_tail s) Hp) as (P1 & P2 & P3). { rewrite Forall_forall. intros y Hy. apply Hb. rewrite elem_of_app. right. exact Hy. }
    exists x, B, (s_tail s). auto.
  - destruct HC as (x & xs & z & -> & H1 & H2 & H3 & Hz & <-). apply elem_of_list_split in Hz as (A & B & ->). destruct (split_entries s A z B m I HP) as [_ ->].
    pose proof (live_path s A z B I) as Hp. destruct (Hpath x (xs ++ z :: B) (s_tail s)) as (P1 & P2 & P3).
    { eapply path_join; eassumption. }
    { change (x :: xs ++ z :: B) with ((x :: xs) ++ z :: B). apply Forall_app. split; [eapply Forall_impl; [exact H2|]; intros y Hy; apply Hy|]. rewrite Forall_forall. intros y Hy. apply Hb. rewrite elem_of_app. right. exact Hy. }
    exists x, (xs ++ z :: B), (s_tail s). split; [reflexivity|]. split; [exact P1|]. split; [exact P2|]. split; [|exact Hold_tail]. rewrite P3, fmap_app, H3. reflexivity.
  - destruct HC as (x & xs & z & -> & H1 & H2 & H3 & ->). destruct (Hpath x xs _ H1) as (P1 & P2 & P3). { eapply Forall_impl; [exact H2|]. intros y Hy. apply Hy. }
    exists x, xs, (s_tail s). split; [reflexivity|]. split; [exact P1|]. split; [exact P2|]. split; [congruence|exact Hold_tail].
  - destruct HC as (x & xs & z & -> & H1 & H2 & H3 & H4 & H5 & H6). destruct (Hpath x xs _ H1) as (P1 & P2 & P3). { eapply Forall_impl; [exact H2|]. intros y Hy. apply Hy. }
    destruct (Hold z (proj1 H4)) as [G1 G2]. destruct (same_node _ _ _ G2) as [G3 G4].
    exists x, xs, z. split; [reflexivity|]. split; [exact P1|]. split; [exact P2|]. split; [congruence|]. unfold at_target. rewrite G3, G4. auto.
  - destruct HC as (x & -> & H1 & H2 & H3 & H4). destruct (Hold x H1) as [G1 G2]. destruct (same_node _ _ _ G2) as [G3 G4]. exists x. split; [reflexivity|].
    split; [apply G1|]. split; [apply G1|]. split; [apply G1|]. rewrite G4. exact H4.
Qed.

Lemma next_from s locs y z : Inv s locs -> y < length (s_heap s) -> nx (s_heap s) 0 y = z ->
  it_next s (Some y) = match z with None => Panic | Some z => if (z =? s_tail s)%nat then Ret (Some z, None)
      else let! nd := deref (s_heap s !! z) in Ret (Some z, Some (sk_key nd, sk_value nd)) end.
Proof.
  intros I Hy <-. unfold it_next. rewrite get_next_nx by (try apply (inv_16 _ _ _ _ I); auto; lia). cbn [rbind]. destruct (nx (s_heap s) 0 y); reflexivity.
Qed.
(** Next *)
Lemma place_next_ok s locs m it c : Inv s locs -> m ≡ₚ ent (s_heap s) <$> locs -> ent (s_heap s) (s_tail s) = (zeroK, zeroV) -> at_place s locs it c ->
  match place_next zeroK zeroV ltb m c with
  | Ret (c', a) => exists it', it_next s it = Ret (it', a) /\ at_place s locs it' c'
  | Panic => it_next s it = Panic
  | Spin => False
  end.
Proof.
  intros I HP HT HC.
  pose proof (inv_nodup _ _ _ _ I) as HN. apply NoDup_cons in HN as [N1 HN]. apply NoDup_cons in HN as [N2 _]. rewrite elem_of_cons in N1.
  assert (Hread : forall z, z < length (s_heap s) -> (let! nd := deref (s_heap s !! z) in Ret (Some z, Some (sk_key nd, sk_value nd))) = Ret (Some z, Some (ent (s_heap s) z))).
  { intros z Hz. destruct (deref_node zeroK zeroV (s_heap s) z Hz) as (nd & En & Ek & Ev & _). rewrite En. cbn [deref rbind]. unfold ent. rewrite Ek, Ev. reflexivity. }
  assert (Hdone : at_place s locs (Some (s_tail s)) PDone).
  { cbn. exists (s_tail s). split; [reflexivity|]. split; [eapply inv_elem_bound; [exact I|]; right; left|]. split; [intros E; apply N1; left; congruence|]. split; [exact N2|apply (inv_tail _ _ _ _ I)]. }
  assert (Hlive : forall y z, y ∈ locs -> it_next s (Some z) = Ret (Some y, Some (ent (s_heap s) y)) -> True) by auto. clear Hlive.
  assert (Hfirst : forall L R it0, locs = L ++ R -> (it0 = Some (last_or (s_head s) L) \/ it0 = None /\ L = []) ->
            let '(c', a) := on_first (ent (s_heap s) <$> R) in exists it', it_next s it0 = Ret (it', a) /\ at_place s locs it' c').
  { intros L R it0 -> H. pose proof (next_spec zeroK zeroV ltb s _ L R I eq_refl it0 H) as E. destruct R as [|y R]; cbn.
    - exists (Some (s_tail s)). split; [exact E|exact Hdone].
    - exists (Some y). split; [exact E|]. exists y. split; [reflexivity|]. split; [rewrite elem_of_app, elem_of_cons; tauto|reflexivity]. }
  destruct c as [|k|[|d ds] t|]; cbn [place_next].
  - cbn in HC. subst it. rewrite (rel_entries zeroK zeroV ltb eqb SWO s locs m I HP). specialize (Hfirst [] locs None eq_refl ltac:(auto)). destruct (on_first (ent (s_heap s) <$> locs)) as [c' a]. exact Hfirst.
  - destruct HC as (x & -> & Hx & <-). apply elem_of_list_split in Hx as (A & B & ->). destruct (split_entries s A x B m I HP) as [-> _].
    specialize (Hfirst (A ++ [x]) B (Some x)). rewrite <- app_assoc in Hfirst. specialize (Hfirst eq_refl). unfold last_or in Hfirst. rewrite last_snoc in Hfirst. cbn [default] in Hfirst. specialize (Hfirst ltac:(auto)).
    destruct (on_first (ent (s_heap s) <$> B)) as [c' a]. exact Hfirst.
  - destruct HC as (x & xs & z & -> & H1 & H2 & H3 & H4). destruct xs; [|discriminate]. cbn in H1. apply Forall_cons in H2 as [(G1 & G2 & G3 & G4) _].
    pose proof (next_from s locs x _ I G1 H1) as EN. cbn in EN. destruct t as [k| |]; cbn in H4 |- *.
    + destruct H4 as [Hz <-]. destruct (Nat.eqb_spec z (s_tail s)) as [->|_]; [tauto|]. rewrite Hread in EN by (eapply inv_elem_bound; [exact I|]; do 2 right; exact Hz).
      pose proof Hz as Hz0. apply elem_of_list_split in Hz as (A & B & ->). destruct (split_entries s A z B m I HP) as [_ ->]. cbn. exists (Some z). split; [exact EN|]. exists z. auto.
    + subst z. rewrite Nat.eqb_refl in EN. exists (Some (s_tail s)). auto.
    + destruct H4 as ((J1 & J2 & J3 & J4) & H5 & H6). destruct (Nat.eqb_spec z (s_tail s)) as [->|_]; [congruence|]. rewrite Hread in EN by exact J1. rewrite H5 in EN. exists (Some z). split; [exact EN|].
      exists z. auto.
  - destruct HC as (x & xs & z & -> & H1 & H2 & H3 & H4). destruct xs as [|y xs]; [discriminate|]. cbn in H3. injection H3 as <- <-. destruct H1 as [H1 H1']. apply Forall_cons in H2 as [(G1 & _) H2].
    pose proof (next_from s locs x _ I G1 H1) as EN. cbn in EN. pose proof H2 as H2'. apply Forall_cons in H2' as [(J1 & J2 & J3 & J4) _]. destruct (Nat.eqb_spec y (s_tail s)) as [->|_]; [congruence|].
    rewrite Hread in EN by exact J1. exists (Some y). split; [exact EN|]. exists y, xs, z. auto.
  - destruct HC as (x & -> & H1 & H2 & H3 & H4). rewrite (next_from s locs x _ I H1 H4). reflexivity.
Qed.

Lemma exact_sim st a c o : (exists locs, X st a locs) ->
  match exact_step zeroK zeroV ltb eqb showK showV a o with
  | Ret (a', r) => exists st', x_step zeroK zeroV ltb eqb showK showV st (c, o) = Ret (st', r) /\ exists locs, X st' a' locs
  | Panic => x_step zeroK zeroV ltb eqb showK showV st (c, o) = Panic
  | Spin => x_step zeroK zeroV ltb eqb showK showV st (c, o) = Spin
  end.
Proof.
  intros (locs & [HI HP HT HA]). destruct st as [s its], a as [m cs]. cbn [fst snd] in *. destruct o as [o|i|i k|i]; unfold x_step, exact_step; cbn [fst snd].
  - destruct (rel_step zeroK zeroV ltb eqb showK showV SWO s m c o ltac:(exists locs; split; assumption)) as (s' & Es & locs2 & I2 & P2).
    rewrite Es. cbn [rbind]. destruct (istep m o) as [m' r] eqn:Ei. cbn [fst snd] in *. eexists. split; [reflexivity|].
    assert (HD : o = MClear \/ o <> MClear) by (destruct o; auto; right; discriminate). destruct HD as [->|Ho].
    + unfold m_step in Es. cbn in Es. injection Es as <- Er. exists []. assert (In : Inv (sk_clear zeroK zeroV s c) []) by (apply (new_inv zeroK zeroV ltb (s_heap s) c); apply (inv_16 _ _ _ _ HI)).
      cbn in Ei. injection Ei as <- <-. constructor; cbn [fst snd].
      * exact In.
      * reflexivity.
      * unfold sk_clear, new_on; cbn [s_heap s_tail]. unfold ent, SklProofs.ky, vl. rewrite lookup_app_r by lia. replace (S (length (s_heap s)) - length (s_heap s)) with 1 by lia. reflexivity.
      * intros i. apply (place_clear s locs m _ _ c HI HP HT (HA i)).
    + destruct (step_shape s locs c o s' _ HI Ho Es) as (locs' & I' & Eh & Et & Fr & Hsub & Hlive). exists locs'. constructor; cbn [fst snd].
      * exact I'.
      * pose proof (entries_spec zeroK zeroV ltb s' locs2 I2) as E1. pose proof (entries_spec zeroK zeroV ltb s' locs' I') as E2. rewrite E1 in E2. injection E2 as E2. rewrite P2, E2. reflexivity.
      * rewrite Et, <- HT. apply same_node. destruct Fr as (F1 & F2 & F3). apply F3; [eapply inv_elem_bound; [exact HI|]; right; left|]. pose proof (inv_nodup _ _ _ _ I') as HN.
        apply NoDup_cons in HN as [N1 HN]. apply NoDup_cons in HN as [N2 _]. rewrite Eh, Et in *. rewrite elem_of_cons in *. intros [E|E]; [apply N1; left; congruence|tauto].
      * intros i. apply (place_map s s' locs locs' m o _ _ HI I' HP Eh Et Fr Hsub Hlive Ho (HA i)).
  - pose proof (place_next_ok s locs m (its i) (cs i) HI HP HT (HA i)) as HX. destruct (place_next zeroK zeroV ltb m (cs i)) as [[c' a]| |]; cbn [rbind].
    + destruct HX as (it' & E & HX). rewrite E. cbn [rbind]. eexists. split; [reflexivity|]. exists locs. constructor; cbn [fst snd]; try assumption. intros j. unfold tset. destruct (decide (j = i)); [exact HX|apply HA].
    + rewrite HX. reflexivity.
    + contradiction.
  - destruct (cursor_seek_rel zeroK zeroV ltb eqb showK showV SWO s None m Start k) as (it' & E & locs2 & I2 & P2 & HC); [exists locs; split; [exact HI|]; split; [exact HP|reflexivity]|].
    rewrite E. cbn [rbind]. eexists. split; [reflexivity|]. cbn [fst snd] in *.
    assert (El : locs2 = locs).
    { pose proof (inv_path _ _ _ _ HI 0 ltac:(lia)) as Q1. rewrite lv_0 in Q1 by apply (inv_hg _ _ _ _ HI). pose proof (inv_path _ _ _ _ I2 0 ltac:(lia)) as Q2. rewrite lv_0 in Q2 by apply (inv_hg _ _ _ _ I2).
      pose proof (inv_nodup _ _ _ _ HI) as N1. apply NoDup_cons in N1 as [_ N1]. apply NoDup_cons in N1 as [N1 _]. pose proof (inv_nodup _ _ _ _ I2) as N2. apply NoDup_cons in N2 as [_ N2]. apply NoDup_cons in N2 as [N2 _].
      revert Q1 Q2 N1 N2. generalize (s_head s) as x. clear. revert locs2. induction locs as [|y l IH]; intros [|y2 l2] x Q1 Q2 N1 N2; cbn in Q1, Q2; [reflexivity|destruct Q2; exfalso; apply N2; assert (s_tail s = y2) as -> by congruence; left|destruct Q1; exfalso; apply N1; assert (s_tail s = y) as -> by congruence; left|].
      destruct Q1 as [Q1 Q1'], Q2 as [Q2 Q2']. assert (y2 = y) as -> by congruence. f_equal. apply (IH l2 y); auto; intros H; [apply N1|apply N2]; right; exact H. }
    subst locs2. exists locs. constructor; cbn [fst snd]; try assumption. intros j. unfold tset. destruct (decide (j = i)); [|apply HA].
    destruct (head (filter (fun e => eqb e.1 k = true) m)) as [e0|]; cbn in HC |- *; [|exact HC]. destruct HC as (x & Hx & -> & Ek). exists x. auto.
  - eexists. split; [reflexivity|]. exists locs. constructor; cbn [fst snd]; try assumption. intros j. unfold tset. destruct (decide (j = i)); [reflexivity|apply HA].
Qed.
End E.
