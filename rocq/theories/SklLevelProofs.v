From Verif Require Import Base SplitMixModel SklSpec SklModel SklProofs SklRefine SklLevelModel.
From Coq Require Import Sorting.Sorted.

Lemma perm_eq {A} (l l' : list A) : l = l' -> l ≡ₚ l'.
Proof. intros ->. reflexivity. Qed.
Lemma sum_snoc (f : nat -> nat) n : sum_list (f <$> seq 0 (S n)) = sum_list (f <$> seq 0 n) + f n.
Proof. rewrite seq_S, fmap_app, sum_list_with_app. cbn. unfold id. lia. Qed.
(** *** heights of the nodes *)
Section Heights.
Context {K V : Type} (ltb eqb : K -> K -> bool).
Notation skl := (skl K V).
Notation hts h := (sk_height <$> h).
Lemma set_next_hts (h : list (sknode K V)) x i v h' : set_next h x i v = Ret h' -> hts h' = hts h.
Proof.
  unfold set_next. destruct (h !! x) as [nd|] eqn:E; cbn; [|discriminate]. intros [= <-]. rewrite list_fmap_insert. cbn.
  apply list_insert_id. rewrite list_lookup_fmap, E. reflexivity.
Qed.
Lemma link_hts node ctx n : forall (h : list (sknode K V)) i h', sk_link_levels h node ctx n i = Ret h' -> hts h' = hts h.
Proof.
  induction n as [|n IH]; intros h i h'; cbn; [intros [= <-]; reflexivity|].
  destruct (deref (ctx !! i)) as [c| |]; cbn; [|discriminate..]. destruct (get_next h c i) as [v| |]; cbn; [|discriminate..].
  destruct (set_next h node i v) as [h1| |] eqn:E1; cbn; [|discriminate..]. destruct (set_next h1 c i (Some node)) as [h2| |] eqn:E2; cbn; [|discriminate..].
  intros E. apply IH in E. apply set_next_hts in E1, E2. congruence.
Qed.
Lemma unlink_hts x ctx n : forall (h : list (sknode K V)) i h', sk_unlink_levels h x ctx n i = Ret h' -> hts h' = hts h.
Proof.
  induction n as [|n IH]; intros h i h'; cbn; [intros [= <-]; reflexivity|].
  destruct (deref (ctx !! i)) as [c| |]; cbn; [|discriminate..]. destruct (get_next h x i) as [v| |]; cbn; [|discriminate..].
  destruct (set_next h c i v) as [h1| |] eqn:E1; cbn; [|discriminate..].
  intros E. apply IH in E. apply set_next_hts in E1. congruence.
Qed.
Lemma insert_hts (s s' : skl) key v x ctx : sk_search ltb eqb s key = Ret (x, ctx) -> sk_insert ltb eqb s key v = Ret s' ->
  match x with
  | Some _ => hts (s_heap s') = hts (s_heap s) /\ s_seed s' = s_seed s
  | None => hts (s_heap s') = hts (s_heap s) ++ [(rand_height (s_seed s)).2] /\ s_seed s' = (rand_height (s_seed s)).1
  end.
Proof.
  unfold sk_insert. intros ->. cbn. destruct x as [x|].
  - destruct (s_heap s !! x) as [nd|] eqn:E; cbn; [|discriminate]. intros [= <-]. cbn. split; [|reflexivity]. rewrite list_fmap_insert. cbn.
    apply list_insert_id. rewrite list_lookup_fmap, E. reflexivity.
  - destruct (rand_height (s_seed s)) as [sd lv]. destruct (sk_link_levels _ _ _ _ _) as [h| |] eqn:E; cbn; [|discriminate..]. intros [= <-]. cbn. split; [|reflexivity].
    apply link_hts in E. rewrite E, fmap_app. reflexivity.
Qed.
Lemma delete_hts (s s' : skl) key b : sk_delete ltb eqb s key = Ret (s', b) -> hts (s_heap s') = hts (s_heap s) /\ s_seed s' = s_seed s.
Proof.
  unfold sk_delete. destruct (sk_search ltb eqb s key) as [[[x|] ctx]| |]; cbn; [| |discriminate..].
  - destruct (s_heap s !! x) as [nd|]; cbn; [|discriminate]. destruct (sk_unlink_levels _ _ _ _ _) as [h| |] eqn:E; cbn; [|discriminate..]. intros [= <- <-]. cbn. split; [|reflexivity]. eapply unlink_hts; exact E.
  - intros [= <- <-]. split; reflexivity.
Qed.
Lemma hg_hts (h h' : list (sknode K V)) y : hts h !! y = hts h' !! y -> hg h y = hg h' y.
Proof. rewrite !list_lookup_fmap. unfold hg. destruct (h !! y), (h' !! y); cbn; congruence. Qed.
End Heights.

Section Levels.
Context {K V : Type} (zeroK : K) (zeroV : V) (ltb eqb : K -> K -> bool).
Context (showK : K -> list Z) (showV : V -> list Z).
Context (SWO : strict_weak_order ltb eqb).
Notation skl := (skl K V).
Notation step := (m_step zeroK zeroV ltb eqb showK showV).
Notation Inv := (Inv zeroK ltb).
Notation ky := (@ky K V zeroK).
Notation kh s := (fun x => (ky (s_heap s) x, hg (s_heap s) x)).
Definition TRel (s : skl) (t : Z * list (K * nat)) : Prop := exists locs, Inv s locs /\ t.2 ≡ₚ kh s <$> locs /\ t.1 = s_seed s.

Lemma trel_step s t o s' r : TRel s t -> step s o = Ret (s', r) -> TRel s' (tower_step eqb rand_height t o).
Proof.
  destruct o as [c o]. intros (locs & I & HP & Hs) E.
  assert (Hsp : forall key, exists L R, locs = L ++ R /\ Forall (fun y => ltb (ky (s_heap s) y) key = true) L /\ Forall (fun y => ltb (ky (s_heap s) y) key = false) R).
  { intros key. apply (split_at_key zeroK ltb eqb SWO). apply (inv_sorted _ _ _ _ I). }
  assert (Hmap : forall (P : K * nat -> Prop) l, Forall (fun y => P (kh s y)) l -> Forall P (kh s <$> l)) by (intros P l; rewrite Forall_fmap; auto).
  unfold m_step in E. cbn [fst snd] in E. destruct o as [key v|key|key| | | | | |]; unfold tower_step; cbn [fst snd].
  - destruct (Hsp key) as (L & R & -> & HL & HR).
    destruct (insert_inv zeroK zeroV ltb eqb SWO s key v L R I HL HR) as (s1 & E1 & _ & _ & (Hf1 & Hf2 & _) & Hs').
    rewrite E1 in E. cbn [rbind] in E. injection E as -> _.
    destruct (search_spec zeroK zeroV ltb eqb s key L R I HL HR) as (ctx & Es & _).
    pose proof (insert_hts ltb eqb s s' key v _ _ Es E1) as Hh. destruct (classify zeroK ltb eqb SWO s key L R I HL HR) as [CL CR].
    destruct (found zeroK eqb s key R) as [x|].
    + destruct CR as (R' & -> & Hx & CR). destruct Hs' as (I' & _). destruct Hh as [Hh Hsd].
      rewrite (map_has_perm eqb _ _ key HP), fmap_app, fmap_cons. rewrite map_has_mid by exact Hx.
      exists (L ++ x :: R'). split; [exact I'|]. split; [|congruence]. rewrite HP.
      apply perm_eq. apply list_fmap_ext. intros i y Hy. cbn. f_equal.
      * symmetry. apply Hf2. eapply inv_elem_bound; [exact I|]. apply elem_of_list_lookup_2 in Hy. rewrite !elem_of_cons. tauto.
      * apply hg_hts. rewrite Hh. reflexivity.
    + destruct Hs' as (I' & _ & Hn). destruct Hh as [Hh Hsd].
      assert (Hhas : map_has eqb t.2 key = false).
      { rewrite (map_has_perm eqb _ _ key HP). apply (map_has_none eqb). apply Hmap. apply Forall_app; split; assumption. }
      rewrite Hhas. exists (L ++ length (s_heap s) :: R). split; [exact I'|]. cbn [fst snd]. split; [|congruence].
      assert (Hb : forall y, y ∈ L ++ R -> y < length (s_heap s)).
      { intros y Hy. eapply inv_elem_bound; [exact I|]. rewrite !elem_of_cons. tauto. }
      assert (Ho : forall y, y ∈ L ++ R -> kh s' y = kh s y).
      { intros y Hy. cbn. f_equal; [apply Hf2, Hb, Hy|]. apply hg_hts. rewrite Hh, lookup_app_l; [reflexivity|]. rewrite fmap_length. apply Hb, Hy. }
      assert (Hnew : kh s' (length (s_heap s)) = (key, (rand_height t.1).2)).
      { cbn. f_equal; [unfold ent in Hn; congruence|]. unfold hg. assert (Hl : (sk_height <$> s_heap s') !! length (s_heap s) = Some (rand_height (s_seed s)).2).
        { rewrite Hh, lookup_app_r by (rewrite fmap_length; lia). rewrite fmap_length, Nat.sub_diag. reflexivity. }
        rewrite list_lookup_fmap in Hl. destruct (s_heap s' !! length (s_heap s)); cbn in Hl; congruence. }
      rewrite fmap_app, fmap_cons, Hnew.
      assert (HE : forall l : list nat, (forall y, y ∈ l -> y ∈ L ++ R) -> kh s' <$> l = kh s <$> l).
      { intros l Hl. apply list_fmap_ext. intros i y Hy. apply Ho, Hl. apply elem_of_list_lookup_2 in Hy. exact Hy. }
      rewrite (HE L), (HE R) by (intros y Hy; apply elem_of_app; auto).
      rewrite HP, fmap_app, <- app_assoc. apply Permutation_app_head. symmetry. apply Permutation_cons_append.
  - destruct (Hsp key) as (L & R & -> & HL & HR).
    pose proof (delete_inv zeroK zeroV ltb eqb s key L R I HL HR) as Hd. destruct (classify zeroK ltb eqb SWO s key L R I HL HR) as [CL CR].
    destruct (found zeroK eqb s key R) as [x|].
    + destruct CR as (R' & -> & Hx & CR). destruct Hd as (R2 & s1 & [= <-] & E1 & _ & _ & _ & _ & I' & Hent).
      rewrite E1 in E. cbn [rbind] in E. injection E as -> _. destruct (delete_hts ltb eqb _ _ _ _ E1) as [Hh Hsd].
      exists (L ++ R'). split; [exact I'|]. cbn [fst snd]. split; [|congruence].
      rewrite fmap_app, fmap_cons in HP.
      rewrite (map_del_perm eqb _ _ _ _ key HP); [|apply Hmap; exact CL|exact Hx|apply Hmap; exact CR].
      rewrite fmap_app. apply perm_eq. f_equal; apply list_fmap_ext; intros i y _; cbn; (f_equal; [specialize (Hent y); unfold ent in Hent; congruence|apply hg_hts; rewrite Hh; reflexivity]).
    + rewrite Hd in E. cbn [rbind] in E. injection E as -> _.
      exists (L ++ R). split; [exact I|]. cbn [fst snd]. split; [|exact Hs].
      rewrite (map_del_none eqb _ _ key HP); [exact HP|]. apply Hmap. apply Forall_app; split; assumption.
  - destruct (sk_get ltb eqb s key); cbn in E; [|discriminate..]. injection E as -> _. exists locs. auto.
  - injection E as -> _. exists locs. auto.
  - injection E as <- _. exists []. split; [apply new_inv; apply (inv_16 _ _ _ _ I)|]. split; reflexivity.
  - destruct (sk_keys s); cbn in E; [|discriminate..]. injection E as -> _. exists locs. auto.
  - destruct (sk_values s); cbn in E; [|discriminate..]. injection E as -> _. exists locs. auto.
  - destruct (sk_to_string showK showV s); cbn in E; [|discriminate..]. injection E as -> _. exists locs. auto.
  - destruct (sk_to_map eqb s); cbn in E; [|discriminate..]. injection E as -> _. exists locs. auto.
Qed.

Lemma trel_run hist : forall s t rs s', TRel s t -> run step s hist = (rs, Ret s') -> TRel s' (fold_left (tower_step eqb rand_height) hist t).
Proof.
  induction hist as [|o hist IH]; intros s t rs s' HR; cbn [run fold_left]; [intros [= _ <-]; exact HR|].
  destruct (step s o) as [[s1 r]| |] eqn:E; [|discriminate..]. destruct (run step s1 hist) as [rs1 e] eqn:E1. intros [= _ ->].
  eapply IH; [|exact E1]. eapply trel_step; eassumption.
Qed.
Lemma trel_new seed : TRel (skl_new zeroK zeroV seed) (seed, []).
Proof. exists []. split; [apply new_inv; constructor|]. split; reflexivity. Qed.
Lemma trel_sorted s locs t : Inv s locs -> t ≡ₚ kh s <$> locs -> sorted_entries ltb t = kh s <$> locs.
Proof.
  intros I HP. apply (sorted_unique ltb).
  - rewrite sorted_entries_perm. exact HP.
  - apply (sorted_entries_sorted ltb eqb SWO).
  - pose proof (inv_sorted _ _ _ _ I) as HS. clear HP I. induction HS as [|x l HS IH HF]; cbn; constructor; [exact IH|].
    rewrite Forall_fmap. eapply Forall_impl; [exact HF|]. intros y Hy. exact Hy.
Qed.

(** *** levels *)
Lemma level_walk_spec s i A : forall fuel x, all16 (s_heap s) -> i < 16 -> path (nx (s_heap s) i) x A (s_tail s) -> s_tail s ∉ A ->
  Forall (fun y => y < length (s_heap s)) (x :: A) -> length A <= fuel -> level_walk fuel s x i = Ret (ky (s_heap s) <$> A).
Proof.
  induction A as [|a A IH]; intros fuel x Ha Hi Hp Ht Hb Hf; apply Forall_cons in Hb as [Hx Hb]; cbn in Hp.
  - destruct fuel; cbn [level_walk]; rewrite get_next_nx by assumption; cbn [rbind]; rewrite Hp, Nat.eqb_refl; reflexivity.
  - destruct Hp as [Hp1 Hp2]. apply not_elem_of_cons in Ht as [Ht1 Ht]. cbn in Hf. destruct fuel as [|fuel]; [lia|].
    cbn [level_walk]. rewrite get_next_nx by assumption. cbn [rbind]. rewrite Hp1. destruct (Nat.eqb_spec a (s_tail s)); [congruence|].
    pose proof Hb as Hb'. apply Forall_cons in Hb' as [Hla _]. destruct (deref_node zeroK zeroV (s_heap s) a Hla) as (nd & En & Ek & _). rewrite En. cbn [deref rbind].
    rewrite (IH fuel a) by (try assumption; lia). cbn. rewrite Ek. reflexivity.
Qed.
Lemma level_keys_spec s locs i : Inv s locs -> i < 16 -> level_keys s i = Ret (ky (s_heap s) <$> lv (s_heap s) i locs).
Proof.
  intros I Hi. pose proof (inv_nodup _ _ _ _ I) as HN. pose proof (inv_alloc _ _ _ _ I) as HF. apply NoDup_cons in HN as [_ HN]. apply NoDup_cons in HN as [Ht _].
  apply Forall_cons in HF as [HFh HF]. apply Forall_cons in HF as [_ HF]. unfold level_keys. apply level_walk_spec.
  - apply (inv_16 _ _ _ _ I).
  - exact Hi.
  - apply (inv_path _ _ _ _ I); exact Hi.
  - intros Hc. apply lv_elem in Hc as [_ Hc]. auto.
  - constructor; [exact HFh|]. apply lv_Forall. exact HF.
  - etransitivity; [apply lv_length|]. apply (inv_length_bound _ _ _ _ I).
Qed.
Lemma lv_heights s i locs : (kh s <$> lv (s_heap s) i locs) = filter (fun e : K * nat => i < e.2) (kh s <$> locs).
Proof.
  induction locs as [|x locs IH]; [reflexivity|]. unfold lv in *. rewrite fmap_cons. destruct (decide (i < hg (s_heap s) x)) as [L|L].
  - rewrite !filter_cons_True by exact L. rewrite fmap_cons, IH. reflexivity.
  - rewrite !filter_cons_False by exact L. exact IH.
Qed.

(** *** comparisons *)
(** nodes passed at level i on the way to the end of L *)
Fixpoint passed (h : list (sknode K V)) (i : nat) (L : list nat) : nat :=
  match L with
  | [] => 0
  | x :: t => (if (hg h x =? S i) && forallb (fun y => hg h y <=? S i) t then 1 else 0) + passed h i t
  end.
Lemma low_lv (h : list (sknode K V)) i (L : list nat) : forallb (fun y => hg h y <=? S i) L = true <-> lv h (S i) L = [].
Proof.
  unfold lv. rewrite forallb_forall. split.
  - intros H. induction L as [|x L IH]; [reflexivity|]. rewrite filter_cons_False; [apply IH; intros y Hy; apply H; right; exact Hy|]. specialize (H x (or_introl eq_refl)). apply Nat.leb_le in H. lia.
  - intros H x Hx. apply Nat.leb_le. destruct (decide (S i < hg h x)) as [L1|L1]; [|lia]. exfalso. assert (Q : x ∈ filter (fun l => S i < hg h l) L) by (apply elem_of_list_filter; split; [exact L1|apply elem_of_list_In; exact Hx]). rewrite H in Q. apply elem_of_nil in Q. exact Q.
Qed.
Implicit Types h : list (sknode K V).
Lemma passed_low h i L : lv h (S i) L = [] -> passed h i L = length (lv h i L).
Proof.
  induction L as [|x t IH]; intros H; [reflexivity|]. unfold lv in *. cbn [passed]. destruct (decide (S i < hg h x)) as [Q|Q]; [rewrite filter_cons_True in H by exact Q; discriminate|].
  rewrite filter_cons_False in H by exact Q. rewrite IH by exact H. rewrite (proj2 (low_lv h i t)) by exact H. rewrite andb_true_r.
  destruct (Nat.eqb_spec (hg h x) (S i)) as [E|E].
  - rewrite filter_cons_True by lia. reflexivity.
  - rewrite filter_cons_False by lia. reflexivity.
Qed.
Lemma passed_high h i L : lv h (S i) L <> [] -> exists P A, lv h i L = P ++ A /\ P <> [] /\ last P = last (lv h (S i) L) /\ length A = passed h i L.
Proof.
  induction L as [|x t IH]; intros H; [destruct (H eq_refl)|]. cbn [passed]. destruct (decide (lv h (S i) t = [])) as [E|E].
  - rewrite (proj2 (low_lv h i t)) by exact E. rewrite andb_true_r. unfold lv in *. destruct (decide (S i < hg h x)) as [Q|Q]; [|rewrite filter_cons_False, E in H by exact Q; destruct (H eq_refl)].
    rewrite filter_cons_True by lia. rewrite (filter_cons_True (fun l => S i < hg h l)) by exact Q. rewrite E. destruct (Nat.eqb_spec (hg h x) (S i)); [lia|].
    exists [x], (filter (fun l => i < hg h l) t). split; [reflexivity|]. split; [discriminate|]. split; [reflexivity|]. cbn. symmetry. apply (passed_low h i t E).
  - destruct (IH E) as (P & A & E1 & E2 & E3 & E4). destruct (forallb (fun y => hg h y <=? S i) t) eqn:F; [apply low_lv in F; destruct (E F)|]. rewrite andb_false_r.
    unfold lv in *. assert (L1 : last (filter (fun l => S i < hg h l) (x :: t)) = last (filter (fun l => S i < hg h l) t)).
    { destruct (decide (S i < hg h x)) as [Q|Q]; [rewrite filter_cons_True by exact Q|rewrite filter_cons_False by exact Q; reflexivity].
      destruct (filter (fun l => S i < hg h l) t) as [|z l]; [destruct (E eq_refl)|]. reflexivity. }
    destruct (decide (i < hg h x)) as [Q|Q].
    + rewrite filter_cons_True by exact Q. exists (x :: P), A. rewrite E1. split; [reflexivity|]. split; [discriminate|]. split; [|exact E4]. rewrite L1, <- E3. destruct P; [destruct (E2 eq_refl)|reflexivity].
    + rewrite filter_cons_False by exact Q. exists P, A. split; [exact E1|]. split; [exact E2|]. split; [rewrite L1; exact E3|exact E4].
Qed.
(** at level i, from the last node of level i+1 below the key *)
Lemma passed_split h i d L : exists P A, lv h i L = P ++ A /\ last_or d P = last_or d (lv h (S i) L) /\ length A = passed h i L.
Proof.
  destruct (decide (lv h (S i) L = [])) as [E|E].
  - exists [], (lv h i L). split; [reflexivity|]. rewrite E. split; [reflexivity|]. symmetry. apply passed_low. exact E.
  - destruct (passed_high h i L E) as (P & A & E1 & _ & E3 & E4). exists P, A. split; [exact E1|]. split; [unfold last_or; rewrite E3; reflexivity|exact E4].
Qed.
Lemma walk_c_spec s fuel x i key A B c :
  all16 (s_heap s) -> i < 16 -> path (nx (s_heap s) i) x (A ++ B) (s_tail s) -> s_tail s ∉ A ++ B ->
  Forall (fun y => y < length (s_heap s)) (x :: A ++ B) ->
  Forall (fun y => ltb (ky (s_heap s) y) key = true) A -> Forall (fun y => ltb (ky (s_heap s) y) key = false) B ->
  length A <= fuel ->
  walk_c ltb fuel s x i key c = Ret (last_or x A, c + length A + (if decide (B = []) then 0 else 1)).
Proof.
  intros Ha Hi. revert x A c; induction fuel as [|fuel IH]; intros x A c Hp Ht Hb HA HB Hf; apply Forall_cons in Hb as [Hx Hb];
  (destruct A as [|a A]; [|try (cbn in Hf; lia)]); cbn [walk_c]; rewrite get_next_nx by assumption; cbn [rbind].
  1,2: destruct B as [|b B]; cbn in Hp; [rewrite Hp, Nat.eqb_refl, decide_True by reflexivity; cbn [length]; rewrite !Nat.add_0_r; reflexivity|]; destruct Hp as [Hp _]; rewrite Hp; cbn in Ht; apply not_elem_of_cons in Ht as [Ht _];
    destruct (Nat.eqb_spec b (s_tail s)); [congruence|]; apply Forall_cons in Hb as [Hbb _]; destruct (deref_node zeroK zeroV (s_heap s) b Hbb) as (nd & En & Ek & _); rewrite En; cbn [deref rbind];
    apply Forall_cons in HB as [HB _]; rewrite <- Ek, HB, decide_False by discriminate; cbn [length]; rewrite Nat.add_0_r, Nat.add_1_r; reflexivity.
  cbn in Hp. destruct Hp as [Hp Hp2]. rewrite Hp. cbn in Ht. apply not_elem_of_cons in Ht as [Ht1 Ht]. destruct (Nat.eqb_spec a (s_tail s)); [congruence|].
  pose proof Hb as Hb'. cbn in Hb'. apply Forall_cons in Hb' as [Hba _]. destruct (deref_node zeroK zeroV (s_heap s) a Hba) as (nd & En & Ek & _). rewrite En. cbn [deref rbind].
  apply Forall_cons in HA as [HA1 HA]. rewrite <- Ek, HA1. rewrite (IH a A (S c)); try assumption; [|cbn in Hf; lia]. rewrite last_or_cons. cbn [length]. do 2 f_equal. lia.
Qed.
Definition level_cost (h : list (sknode K V)) (L R : list nat) (i : nat) : nat := passed h i L + (if decide (lv h i R = []) then 0 else 1).
Lemma levels_c_spec s key L R : Inv s (L ++ R) ->
  Forall (fun y => ltb (ky (s_heap s) y) key = true) L -> Forall (fun y => ltb (ky (s_heap s) y) key = false) R ->
  forall i c, i <= 16 ->
  levels_c ltb (length (s_heap s)) s (last_or (s_head s) (lv (s_heap s) i L)) i key c =
  Ret (last_or (s_head s) (lv (s_heap s) 0 L), c + sum_list (level_cost (s_heap s) L R <$> seq 0 i)).
Proof.
  intros I HL HR i. induction i as [|i IH]; intros c Hi; cbn [levels_c]; [cbn; do 2 f_equal; lia|].
  destruct (passed_split (s_heap s) i (s_head s) L) as (P & A & E1 & E2 & E3). rewrite <- E2.
  pose proof (inv_path _ _ _ _ I i ltac:(lia)) as Hp. rewrite lv_app, E1, <- app_assoc in Hp. apply path_app in Hp.
  pose proof (inv_nodup _ _ _ _ I) as HN. pose proof (inv_alloc _ _ _ _ I) as HF. pose proof (inv_length_bound _ _ _ _ I) as Hlen. rewrite app_length in Hlen.
  pose proof (lv_length (s_heap s) i L) as Hll. rewrite E1, app_length in Hll. apply NoDup_cons in HN as [_ HN]. apply NoDup_cons in HN as [Ht HN].
  apply Forall_cons in HF as [HFh HF]. apply Forall_cons in HF as [_ HF].
  assert (HF' : Forall (fun l => l < length (s_heap s)) (P ++ A ++ lv (s_heap s) i R)) by (rewrite app_assoc, <- E1, <- lv_app; apply lv_Forall; exact HF).
  rewrite (walk_c_spec s _ _ i key A (lv (s_heap s) i R)).
  - cbn [rbind]. assert (E4 : last_or (last_or (s_head s) P) A = last_or (s_head s) (lv (s_heap s) i L)).
    { rewrite E1. unfold last_or. rewrite last_app. destruct (last A); reflexivity. }
    rewrite E4, IH by lia. rewrite sum_snoc. rewrite E3. unfold level_cost at 3. f_equal. f_equal. lia.
  - apply (inv_16 _ _ _ _ I).
  - lia.
  - exact Hp.
  - intros Hc. apply Ht. assert (Q : s_tail s ∈ lv (s_heap s) i (L ++ R)) by (rewrite lv_app, E1, <- app_assoc; apply elem_of_app; right; exact Hc). apply lv_elem in Q. tauto.
  - apply Forall_app in HF' as [HP HAB]. constructor; [|exact HAB]. pose proof (last_or_elem (s_head s) P) as Q. rewrite elem_of_cons in Q. destruct Q as [->|Q]; [exact HFh|]. rewrite Forall_forall in HP. apply HP. exact Q.
  - apply (lv_Forall (s_heap s) i) in HL. rewrite E1 in HL. apply Forall_app in HL as [_ HL]. exact HL.
  - apply lv_Forall. exact HR.
  - lia.
Qed.
(** summed over the levels *)
Lemma sum_list_plus {A} (f g : A -> nat) l : sum_list ((fun x => f x + g x) <$> l) = sum_list (f <$> l) + sum_list (g <$> l).
Proof. induction l as [|x l IH]; [reflexivity|]. cbn in *. lia. Qed.
Lemma sum_one (h n : nat) (b : nat -> bool) : 1 <= h <= n -> sum_list ((fun i => if (h =? S i) && b i then 1 else 0) <$> seq 0 n) = if b (h - 1) then 1 else 0.
Proof.
  intros [H1 H2]. induction n as [|n IH]; [lia|]. rewrite sum_snoc.
  destruct (Nat.eqb_spec h (S n)) as [->|Hn].
  - replace (S n - 1) with n by lia. assert (Z : sum_list ((fun i => if (S n =? S i) && b i then 1 else 0) <$> seq 0 n) = 0).
    { clear. assert (G : forall k, k <= n -> sum_list ((fun i => if (S n =? S i) && b i then 1 else 0) <$> seq 0 k) = 0); [|apply G; lia]. induction k as [|k IH]; intros Hk; [reflexivity|]. rewrite sum_snoc, IH by lia. destruct (Nat.eqb_spec (S n) (S k)); [lia|]. reflexivity. }
    rewrite Z. cbn. destruct (b n); reflexivity.
  - rewrite IH by lia. cbn. lia.
Qed.
Lemma sum_passed h L n : Forall (fun l => 1 <= hg h l <= n) L -> sum_list ((fun i => passed h i L) <$> seq 0 n) = records (hg h <$> L).
Proof.
  induction L as [|x t IH]; intros HF; cbn [passed records fmap list_fmap].
  - clear. generalize (seq 0 n). induction l as [|y l IH]; [reflexivity|]. cbn in *. exact IH.
  - apply Forall_cons in HF as [Hx HF]. rewrite sum_list_plus. rewrite IH by exact HF. f_equal. rewrite (sum_one (hg h x) n (fun i => forallb (fun y => hg h y <=? S i) t)) by exact Hx.
    replace (S (hg h x - 1)) with (hg h x) by lia. clear. assert (E : forallb (fun y => hg h y <=? hg h x) t = forallb (fun y => y <=? hg h x) (hg h <$> t)) by (induction t as [|y t IH]; [reflexivity|]; cbn; rewrite IH; reflexivity). rewrite E. reflexivity.
Qed.
Lemma sum_reached h R n : Forall (fun l => 1 <= hg h l <= n) R -> sum_list ((fun i => if decide (lv h i R = []) then 0 else 1) <$> seq 0 n) = foldr Nat.max 0 (hg h <$> R).
Proof.
  intros HF. assert (G : forall k, sum_list ((fun i => if decide (lv h i R = []) then 0 else 1) <$> seq 0 k) = Nat.min k (foldr Nat.max 0 (hg h <$> R))).
  { assert (Q : forall i, lv h i R = [] <-> foldr Nat.max 0 (hg h <$> R) <= i).
    { intros i. clear. unfold lv. induction R as [|x t IH]; [cbn; split; [lia|reflexivity]|]. cbn [fmap list_fmap foldr]. destruct (decide (i < hg h x)) as [L|L]; [rewrite filter_cons_True by exact L; split; [discriminate|lia]|]. rewrite filter_cons_False by exact L. rewrite IH. lia. }
    induction k as [|k IH]; [reflexivity|]. rewrite sum_snoc, IH. destruct (decide (lv h k R = [])) as [E|E]; rewrite Q in E; lia. }
  rewrite G. assert (foldr Nat.max 0 (hg h <$> R) <= n); [|lia]. clear G. induction R as [|x t IH]; [cbn; lia|]. apply Forall_cons in HF as [Hx HF]. specialize (IH HF). rewrite fmap_cons. cbn [foldr]. lia.
Qed.
Lemma search_cost_spec s key L R : Inv s (L ++ R) ->
  Forall (fun y => ltb (ky (s_heap s) y) key = true) L -> Forall (fun y => ltb (ky (s_heap s) y) key = false) R ->
  search_cost ltb s key = Ret (records (hg (s_heap s) <$> L) + foldr Nat.max 0 (hg (s_heap s) <$> R)).
Proof.
  intros I HL HR. unfold search_cost. pose proof (inv_hg _ _ _ _ I) as HH. apply Forall_app in HH as [HH1 HH2].
  pose proof (levels_c_spec s key L R I HL HR 16 0 ltac:(lia)) as E. rewrite lv_16 in E by exact HH1. change (last_or (s_head s) []) with (s_head s) in E. change MAX_HEIGHT with 16. rewrite E. cbn [rbind]. f_equal. rewrite Nat.add_0_l.
  unfold level_cost. rewrite sum_list_plus, sum_passed, sum_reached by assumption. reflexivity.
Qed.
(** the count belongs to the search *)
Lemma walk_c_erase fuel : forall (s : skl) x i key c, match walk_c ltb fuel s x i key c with Ret (y, _) => sk_walk ltb fuel (s_heap s) (s_tail s) x i key = Ret y | Panic => sk_walk ltb fuel (s_heap s) (s_tail s) x i key = Panic | Spin => sk_walk ltb fuel (s_heap s) (s_tail s) x i key = Spin end.
Proof.
  induction fuel as [|fuel IH]; intros s x i key c; cbn [walk_c sk_walk]; destruct (get_next (s_heap s) x i) as [[y|]| |]; cbn [rbind]; try reflexivity;
  (destruct (Nat.eqb_spec y (s_tail s)); [reflexivity|]; destruct (s_heap s !! y) as [nd|]; cbn [deref rbind]; [|reflexivity]; destruct (ltb (sk_key nd) key); [|reflexivity]); [reflexivity|apply IH].
Qed.
Lemma levels_c_erase fuel (s : skl) key : forall i x c ctx, match levels_c ltb fuel s x i key c with Ret (y, _) => exists ctx', sk_search_levels ltb fuel (s_heap s) (s_tail s) x i key ctx = Ret (y, ctx') | Panic => sk_search_levels ltb fuel (s_heap s) (s_tail s) x i key ctx = Panic | Spin => sk_search_levels ltb fuel (s_heap s) (s_tail s) x i key ctx = Spin end.
Proof.
  induction i as [|i IH]; intros x c ctx; cbn [levels_c sk_search_levels]; [exists ctx; reflexivity|].
  pose proof (walk_c_erase fuel s x i key c) as H. destruct (walk_c ltb fuel s x i key c) as [[y c']| |]; rewrite H; cbn [rbind]; [apply IH|reflexivity..].
Qed.
End Levels.
