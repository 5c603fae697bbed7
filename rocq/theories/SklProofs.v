From Verif Require Import Base SplitMixModel SklSpec SklModel.
From Coq Require Import Sorting.Sorted.

(** *** Paths of a successor function *)
Section Path.
Implicit Types (f g : nat -> option nat) (ls : list nat).

Fixpoint path f (x : nat) ls (e : nat) : Prop :=
  match ls with
  | [] => f x = Some e
  | y :: ls' => f x = Some y /\ path f y ls' e
  end.

Definition last_or (x : nat) ls : nat := default x (last ls).
Lemma last_or_nil x : last_or x [] = x.
Proof. reflexivity. Qed.
Lemma last_or_cons x y ls : last_or x (y :: ls) = last_or y ls.
Proof. unfold last_or. destruct ls as [|z ls]; [reflexivity|]. rewrite last_cons_cons.
  destruct (last (z :: ls)) eqn:E; [reflexivity|]. apply last_None in E; discriminate. Qed.
Lemma last_or_elem x ls : last_or x ls ∈ x :: ls.
Proof.
  revert x; induction ls as [|y ls IH]; intros x; [constructor|].
  rewrite last_or_cons. apply elem_of_list_further, IH.
Qed.

Lemma path_ext f g x ls e : (forall y, y ∈ x :: ls -> g y = f y) -> path f x ls e -> path g x ls e.
Proof.
  revert x; induction ls as [|y ls IH]; intros x H; cbn.
  - intros <-. apply H. constructor.
  - intros [H1 H2]. split; [rewrite H; [exact H1|constructor]|].
    apply IH; [|exact H2]. intros z Hz. apply H. apply elem_of_list_further; exact Hz.
Qed.
Lemma path_app f x A B e : path f x (A ++ B) e -> path f (last_or x A) B e.
Proof.
  revert x; induction A as [|y A IH]; intros x; [auto|].
  rewrite last_or_cons. cbn. intros [_ H]. apply IH; exact H.
Qed.
Lemma path_last f x ls e : path f x ls e -> f (last_or x ls) = Some e.
Proof. intros H. rewrite <- (app_nil_r ls) in H. apply path_app in H. exact H. Qed.

(** inserting n after the last node of A *)
Lemma path_insert f g x A B e n :
  NoDup (x :: A ++ B) -> n ∉ x :: A ++ B ->
  (forall y, y ∈ x :: A ++ B -> y <> last_or x A -> g y = f y) ->
  g (last_or x A) = Some n -> g n = f (last_or x A) ->
  path f x (A ++ B) e -> path g x (A ++ n :: B) e.
Proof.
  revert x; induction A as [|a A IH]; intros x HN Hn Hg H1 H2 Hp.
  - cbn in *. split; [exact H1|].
    destruct B as [|b B]; cbn in *; [congruence|]. destruct Hp as [Hp1 Hp2].
    split; [congruence|]. eapply path_ext; [|exact Hp2].
    intros y Hy. apply Hg; [apply elem_of_list_further; exact Hy|].
    intros ->. apply NoDup_cons in HN as [HN _]. apply HN. exact Hy.
  - rewrite last_or_cons in *. cbn in *. destruct Hp as [Hp1 Hp2].
    apply NoDup_cons in HN as [HN0 HN].
    split.
    + rewrite Hg; [exact Hp1|constructor|]. intros E. apply HN0. rewrite E.
      assert (Hl := last_or_elem a A). rewrite elem_of_cons in Hl.
      rewrite elem_of_cons, elem_of_app. tauto.
    + apply IH; auto.
      * intros Hc. apply Hn. apply elem_of_list_further. exact Hc.
      * intros y Hy Hne. apply Hg; [apply elem_of_list_further; exact Hy|exact Hne].
Qed.
(** removing n *)
Lemma path_remove f g x A B e n :
  NoDup (x :: A ++ n :: B) ->
  (forall y, y ∈ x :: A ++ B -> y <> last_or x A -> g y = f y) ->
  g (last_or x A) = f n ->
  path f x (A ++ n :: B) e -> path g x (A ++ B) e.
Proof.
  revert x; induction A as [|a A IH]; intros x HN Hg H1 Hp.
  - cbn in *. destruct Hp as [_ Hp].
    assert (Hx : x ∉ B).
    { apply NoDup_cons in HN as [HN _]. intros Hc; apply HN, elem_of_list_further, Hc. }
    destruct B as [|b B]; cbn in *; [congruence|]. destruct Hp as [Hp1 Hp2].
    split; [congruence|]. eapply path_ext; [|exact Hp2].
    intros y Hy. apply Hg; [apply elem_of_list_further; exact Hy|].
    intros ->. apply Hx. exact Hy.
  - rewrite last_or_cons in *. cbn in *. destruct Hp as [Hp1 Hp2].
    apply NoDup_cons in HN as [HN0 HN].
    split.
    + rewrite Hg; [exact Hp1|constructor|]. intros E. apply HN0. rewrite E.
      assert (Hl := last_or_elem a A). rewrite elem_of_cons in Hl.
      rewrite elem_of_cons, elem_of_app. tauto.
    + apply IH; auto.
      intros y Hy Hne. apply Hg; [apply elem_of_list_further; exact Hy|exact Hne].
Qed.
End Path.

(** *** Random heights *)
Lemma rand_height_loop_range n h seed : h <= (rand_height_loop n h seed).2 <= h + n.
Proof.
  revert h seed; induction n as [|n IH]; intros h seed; cbn; [lia|].
  destruct (Z.eqb _ 1); cbn; [lia|]. specialize (IH (S h) (u64 (seed + incrementConstant))). lia.
Qed.
Lemma rand_height_range seed : 1 <= (rand_height seed).2 <= 16.
Proof.
  pose proof (rand_height_loop_range (MAX_HEIGHT - 1) 1 seed) as H. unfold rand_height.
  change (1 + (MAX_HEIGHT - 1)) with 16 in H. exact H.
Qed.
Global Opaque rand_height.

Section Skl.
Context {K V : Type} (zeroK : K) (zeroV : V) (ltb eqb : K -> K -> bool).
Context (SWO : strict_weak_order ltb eqb).
Notation skl := (skl K V).
Notation sknode := (sknode K V).
Notation walk := (sk_walk ltb).
Notation search := (sk_search ltb eqb).
Implicit Types (h : list sknode) (s : skl) (locs : list nat).

(** order facts *)
Lemma nlt_trans x y z : ltb x y = false -> ltb y z = false -> ltb x z = false.
Proof.
  intros H1 H2. destruct (ltb x z) eqn:E; [|reflexivity].
  destruct (lt_cover _ _ SWO x y z E); congruence.
Qed.
Lemma lt_nlt x y : ltb x y = true -> ltb y x = false.
Proof.
  intros H. destruct (ltb y x) eqn:E; [|reflexivity].
  pose proof (lt_trans _ _ SWO _ _ _ H E) as H'. rewrite (lt_irrefl _ _ SWO) in H'. discriminate.
Qed.
Lemma lt_eqb x y : ltb x y = true -> eqb x y = false.
Proof. intros H. rewrite (eq_spec _ _ SWO), H. reflexivity. Qed.
Lemma gt_eqb x y : ltb y x = true -> eqb x y = false.
Proof. intros H. rewrite (eq_spec _ _ SWO), H. apply andb_false_r. Qed.
Lemma eqb_nlt x y : eqb x y = true -> ltb x y = false /\ ltb y x = false.
Proof. rewrite (eq_spec _ _ SWO), andb_true_iff, !negb_true_iff. tauto. Qed.
Lemma neqb_nlt_gt x y : eqb x y = false -> ltb x y = false -> ltb y x = true.
Proof. rewrite (eq_spec _ _ SWO), andb_false_iff, !negb_false_iff. intros [->|]; [discriminate|auto]. Qed.
Lemma lt_eq_lt x y z : ltb x y = true -> eqb x z = true -> ltb z y = true.
Proof. intros H E. apply eqb_nlt in E as [E1 E2]. destruct (lt_cover _ _ SWO x z y H); congruence. Qed.

(** *** Reading the heap *)
Definition nx h (i x : nat) : option nat :=
  match h !! x with Some nd => match sk_next nd !! i with Some o => o | None => None end | None => None end.
Definition ky h (x : nat) : K := match h !! x with Some nd => sk_key nd | None => zeroK end.
Definition vl h (x : nat) : V := match h !! x with Some nd => sk_value nd | None => zeroV end.
Definition hg h (x : nat) : nat := match h !! x with Some nd => sk_height nd | None => 0 end.
Definition ent h (x : nat) : K * V := (ky h x, vl h x).
Definition all16 h : Prop := Forall (fun nd => length (sk_next nd) = 16) h.

Lemma get_next_nx h x i : all16 h -> x < length h -> i < 16 -> get_next h x i = Ret (nx h i x).
Proof.
  intros Ha Hx Hi. unfold get_next, nx.
  destruct (lookup_lt_is_Some_2 h x Hx) as [nd E]. rewrite E. cbn [deref rbind].
  destruct (lookup_lt_is_Some_2 (sk_next nd) i) as [o Eo].
  { unfold all16 in Ha. rewrite Forall_lookup in Ha. rewrite (Ha _ _ E). exact Hi. }
  rewrite Eo. reflexivity.
Qed.
Lemma deref_node h x : x < length h -> exists nd, h !! x = Some nd /\ ky h x = sk_key nd /\ vl h x = sk_value nd /\ hg h x = sk_height nd.
Proof.
  intros Hx. destruct (lookup_lt_is_Some_2 h x Hx) as [nd E]. exists nd.
  unfold ky, vl, hg. rewrite E. auto.
Qed.

Lemma set_next_spec h x i v :
  all16 h -> x < length h -> i < 16 ->
  exists h', set_next h x i v = Ret h' /\ all16 h' /\ length h' = length h /\
    (forall y, ky h' y = ky h y /\ vl h' y = vl h y /\ hg h' y = hg h y) /\
    (forall y j, nx h' j y = if decide (y = x /\ j = i) then v else nx h j y).
Proof.
  intros Ha Hx Hi. unfold set_next.
  destruct (lookup_lt_is_Some_2 h x Hx) as [nd E]. rewrite E. cbn [deref rbind].
  eexists; split; [reflexivity|].
  assert (H16 : length (sk_next nd) = 16) by (unfold all16 in Ha; rewrite Forall_lookup in Ha; eauto).
  split; [|split; [apply insert_length|split]].
  - apply Forall_insert; [exact Ha|]. cbn. rewrite insert_length. exact H16.
  - intros y. unfold ky, vl, hg. destruct (decide (x = y)) as [->|Hne].
    + rewrite list_lookup_insert by exact Hx. rewrite E. auto.
    + rewrite list_lookup_insert_ne by exact Hne. auto.
  - intros y j. unfold nx. destruct (decide (x = y)) as [->|Hne].
    + rewrite list_lookup_insert by exact Hx. cbn [sk_next]. rewrite E.
      destruct (decide (y = y /\ j = i)) as [[_ ->]|Hn].
      * rewrite list_lookup_insert by lia. reflexivity.
      * rewrite list_lookup_insert_ne by (intros ->; apply Hn; auto). reflexivity.
    + rewrite list_lookup_insert_ne by exact Hne.
      destruct (decide (y = x /\ j = i)) as [[-> _]|_]; [congruence|reflexivity].
Qed.

(** *** Search *)
(** nodes present at level i *)
Definition lv h (i : nat) locs : list nat := filter (fun l => i < hg h l) locs.

Lemma walk_spec h fuel tail x i key A B :
  all16 h -> i < 16 -> path (nx h i) x (A ++ B) tail -> tail ∉ A ++ B ->
  Forall (fun y => y < length h) (x :: A ++ B) ->
  Forall (fun y => ltb (ky h y) key = true) A -> Forall (fun y => ltb (ky h y) key = false) B ->
  length A <= fuel ->
  walk fuel h tail x i key = Ret (last_or x A).
Proof.
  intros Ha Hi. revert x A; induction fuel as [|fuel IH]; intros x A Hp Ht Hb HA HB Hf;
  (destruct A as [|a A];
   [ destruct B as [|b B];
     [ cbn in Hp; cbn [sk_walk]; rewrite get_next_nx by (try assumption; apply Forall_cons in Hb; tauto);
       cbn [rbind]; rewrite Hp, Nat.eqb_refl; reflexivity
     | cbn in Hp; destruct Hp as [Hp _]; cbn [sk_walk];
       rewrite get_next_nx by (try assumption; apply Forall_cons in Hb; tauto);
       cbn [rbind]; rewrite Hp; cbn in Ht; apply not_elem_of_cons in Ht as [Ht _];
       destruct (Nat.eqb_spec b tail); [congruence|];
       apply Forall_cons in Hb as [_ Hb]; cbn in Hb; apply Forall_cons in Hb as [Hb _];
       destruct (deref_node h b Hb) as (nd & E & Ek & _); rewrite E; cbn [deref rbind];
       apply Forall_cons in HB as [HB _]; rewrite <- Ek, HB; reflexivity ] | ]).
  - cbn in Hf; lia.
  - cbn in Hp. destruct Hp as [Hp Hp']. cbn [sk_walk].
    rewrite get_next_nx by (try assumption; apply Forall_cons in Hb; tauto).
    cbn [rbind]. rewrite Hp. cbn in Ht. apply not_elem_of_cons in Ht as [Ht Ht'].
    destruct (Nat.eqb_spec a tail); [congruence|].
    apply Forall_cons in Hb as [_ Hb]. cbn in Hb. pose proof Hb as Hb2. apply Forall_cons in Hb2 as [Hba _].
    destruct (deref_node h a Hba) as (nd & E & Ek & _). rewrite E. cbn [deref rbind].
    apply Forall_cons in HA as [HA1 HA]. rewrite <- Ek, HA1.
    rewrite last_or_cons. apply IH; auto. cbn in Hf; lia.
Qed.

(** The representation invariant. *)
Record Inv (s : skl) (locs : list nat) : Prop := {
  inv_nodup : NoDup (s_head s :: s_tail s :: locs);
  inv_alloc : Forall (fun l => l < length (s_heap s)) (s_head s :: s_tail s :: locs);
  inv_16 : all16 (s_heap s);
  inv_path : forall i, i < 16 -> path (nx (s_heap s) i) (s_head s) (lv (s_heap s) i locs) (s_tail s);
  inv_hg : Forall (fun l => 1 <= hg (s_heap s) l <= 16) locs;
  inv_sorted : StronglySorted (fun x y => ltb (ky (s_heap s) x) (ky (s_heap s) y) = true) locs;
  inv_tail : nx (s_heap s) 0 (s_tail s) = None;
  inv_len : s_len s = Z.of_nat (length locs) }.

(** splitting the live nodes at a key *)
Lemma split_at_key h key locs :
  StronglySorted (fun x y => ltb (ky h x) (ky h y) = true) locs ->
  exists L R, locs = L ++ R /\ Forall (fun y => ltb (ky h y) key = true) L /\
              Forall (fun y => ltb (ky h y) key = false) R.
Proof.
  induction locs as [|l locs IH]; intros H; [exists [], []; auto|].
  apply StronglySorted_inv in H as [H Hl]. destruct (IH H) as (L & R & -> & HL & HR).
  destruct (ltb (ky h l) key) eqn:E.
  - exists (l :: L), R. auto.
  - exists [], (l :: L ++ R). split; [reflexivity|]. split; [constructor|]. constructor; [exact E|].
    eapply Forall_impl; [exact Hl|]. cbn. intros y Hy.
    destruct (ltb (ky h y) key) eqn:E2; [|reflexivity].
    rewrite (lt_trans _ _ SWO _ _ _ Hy E2) in E. discriminate.
Qed.

Lemma lv_app h i A B : lv h i (A ++ B) = lv h i A ++ lv h i B.
Proof. apply filter_app. Qed.
Lemma lv_elem h i locs x : x ∈ lv h i locs <-> i < hg h x /\ x ∈ locs.
Proof. unfold lv. rewrite elem_of_list_filter. tauto. Qed.
Lemma lv_length h i locs : length (lv h i locs) <= length locs.
Proof. unfold lv. apply filter_length. Qed.
Lemma lv_NoDup h i locs : NoDup locs -> NoDup (lv h i locs).
Proof. apply NoDup_filter. Qed.
Lemma lv_Forall h i (P : nat -> Prop) locs : Forall P locs -> Forall P (lv h i locs).
Proof. rewrite !Forall_forall. intros H x Hx. apply H. apply lv_elem in Hx. tauto. Qed.
Lemma lv_0 h locs : Forall (fun l => 1 <= hg h l <= 16) locs -> lv h 0 locs = locs.
Proof.
  intros H. induction locs as [|l locs IH]; [reflexivity|].
  apply Forall_cons in H as [H1 H]. unfold lv in *. rewrite filter_cons_True by lia. f_equal; auto.
Qed.
Lemma lv_16 h locs : Forall (fun l => 1 <= hg h l <= 16) locs -> lv h 16 locs = [].
Proof.
  intros H. induction locs as [|l locs IH]; [reflexivity|].
  apply Forall_cons in H as [H1 H]. unfold lv in *. rewrite filter_cons_False by lia. auto.
Qed.
Lemma lv_mono h i locs x : x ∈ lv h (S i) locs -> x ∈ lv h i locs.
Proof. rewrite !lv_elem. intros [? ?]; split; [lia|assumption]. Qed.
Lemma lv_last_mono h i x L :
  last_or x (lv h (S i) L) ∈ x :: lv h i L.
Proof.
  pose proof (last_or_elem x (lv h (S i) L)) as H. rewrite elem_of_cons in *.
  destruct H as [H|H]; [left; exact H|right; apply lv_mono; exact H].
Qed.

Lemma inv_length_bound s locs : Inv s locs -> length locs <= length (s_heap s).
Proof.
  intros I. pose proof (inv_nodup _ _ I) as HN. pose proof (inv_alloc _ _ I) as HF.
  apply NoDup_cons in HN as [_ HN]. apply NoDup_cons in HN as [_ HN].
  apply Forall_cons in HF as [_ HF]. apply Forall_cons in HF as [_ HF].
  assert (Hsub : locs ⊆+ seq 0 (length (s_heap s))).
  { apply NoDup_submseteq; [exact HN|]. intros x Hx. rewrite Forall_forall in HF.
    apply elem_of_seq. specialize (HF _ Hx). lia. }
  apply submseteq_length in Hsub. rewrite seq_length in Hsub. exact Hsub.
Qed.

Definition ctx_ok s (L : list nat) (ctx : list nat) : Prop :=
  length ctx = 16 /\ forall i, i < 16 -> ctx !! i = Some (last_or (s_head s) (lv (s_heap s) i L)).

Lemma walk_level s key L R i x :
  Inv s (L ++ R) ->
  Forall (fun y => ltb (ky (s_heap s) y) key = true) L ->
  Forall (fun y => ltb (ky (s_heap s) y) key = false) R ->
  i < 16 -> x ∈ s_head s :: lv (s_heap s) i L ->
  walk (length (s_heap s)) (s_heap s) (s_tail s) x i key
  = Ret (last_or (s_head s) (lv (s_heap s) i L)).
Proof.
  intros I HL HR Hi Hx.
  pose proof (inv_path _ _ I i Hi) as Hp. rewrite lv_app in Hp.
  pose proof (inv_nodup _ _ I) as HN. pose proof (inv_alloc _ _ I) as HF.
  pose proof (inv_length_bound _ _ I) as Hlen. rewrite app_length in Hlen.
  pose proof (lv_length (s_heap s) i L) as Hll.
  apply Forall_cons in HF as [HFh HF]. apply Forall_cons in HF as [_ HF].
  apply NoDup_cons in HN as [_ HN]. apply NoDup_cons in HN as [Ht HN].
  assert (Ht' : s_tail s ∉ lv (s_heap s) i L ++ lv (s_heap s) i R).
  { rewrite <- lv_app. intros Hc. apply lv_elem in Hc as [_ Hc]. auto. }
  assert (HF' : Forall (fun l => l < length (s_heap s)) (lv (s_heap s) i L ++ lv (s_heap s) i R)).
  { rewrite <- lv_app. apply lv_Forall; exact HF. }
  apply (lv_Forall (s_heap s) i) in HL, HR.
  revert Hp Ht' HF' HL Hll Hx. generalize (lv (s_heap s) i L) as A. intros A Hp Ht' HF' HL Hll Hx.
  rewrite elem_of_cons in Hx. destruct Hx as [->|Hx].
  - eapply walk_spec; eauto; [apply (inv_16 _ _ I)|lia].
  - apply elem_of_list_split in Hx as (A1 & A2 & ->).
    assert (El : last_or (s_head s) (A1 ++ x :: A2) = last_or x A2).
    { unfold last_or. rewrite last_app. destruct A2; [reflexivity|].
      rewrite last_cons_cons. destruct (last (n :: A2)) eqn:E; [reflexivity|].
      apply last_None in E; discriminate. }
    rewrite El. eapply walk_spec with (B := lv (s_heap s) i R).
    + apply (inv_16 _ _ I).
    + exact Hi.
    + rewrite <- app_assoc in Hp. cbn in Hp. change (x :: A2 ++ ?b) with ([x] ++ (A2 ++ b)) in Hp.
      rewrite app_assoc in Hp. apply path_app in Hp.
      unfold last_or in Hp. rewrite last_snoc in Hp. exact Hp.
    + intros Hc. apply Ht'. rewrite <- app_assoc. apply elem_of_app; right. apply elem_of_list_further. exact Hc.
    + rewrite <- app_assoc in HF'. apply Forall_app in HF' as [_ HF']. exact HF'.
    + apply Forall_app in HL as [_ HL]. apply Forall_cons in HL as [_ HL]. exact HL.
    + exact HR.
    + rewrite app_length in Hll. cbn in Hll. lia.
Qed.

Lemma search_levels_spec s key L R :
  Inv s (L ++ R) ->
  Forall (fun y => ltb (ky (s_heap s) y) key = true) L ->
  Forall (fun y => ltb (ky (s_heap s) y) key = false) R ->
  forall i ctx x, i <= 16 -> length ctx = 16 ->
  x = last_or (s_head s) (lv (s_heap s) i L) ->
  (forall j, i <= j < 16 -> ctx !! j = Some (last_or (s_head s) (lv (s_heap s) j L))) ->
  exists ctx', sk_search_levels ltb (length (s_heap s)) (s_heap s) (s_tail s) x i key ctx
    = Ret (last_or (s_head s) (lv (s_heap s) 0 L), ctx') /\ ctx_ok s L ctx'.
Proof.
  intros I HL HR i; induction i as [|i IH]; intros ctx x Hi Hc Hx Hctx; cbn [sk_search_levels].
  - exists ctx. subst x. split; [reflexivity|]. split; [exact Hc|]. intros j Hj. apply Hctx. lia.
  - rewrite (walk_level s key L R i x I HL HR); [|lia|subst x; apply lv_last_mono].
    cbn [rbind]. apply IH; [lia|rewrite insert_length; exact Hc|reflexivity|].
    intros j Hj. destruct (decide (i = j)) as [->|Hne].
    + apply list_lookup_insert. lia.
    + rewrite list_lookup_insert_ne by exact Hne. apply Hctx. lia.
Qed.

Definition found s key (R : list nat) : option nat :=
  match R with y :: _ => if eqb (ky (s_heap s) y) key then Some y else None | [] => None end.

Lemma search_spec s key L R :
  Inv s (L ++ R) ->
  Forall (fun y => ltb (ky (s_heap s) y) key = true) L ->
  Forall (fun y => ltb (ky (s_heap s) y) key = false) R ->
  exists ctx, search s key = Ret (found s key R, ctx) /\ ctx_ok s L ctx.
Proof.
  intros I HL HR. unfold sk_search.
  assert (Hh : Forall (fun l => 1 <= hg (s_heap s) l <= 16) L).
  { pose proof (inv_hg _ _ I) as H. apply Forall_app in H; tauto. }
  destruct (search_levels_spec s key L R I HL HR 16 (replicate 16 0) (s_head s)) as (ctx & E & Hc).
  - lia.
  - reflexivity.
  - rewrite lv_16 by exact Hh. reflexivity.
  - intros j Hj; lia.
  - exists ctx. split; [|exact Hc]. unfold MAX_HEIGHT in *. rewrite E. cbn [rbind].
    rewrite lv_0 by exact Hh.
    pose proof (inv_path _ _ I 0 ltac:(lia)) as Hp. rewrite lv_0 in Hp by apply (inv_hg _ _ I).
    apply path_app in Hp.
    pose proof (inv_alloc _ _ I) as HF.
    assert (HFx : last_or (s_head s) L < length (s_heap s)).
    { rewrite Forall_forall in HF. apply HF. pose proof (last_or_elem (s_head s) L) as H.
      rewrite !elem_of_cons in *. rewrite elem_of_app. tauto. }
    rewrite get_next_nx by (try apply (inv_16 _ _ I); auto; lia). cbn [rbind].
    destruct R as [|y R]; cbn in Hp.
    + rewrite Hp, Nat.eqb_refl. reflexivity.
    + destruct Hp as [Hp _]. rewrite Hp.
      pose proof (inv_nodup _ _ I) as HN. apply NoDup_cons in HN as [_ HN]. apply NoDup_cons in HN as [Ht HN].
      destruct (Nat.eqb_spec y (s_tail s)) as [->|_].
      { exfalso. apply Ht. apply elem_of_app; right; constructor. }
      rewrite Forall_forall in HF.
      destruct (deref_node (s_heap s) y) as (nd & En & Ek & _).
      { apply HF. rewrite !elem_of_cons, elem_of_app, elem_of_cons. tauto. }
      rewrite En. cbn [deref rbind found]. rewrite Ek. destruct (eqb (sk_key nd) key); reflexivity.
Qed.

(** *** Insert *)
Lemma link_levels_spec ctx node n : forall h i,
  all16 h -> node < length h -> i + n <= 16 ->
  (forall j, j < 16 -> exists c, ctx !! j = Some c /\ c < length h /\ c <> node) ->
  exists h', sk_link_levels h node ctx n i = Ret h' /\ all16 h' /\ length h' = length h /\
    (forall y, ky h' y = ky h y /\ vl h' y = vl h y /\ hg h' y = hg h y) /\
    (forall y j, nx h' j y =
       if decide (i <= j < i + n) then
         (if decide (y = node) then match ctx !! j with Some c => nx h j c | None => None end
          else if decide (ctx !! j = Some y) then Some node else nx h j y)
       else nx h j y).
Proof.
  induction n as [|n IH]; intros h i Ha Hn Hi Hctx; cbn [sk_link_levels].
  - exists h. split; [reflexivity|]. do 3 (split; [auto|]).
    intros y j. destruct (decide _); [lia|reflexivity].
  - destruct (Hctx i) as (c & Ec & Hc & Hcn); [lia|]. rewrite Ec. cbn [deref rbind].
    rewrite get_next_nx by (auto; lia). cbn [rbind].
    destruct (set_next_spec h node i (nx h i c)) as (h1 & E1 & Ha1 & Hl1 & Hk1 & Hx1); [auto|auto|lia|].
    rewrite E1. cbn [rbind].
    destruct (set_next_spec h1 c i (Some node)) as (h2 & E2 & Ha2 & Hl2 & Hk2 & Hx2); [auto|lia|lia|].
    rewrite E2. cbn [rbind].
    destruct (IH h2 (S i)) as (h3 & E3 & Ha3 & Hl3 & Hk3 & Hx3); [auto|lia|lia| |].
    { intros j Hj. destruct (Hctx j Hj) as (c' & ? & ? & ?). exists c'. repeat split; auto; lia. }
    exists h3. split; [exact E3|]. split; [exact Ha3|]. split; [lia|]. split.
    + intros y. destruct (Hk3 y) as (-> & -> & ->). destruct (Hk2 y) as (-> & -> & ->). apply Hk1.
    + intros y j. rewrite Hx3.
      assert (Hx12 : forall y j, nx h2 j y = if decide (j = i) then
                 (if decide (y = node) then nx h i c else if decide (y = c) then Some node else nx h j y)
               else nx h j y).
      { intros y' j'. rewrite Hx2, !Hx1.
        destruct (decide (j' = i)) as [->|Hne].
        - destruct (decide (y' = c /\ i = i)) as [[-> _]|Hyc].
          + destruct (decide (c = node)); [congruence|]. destruct (decide (c = c)); [reflexivity|congruence].
          + destruct (decide (y' = node /\ i = i)) as [[-> _]|Hyn].
            * destruct (decide (node = node)); [reflexivity|congruence].
            * destruct (decide (y' = node)); [exfalso; apply Hyn; auto|].
              destruct (decide (y' = c)); [exfalso; apply Hyc; auto|reflexivity].
        - destruct (decide (y' = c /\ j' = i)) as [[_ ?]|_]; [congruence|].
          destruct (decide (y' = node /\ j' = i)) as [[_ ?]|_]; [congruence|reflexivity]. }
      destruct (decide (S i <= j < S i + n)) as [Hj|Hj].
      * destruct (decide (i <= j < i + S n)) as [_|?]; [|lia].
        destruct (decide (y = node)) as [->|Hy].
        -- destruct (ctx !! j) as [c'|] eqn:Ec'; [|reflexivity].
           rewrite Hx12. destruct (decide (j = i)); [lia|reflexivity].
        -- destruct (decide (ctx !! j = Some y)); [reflexivity|].
           rewrite Hx12. destruct (decide (j = i)); [lia|reflexivity].
      * rewrite Hx12. destruct (decide (j = i)) as [->|Hji].
        -- destruct (decide (i <= i < i + S n)) as [_|?]; [|lia]. rewrite Ec.
           destruct (decide (y = node)); [reflexivity|].
           destruct (decide (y = c)) as [->|].
           ++ destruct (decide (Some c = Some c)); [reflexivity|congruence].
           ++ destruct (decide (Some c = Some y)); [congruence|reflexivity].
        -- destruct (decide (i <= j < i + S n)); [lia|reflexivity].
Qed.

Lemma lv_ext h h' i locs : (forall x, x ∈ locs -> hg h' x = hg h x) -> lv h' i locs = lv h i locs.
Proof.
  intros H. unfold lv. induction locs as [|l locs IH]; [reflexivity|].
  rewrite !filter_cons. rewrite (H l) by constructor.
  rewrite IH by (intros; apply H; apply elem_of_list_further; assumption). reflexivity.
Qed.

Lemma StronglySorted_ext {X} (P Q : X -> X -> Prop) l :
  (forall x y, x ∈ l -> y ∈ l -> P x y -> Q x y) -> StronglySorted P l -> StronglySorted Q l.
Proof.
  intros H HS. induction HS as [|x l HS IH HF]; [constructor|].
  constructor.
  - apply IH. intros; apply H; try apply elem_of_list_further; assumption.
  - rewrite Forall_forall in *. intros y Hy. apply H; [constructor|apply elem_of_list_further; exact Hy|auto].
Qed.
Lemma StronglySorted_app_inv {X} (P : X -> X -> Prop) A B :
  StronglySorted P (A ++ B) -> StronglySorted P A /\ StronglySorted P B /\
  forall x y, x ∈ A -> y ∈ B -> P x y.
Proof.
  induction A as [|a A IH]; cbn; intros H.
  - split; [constructor|]. split; [exact H|]. intros x y Hx; inversion Hx.
  - apply StronglySorted_inv in H as [H HF]. destruct (IH H) as (H1 & H2 & H3).
    apply Forall_app in HF as [HF1 HF2]. split; [constructor; auto|]. split; [exact H2|].
    intros x y Hx Hy. rewrite elem_of_cons in Hx. destruct Hx as [->|Hx]; [|auto].
    rewrite Forall_forall in HF2. auto.
Qed.
Lemma StronglySorted_app_mk {X} (P : X -> X -> Prop) A B :
  StronglySorted P A -> StronglySorted P B -> (forall x y, x ∈ A -> y ∈ B -> P x y) ->
  StronglySorted P (A ++ B).
Proof.
  induction A as [|a A IH]; cbn; intros HA HB H; [exact HB|].
  apply StronglySorted_inv in HA as [HA HF]. constructor.
  - apply IH; auto. intros; apply H; [apply elem_of_list_further|]; assumption.
  - apply Forall_app; split; [exact HF|]. rewrite Forall_forall. intros y Hy. apply H; [constructor|exact Hy].
Qed.

(** the nodes that a call may have changed are live ones (or head), or new *)
Definition frame s locs s' : Prop :=
  length (s_heap s) <= length (s_heap s') /\
  (forall y, y < length (s_heap s) -> ky (s_heap s') y = ky (s_heap s) y) /\
  (forall y, y < length (s_heap s) -> y ∉ s_head s :: locs -> s_heap s' !! y = s_heap s !! y).

Lemma inv_elem_bound s locs x : Inv s locs -> x ∈ s_head s :: s_tail s :: locs -> x < length (s_heap s).
Proof. intros I Hx. pose proof (inv_alloc _ _ I) as HF. rewrite Forall_forall in HF. auto. Qed.

(** value update in place *)
Lemma update_inv s locs x v nd :
  Inv s locs -> x ∈ locs -> s_heap s !! x = Some nd ->
  let s' := Skl (<[x := SkNode (sk_key nd) v (sk_next nd) (sk_height nd)]> (s_heap s))
               (s_head s) (s_tail s) (s_seed s) (s_len s) in
  Inv s' locs /\ frame s locs s' /\
  (forall y, y <> x -> ent (s_heap s') y = ent (s_heap s) y) /\ ent (s_heap s') x = (ky (s_heap s) x, v).
Proof.
  intros I Hx E s'. destruct s as [h hd tl sd ln]. cbn [s_heap s_head s_tail s_seed s_len] in *.
  assert (Hlt := lookup_lt_Some _ _ _ E).
  assert (Hn : forall i y, nx (s_heap s') i y = nx h i y).
  { intros i y. unfold nx, s'; cbn. destruct (decide (x = y)) as [->|Hne].
    - rewrite list_lookup_insert by exact Hlt. rewrite E. reflexivity.
    - rewrite list_lookup_insert_ne by exact Hne. reflexivity. }
  assert (Hk : forall y, ky (s_heap s') y = ky h y /\ hg (s_heap s') y = hg h y).
  { intros y. unfold ky, hg, s'; cbn. destruct (decide (x = y)) as [->|Hne].
    - rewrite list_lookup_insert by exact Hlt. rewrite E. auto.
    - rewrite list_lookup_insert_ne by exact Hne. auto. }
  split; [|split; [|split]].
  - destruct I as [IN IA I16 IP IH IS IT IL]; cbn in *. constructor; cbn [s_heap s_head s_tail s_len s'].
    + exact IN.
    + rewrite insert_length. exact IA.
    + apply Forall_insert; [exact I16|]. cbn. unfold all16 in I16. rewrite Forall_lookup in I16. apply (I16 _ _ E).
    + intros i Hi. change (<[x:=_]> h) with (s_heap s').
      rewrite (lv_ext h) by (intros; apply Hk).
      eapply path_ext; [|apply IP; exact Hi]. intros; apply Hn.
    + change (<[x:=_]> h) with (s_heap s'). eapply Forall_impl; [exact IH|]. cbn; intros y Hy. rewrite (proj2 (Hk y)). exact Hy.
    + change (<[x:=_]> h) with (s_heap s'). eapply StronglySorted_ext; [|exact IS].
      cbn. intros a b _ _ Hab. rewrite !(proj1 (Hk _)). exact Hab.
    + change (<[x:=_]> h) with (s_heap s'). rewrite Hn. exact IT.
    + exact IL.
  - split; [|split]; cbn.
    + rewrite insert_length; lia.
    + intros y _. apply Hk.
    + intros y _ Hy. apply list_lookup_insert_ne. intros ->. apply Hy. apply elem_of_list_further; exact Hx.
  - intros y Hy. unfold ent, ky, vl, s'; cbn. rewrite !list_lookup_insert_ne by congruence. reflexivity.
  - unfold ent, ky, vl, s'; cbn. rewrite !list_lookup_insert by exact Hlt. rewrite E. reflexivity.
Qed.

(** The part of Insert that adds a node, for whatever comparisons the search
    was made with: the order of the keys is a premise. *)
Lemma insert_core (ltb' eqb' : K -> K -> bool) s key v L R ctx :
  Inv s (L ++ R) -> sk_search ltb' eqb' s key = Ret (None, ctx) -> ctx_ok s L ctx ->
  (forall h', (forall y, y ∈ L ++ R -> ky h' y = ky (s_heap s) y) -> ky h' (length (s_heap s)) = key ->
     StronglySorted (fun x y => ltb (ky h' x) (ky h' y) = true) (L ++ length (s_heap s) :: R)) ->
  exists s', sk_insert ltb' eqb' s key v = Ret s' /\ s_head s' = s_head s /\ s_tail s' = s_tail s /\
    frame s (L ++ R) s' /\
    let n := length (s_heap s) in
    Inv s' (L ++ n :: R) /\ (forall y, y <> n -> ent (s_heap s') y = ent (s_heap s) y)
    /\ ent (s_heap s') n = (key, v).
Proof.
  intros I E [Hcl Hctx] Hsort. unfold sk_insert. rewrite E. cbn [rbind].
    pose proof (rand_height_range (s_seed s)) as Hrh.
    destruct (rand_height (s_seed s)) as [seed level]. cbn in Hrh.
    set (n := length (s_heap s)). set (h := s_heap s) in *.
    set (h0 := h ++ [SkNode key v (replicate MAX_HEIGHT None) level]).
    assert (Hold : forall y, y < n -> h0 !! y = h !! y) by (intros; apply lookup_app_l; assumption).
    assert (Hnew : h0 !! n = Some (SkNode key v (replicate MAX_HEIGHT None) level)).
    { unfold h0, n. rewrite lookup_app_r, Nat.sub_diag by lia. reflexivity. }
    assert (Hl0 : length h0 = S n) by (unfold h0; rewrite app_length; cbn; unfold n; lia).
    assert (Hkold : forall y, y <> n -> ky h0 y = ky h y /\ vl h0 y = vl h y /\ hg h0 y = hg h y /\ forall i, nx h0 i y = nx h i y).
    { intros y Hy. destruct (decide (y < n)).
      - unfold ky, vl, hg, nx. rewrite Hold by assumption. auto.
      - assert (h0 !! y = None) by (apply lookup_ge_None_2; lia).
        assert (h !! y = None) by (apply lookup_ge_None_2; unfold n in *; lia).
        unfold ky, vl, hg, nx. rewrite H, H0. auto. }
    assert (Ha0 : all16 h0).
    { apply Forall_app; split; [apply (inv_16 _ _ I)|]. constructor; [reflexivity|constructor]. }
    assert (Hcb : forall j, j < 16 -> last_or (s_head s) (lv h j L) < n).
    { intros j Hj. eapply inv_elem_bound; [exact I|].
      pose proof (last_or_elem (s_head s) (lv h j L)) as H. rewrite !elem_of_cons in *.
      rewrite elem_of_app. destruct H as [H|H]; [auto|]. apply lv_elem in H. tauto. }
    destruct (link_levels_spec ctx n level h0 0) as (h' & E' & Ha' & Hl' & Hk' & Hx'); [auto|lia|lia| |].
    { intros j Hj. exists (last_or (s_head s) (lv h j L)). rewrite Hctx by exact Hj.
      specialize (Hcb j Hj). split; [reflexivity|]. lia. }
    rewrite E'. cbn [rbind]. eexists; split; [reflexivity|]. cbn [s_head s_tail s_heap].
    split; [reflexivity|]. split; [reflexivity|].
    assert (Hnl : n ∉ s_head s :: s_tail s :: L ++ R).
    { intros Hc. apply (inv_elem_bound _ _ _ I) in Hc. fold h in Hc. fold n in Hc. lia. }
    assert (Hkn : ky h' n = key /\ vl h' n = v /\ hg h' n = level).
    { destruct (Hk' n) as (-> & -> & ->). unfold ky, vl, hg. rewrite Hnew. auto. }
    assert (Hko : forall y, y <> n -> ky h' y = ky h y /\ vl h' y = vl h y /\ hg h' y = hg h y).
    { intros y Hy. destruct (Hk' y) as (-> & -> & ->). destruct (Hkold y Hy) as (? & ? & ? & _). auto. }
    assert (Hnode : forall y, y < n -> y ∉ s_head s :: L ++ R -> h' !! y = h !! y).
    { intros y Hy Hyl.
      destruct (lookup_lt_is_Some_2 h' y ltac:(lia)) as [nd' End'].
      destruct (lookup_lt_is_Some_2 h y ltac:(unfold n in Hy; lia)) as [nd End].
      rewrite End', End. f_equal. destruct nd as [k0 v0 nx0 g0], nd' as [k1 v1 nx1 g1].
      destruct (Hko y ltac:(lia)) as (A1 & A2 & A3).
      unfold ky, vl, hg in A1, A2, A3. rewrite End, End' in A1, A2, A3. cbn in *. subst.
      assert (L0 : length nx0 = 16).
      { pose proof (inv_16 _ _ I) as H16. unfold all16 in H16. rewrite Forall_lookup in H16. apply (H16 _ _ End). }
      assert (L1 : length nx1 = 16) by (unfold all16 in Ha'; rewrite Forall_lookup in Ha'; apply (Ha' _ _ End')).
      f_equal. apply list_eq. intros j. destruct (decide (j < 16)) as [Hj|Hj].
      - pose proof (Hx' y j) as Hxj. destruct (Hkold y ltac:(lia)) as (_ & _ & _ & Hxo).
        rewrite Hctx in Hxj by exact Hj.
        destruct (decide (y = n)); [lia|].
        destruct (decide (Some (last_or (s_head s) (lv h j L)) = Some y)) as [[= Ey]|_].
        { exfalso. apply Hyl. rewrite <- Ey. pose proof (last_or_elem (s_head s) (lv h j L)) as H.
          rewrite !elem_of_cons in *. rewrite elem_of_app. destruct H as [H|H]; [auto|]. apply lv_elem in H. tauto. }
        assert (Hq : nx h' j y = nx h j y) by (rewrite Hxj; destruct (decide _); apply Hxo).
        unfold nx in Hq. rewrite End, End' in Hq. cbn in Hq.
        destruct (lookup_lt_is_Some_2 nx0 j ltac:(lia)) as [o0 Eo0].
        destruct (lookup_lt_is_Some_2 nx1 j ltac:(lia)) as [o1 Eo1].
        rewrite Eo0, Eo1 in *. congruence.
      - rewrite !lookup_ge_None_2 by lia. reflexivity. }
    assert (HPm : s_head s :: s_tail s :: L ++ n :: R ≡ₚ n :: s_head s :: s_tail s :: L ++ R).
    { rewrite <- (Permutation_middle L R n). rewrite (Permutation_swap n (s_tail s)). apply (Permutation_swap n (s_head s)). }
    split; [|split; [|split]].
    + split; [|split]; cbn [s_heap s_head].
      * fold h. fold n. lia.
      * intros y Hy. fold h in Hy. fold n in Hy. apply Hko. lia.
      * intros y Hy. fold h in Hy. fold n in Hy. apply Hnode. exact Hy.
    + destruct I as [IN IA I16 IP IH IS IT IL]. constructor; cbn [s_heap s_head s_tail s_len].
      * rewrite HPm. constructor; assumption.
      * rewrite HPm. constructor; [lia|]. eapply Forall_impl; [exact IA|]. cbn; intros y Hy.
        fold h in Hy. fold n in Hy. lia.
      * exact Ha'.
      * intros i Hi. rewrite lv_app.
        assert (EL : lv h' i L = lv h i L).
        { apply lv_ext. intros y Hy. apply Hko. intros ->. apply Hnl. do 2 apply elem_of_list_further.
          apply elem_of_app; auto. }
        assert (ER : lv h' i R = lv h i R).
        { apply lv_ext. intros y Hy. apply Hko. intros ->. apply Hnl. do 2 apply elem_of_list_further.
          apply elem_of_app; auto. }
        specialize (IP i Hi). fold h in IP. rewrite lv_app in IP.
        assert (HND : NoDup (s_head s :: lv h i L ++ lv h i R)).
        { rewrite <- lv_app. apply NoDup_cons in IN as [IN1 IN2]. apply NoDup_cons in IN2 as [_ IN2].
          constructor; [|apply lv_NoDup; exact IN2]. intros Hc. apply lv_elem in Hc as [_ Hc].
          apply IN1. apply elem_of_list_further; exact Hc. }
        assert (HnLR : n ∉ s_head s :: lv h i L ++ lv h i R).
        { rewrite <- lv_app. intros Hc. apply Hnl. rewrite elem_of_cons in *. rewrite elem_of_cons.
          destruct Hc as [Hc|Hc]; [auto|]. apply lv_elem in Hc. tauto. }
        unfold lv at 2. rewrite filter_cons. fold (lv h' i R). rewrite EL, ER.
        destruct Hkn as (_ & _ & Hgn). rewrite Hgn.
        destruct (decide (i < level)) as [Hil|Hil].
        -- eapply path_insert; [exact HND|exact HnLR| | | |exact IP].
           ++ intros y Hy Hyl. rewrite Hx'. rewrite Hctx by exact Hi.
              destruct (decide (y = n)) as [->|Hyn]; [contradiction|].
              destruct (decide (Some _ = Some y)); [congruence|].
              destruct (decide _); apply Hkold; exact Hyn.
           ++ rewrite Hx'. rewrite Hctx by exact Hi. specialize (Hcb i Hi).
              destruct (decide (0 <= i < 0 + level)); [|lia].
              destruct (decide (_ = n)); [lia|]. fold h. destruct (decide (Some _ = Some _)); [reflexivity|congruence].
           ++ rewrite Hx'. rewrite Hctx by exact Hi. specialize (Hcb i Hi).
              destruct (decide (0 <= i < 0 + level)); [|lia].
              destruct (decide (n = n)); [|congruence]. apply Hkold. fold h. lia.
        -- eapply path_ext; [|exact IP]. intros y Hy. rewrite Hx'.
           destruct (decide (0 <= i < 0 + level)); [lia|]. apply Hkold. intros ->. contradiction.
      * apply Forall_app in IH as [IH1 IH2].
        assert (Hg : forall l, Forall (fun l => 1 <= hg h l <= 16) l -> (n ∉ l) -> Forall (fun l => 1 <= hg h' l <= 16) l).
        { intros l Hl Hnl'. rewrite Forall_forall in *. intros y Hy.
          destruct (Hko y) as (_ & _ & ->); [intros ->; contradiction|]. auto. }
        rewrite !not_elem_of_cons, not_elem_of_app in Hnl.
        apply Forall_app; split; [apply Hg; tauto|]. constructor; [|apply Hg; tauto].
        destruct Hkn as (_ & _ & ->). exact Hrh.
      * apply Hsort.
        -- intros y Hy. apply Hko. intros ->. apply Hnl. do 2 apply elem_of_list_further. exact Hy.
        -- apply Hkn.
      * rewrite Hx'. rewrite Hctx by lia.
        assert (Htn : s_tail s <> n) by (intros E0; apply Hnl; rewrite <- E0; apply elem_of_list_further; constructor).
        destruct (decide (s_tail s = n)); [contradiction|].
        destruct (decide (Some _ = Some (s_tail s))) as [[= Et]|_].
        { exfalso. pose proof (last_or_elem (s_head s) (lv h 0 L)) as H. fold h in Et. rewrite Et in H.
          apply NoDup_cons in IN as [IN1 IN2]. apply NoDup_cons in IN2 as [IN2 _].
          rewrite elem_of_cons in H. destruct H as [H|H].
          - apply IN1. rewrite H. constructor.
          - apply IN2. apply elem_of_app; left. apply lv_elem in H. tauto. }
        destruct (decide _); (destruct (Hkold _ Htn) as (_ & _ & _ & ->); exact IT).
      * rewrite IL, !app_length. cbn [length]. lia.
    + intros y Hy. unfold ent. destruct (Hko y Hy) as (-> & -> & _). reflexivity.
    + unfold ent. destruct Hkn as (-> & -> & _). reflexivity.
Qed.

Lemma insert_inv s key v L R :
  Inv s (L ++ R) ->
  Forall (fun y => ltb (ky (s_heap s) y) key = true) L ->
  Forall (fun y => ltb (ky (s_heap s) y) key = false) R ->
  exists s', sk_insert ltb eqb s key v = Ret s' /\ s_head s' = s_head s /\ s_tail s' = s_tail s /\
    frame s (L ++ R) s' /\
    match found s key R with
    | Some x => Inv s' (L ++ R) /\ (forall y, y <> x -> ent (s_heap s') y = ent (s_heap s) y)
                /\ ent (s_heap s') x = (ky (s_heap s) x, v)
    | None => let n := length (s_heap s) in
              Inv s' (L ++ n :: R) /\ (forall y, y <> n -> ent (s_heap s') y = ent (s_heap s) y)
              /\ ent (s_heap s') n = (key, v)
    end.
Proof.
  intros I HL HR. destruct (search_spec s key L R I HL HR) as (ctx & E & Hcl & Hctx).
  destruct (found s key R) as [x|] eqn:Ef.
  - unfold sk_insert. rewrite E. cbn [rbind]. destruct R as [|y R]; [discriminate|]. cbn in Ef.
    destruct (eqb (ky (s_heap s) y) key); [|discriminate]. injection Ef as <-.
    assert (Hy : y ∈ L ++ y :: R) by (apply elem_of_app; right; constructor).
    destruct (deref_node (s_heap s) y) as (nd & En & _).
    { eapply inv_elem_bound; [exact I|]. do 2 apply elem_of_list_further. exact Hy. }
    rewrite En. cbn [deref rbind]. eexists; split; [reflexivity|].
    destruct (update_inv s _ y v nd I Hy En) as (H1 & H2 & H3 & H4). auto 10.
  - apply (insert_core ltb eqb s key v L R ctx I E (conj Hcl Hctx)).
    intros h' Hky Hkn. set (h := s_heap s) in *. set (n := length h) in *.
    pose proof (inv_sorted _ _ I) as IS. fold h in IS.
    apply StronglySorted_app_inv in IS as (IS1 & IS2 & IS3).
    assert (Hky' : forall y, y ∈ L \/ y ∈ R -> ky h' y = ky h y).
    { intros y Hy. apply Hky. apply elem_of_app; exact Hy. }
    apply StronglySorted_app_mk.
    + eapply StronglySorted_ext; [|exact IS1]. cbn. intros a b Ha Hb. rewrite !Hky' by auto. auto.
    + constructor.
      * eapply StronglySorted_ext; [|exact IS2]. cbn. intros a b Ha Hb. rewrite !Hky' by auto. auto.
      * rewrite Hkn. rewrite Forall_forall. intros y Hy. rewrite Hky' by auto.
        destruct R as [|r R]; [inversion Hy|]. cbn in Ef. fold h in Ef.
        destruct (eqb (ky h r) key) eqn:Eq; [discriminate|].
        apply Forall_cons in HR as [HR1 _]. fold h in HR1.
        assert (Hkr := neqb_nlt_gt _ _ Eq HR1).
        rewrite elem_of_cons in Hy. destruct Hy as [->|Hy]; [exact Hkr|].
        apply StronglySorted_inv in IS2 as [_ IS2]. rewrite Forall_forall in IS2.
        eapply (lt_trans _ _ SWO); [exact Hkr|]. apply IS2; exact Hy.
    + intros a b Ha Hb. rewrite (Hky' a) by auto. rewrite elem_of_cons in Hb. destruct Hb as [->|Hb].
      * rewrite Hkn. rewrite Forall_forall in HL. apply HL; exact Ha.
      * rewrite Hky' by auto. apply IS3; assumption.
Qed.

(** *** Delete *)
Lemma unlink_levels_spec ctx x n : forall h i,
  all16 h -> x < length h -> i + n <= 16 ->
  (forall j, j < 16 -> exists c, ctx !! j = Some c /\ c < length h /\ c <> x) ->
  exists h', sk_unlink_levels h x ctx n i = Ret h' /\ all16 h' /\ length h' = length h /\
    (forall y, ky h' y = ky h y /\ vl h' y = vl h y /\ hg h' y = hg h y) /\
    (forall y j, nx h' j y =
       if decide (i <= j < i + n) then
         if decide (ctx !! j = Some y) then nx h j x else nx h j y
       else nx h j y).
Proof.
  induction n as [|n IH]; intros h i Ha Hn Hi Hctx; cbn [sk_unlink_levels].
  - exists h. split; [reflexivity|]. do 3 (split; [auto|]).
    intros y j. destruct (decide _); [lia|reflexivity].
  - destruct (Hctx i) as (c & Ec & Hc & Hcn); [lia|]. rewrite Ec. cbn [deref rbind].
    rewrite get_next_nx by (auto; lia). cbn [rbind].
    destruct (set_next_spec h c i (nx h i x)) as (h1 & E1 & Ha1 & Hl1 & Hk1 & Hx1); [auto|auto|lia|].
    rewrite E1. cbn [rbind].
    destruct (IH h1 (S i)) as (h3 & E3 & Ha3 & Hl3 & Hk3 & Hx3); [auto|lia|lia| |].
    { intros j Hj. destruct (Hctx j Hj) as (c' & ? & ? & ?). exists c'. repeat split; auto; lia. }
    exists h3. split; [exact E3|]. split; [exact Ha3|]. split; [lia|]. split.
    + intros y. destruct (Hk3 y) as (-> & -> & ->). apply Hk1.
    + intros y j. rewrite Hx3, !Hx1.
      destruct (decide (x = c /\ j = i)) as [[? _]|_]; [congruence|].
      destruct (decide (S i <= j < S i + n)) as [Hj|Hj].
      * destruct (decide (i <= j < i + S n)) as [_|?]; [|lia].
        destruct (decide (ctx !! j = Some y)); [reflexivity|].
        destruct (decide (y = c /\ j = i)); [lia|reflexivity].
      * destruct (decide (i <= j < i + S n)) as [Hj'|Hj'].
        -- assert (j = i) as -> by lia. rewrite Ec.
           destruct (decide (y = c /\ i = i)) as [[-> _]|Hy].
           ++ destruct (decide (Some c = Some c)); [reflexivity|congruence].
           ++ destruct (decide (Some c = Some y)) as [[= ->]|_]; [exfalso; apply Hy; auto|reflexivity].
        -- destruct (decide (y = c /\ j = i)); [lia|reflexivity].
Qed.

(** The part of Delete that unlinks a node, for whatever comparisons the search
    was made with. *)
Lemma delete_core (ltb' eqb' : K -> K -> bool) s key x L R ctx :
  Inv s (L ++ x :: R) -> sk_search ltb' eqb' s key = Ret (Some x, ctx) -> ctx_ok s L ctx ->
  exists s', sk_delete ltb' eqb' s key = Ret (s', true) /\
      s_head s' = s_head s /\ s_tail s' = s_tail s /\ frame s (L ++ R) s' /\
      length (s_heap s') = length (s_heap s) /\
      Inv s' (L ++ R) /\ (forall y, ent (s_heap s') y = ent (s_heap s) y).
Proof.
  intros I E [Hcl Hctx]. unfold sk_delete. rewrite E. cbn [rbind].
  assert (Hx : x ∈ L ++ x :: R) by (apply elem_of_app; right; constructor).
  destruct (deref_node (s_heap s) x) as (nd & En & _ & _ & Eh).
  { eapply inv_elem_bound; [exact I|]. do 2 apply elem_of_list_further. exact Hx. }
  rewrite En. cbn [deref rbind]. rewrite <- Eh. set (h := s_heap s) in *.
  assert (Hxlt := lookup_lt_Some _ _ _ En).
  pose proof I as I0. destruct I as [IN IA I16 IP IH IS IT IL].
  assert (Hxg : 1 <= hg h x <= 16) by (rewrite Forall_forall in IH; apply IH; exact Hx).
  assert (HxL : x ∉ s_head s :: L ++ R).
  { apply NoDup_cons in IN as [IN1 IN2]. apply NoDup_cons in IN2 as [IN2 IN3].
    rewrite <- Permutation_middle in IN3. apply NoDup_cons in IN3 as [IN3 _].
    rewrite elem_of_cons. intros [->|Hc]; [|auto]. apply IN1. apply elem_of_list_further; exact Hx. }
  assert (HcL : forall j, last_or (s_head s) (lv h j L) ∈ s_head s :: L ++ R).
  { intros j. pose proof (last_or_elem (s_head s) (lv h j L)) as H. rewrite elem_of_cons in *.
    rewrite elem_of_app. destruct H as [H|H]; [auto|]. apply lv_elem in H. tauto. }
  assert (HcB : forall y, y ∈ s_head s :: L ++ R -> y < length h).
  { intros y Hy. eapply inv_elem_bound; [exact I0|]. rewrite !elem_of_cons, !elem_of_app in *.
    rewrite elem_of_cons. tauto. }
  destruct (unlink_levels_spec ctx x (hg h x) h 0) as (h' & E' & Ha' & Hl' & Hk' & Hx'); [auto|auto|lia| |].
  { intros j Hj. eexists; split; [apply Hctx; exact Hj|]. fold h. split; [apply HcB, HcL|].
    intros Hc. apply HxL. rewrite <- Hc. apply HcL. }
  rewrite E'. cbn [rbind]. eexists; split; [reflexivity|]. cbn [s_head s_tail s_heap].
  split; [reflexivity|]. split; [reflexivity|].
  assert (HPm : s_head s :: s_tail s :: L ++ x :: R ≡ₚ x :: s_head s :: s_tail s :: L ++ R).
  { rewrite <- (Permutation_middle L R x). rewrite (Permutation_swap x (s_tail s)). apply (Permutation_swap x (s_head s)). }
  assert (HN' : NoDup (s_head s :: s_tail s :: L ++ R)).
  { rewrite HPm in IN. apply NoDup_cons in IN; tauto. }
  split; [|split; [exact Hl'|split]].
  - split; [|split]; cbn [s_heap s_head].
    + fold h. lia.
    + intros y _. apply Hk'.
    + intros y Hy Hyl. fold h in Hy |- *.
      destruct (lookup_lt_is_Some_2 h' y ltac:(lia)) as [nd' End'].
      destruct (lookup_lt_is_Some_2 h y ltac:(lia)) as [nd0 End].
      rewrite End', End. f_equal. destruct nd0 as [k0 v0 nx0 g0], nd' as [k1 v1 nx1 g1].
      destruct (Hk' y) as (A1 & A2 & A3).
      unfold ky, vl, hg in A1, A2, A3. rewrite End, End' in A1, A2, A3. cbn in A1, A2, A3. subst.
      assert (L0 : length nx0 = 16) by (unfold all16 in I16; rewrite Forall_lookup in I16; apply (I16 _ _ End)).
      assert (L1 : length nx1 = 16) by (unfold all16 in Ha'; rewrite Forall_lookup in Ha'; apply (Ha' _ _ End')).
      f_equal. apply list_eq. intros j. destruct (decide (j < 16)) as [Hj|Hj].
      * pose proof (Hx' y j) as Hxj.
        rewrite Hctx in Hxj by exact Hj. fold h in Hxj.
        destruct (decide (Some (last_or (s_head s) (lv h j L)) = Some y)) as [[= Ey]|_].
        { exfalso. apply Hyl. rewrite <- Ey. apply HcL. }
        assert (Hq : nx h' j y = nx h j y) by (rewrite Hxj; destruct (decide _); reflexivity).
        unfold nx in Hq. rewrite End, End' in Hq. cbn in Hq.
        destruct (lookup_lt_is_Some_2 nx0 j ltac:(lia)) as [o0 Eo0].
        destruct (lookup_lt_is_Some_2 nx1 j ltac:(lia)) as [o1 Eo1].
        rewrite Eo0, Eo1 in *. congruence.
      * rewrite !lookup_ge_None_2 by lia. reflexivity.
  - constructor; cbn [s_heap s_head s_tail s_len].
    + exact HN'.
    + rewrite HPm in IA. apply Forall_cons in IA as [_ IA]. rewrite Hl'. exact IA.
    + exact Ha'.
    + intros i Hi. rewrite (lv_ext h) by (intros; apply Hk'). rewrite lv_app.
      specialize (IP i Hi). fold h in IP. rewrite lv_app in IP. unfold lv at 2 in IP. rewrite filter_cons in IP.
      fold (lv h i R) in IP.
      assert (HND : NoDup (s_head s :: lv h i L ++ lv h i R)).
      { rewrite <- lv_app. apply NoDup_cons in HN' as [IN1 IN2]. apply NoDup_cons in IN2 as [_ IN2].
        constructor; [|apply lv_NoDup; exact IN2]. intros Hc. apply lv_elem in Hc as [_ Hc].
        apply IN1. apply elem_of_list_further; exact Hc. }
      assert (HxLR : x ∉ s_head s :: lv h i L ++ lv h i R).
      { rewrite <- lv_app. intros Hc. apply HxL. rewrite elem_of_cons in *.
        destruct Hc as [Hc|Hc]; [auto|]. apply lv_elem in Hc. tauto. }
      destruct (decide (i < hg h x)) as [Hil|Hil].
      * eapply path_remove; [| | |exact IP].
        -- assert (HPi : s_head s :: lv h i L ++ x :: lv h i R ≡ₚ x :: s_head s :: lv h i L ++ lv h i R).
           { rewrite <- Permutation_middle. apply Permutation_swap. }
           rewrite HPi. constructor; assumption.
        -- intros y Hy Hyl. rewrite Hx'. rewrite Hctx by exact Hi. fold h.
           destruct (decide (Some _ = Some y)); [congruence|]. destruct (decide _); reflexivity.
        -- rewrite Hx'. rewrite Hctx by exact Hi. fold h.
           destruct (decide (0 <= i < 0 + hg h x)); [|lia].
           destruct (decide (Some _ = Some _)); [reflexivity|congruence].
      * eapply path_ext; [|exact IP]. intros y Hy. rewrite Hx'.
        destruct (decide (0 <= i < 0 + hg h x)); [lia|]. reflexivity.
    + rewrite Forall_forall in *. intros y Hy. destruct (Hk' y) as (_ & _ & ->). apply IH.
      rewrite elem_of_app in *. rewrite elem_of_cons. tauto.
    + apply StronglySorted_app_inv in IS as (IS1 & IS2 & IS3). apply StronglySorted_inv in IS2 as [IS2 _].
      eapply StronglySorted_ext with (P := fun x y => ltb (ky h x) (ky h y) = true).
      { cbn. intros a b _ _. destruct (Hk' a) as (-> & _). destruct (Hk' b) as (-> & _). auto. }
      apply StronglySorted_app_mk; [exact IS1|exact IS2|].
      intros a b Ha Hb. apply IS3; [exact Ha|apply elem_of_list_further; exact Hb].
    + rewrite Hx'. rewrite Hctx by lia. fold h.
      destruct (decide (Some _ = Some (s_tail s))) as [[= Et]|_].
      { exfalso. specialize (HcL 0). rewrite Et in HcL.
        apply NoDup_cons in HN' as [IN1 IN2]. apply NoDup_cons in IN2 as [IN2 _].
        rewrite elem_of_cons in HcL. destruct HcL as [H|H]; [|auto].
        apply IN1. rewrite H. constructor. }
      destruct (decide _); exact IT.
    + rewrite IL, !app_length. cbn [length]. lia.
  - intros y. unfold ent. destruct (Hk' y) as (-> & -> & _). reflexivity.
Qed.

Lemma delete_inv s key L R :
  Inv s (L ++ R) ->
  Forall (fun y => ltb (ky (s_heap s) y) key = true) L ->
  Forall (fun y => ltb (ky (s_heap s) y) key = false) R ->
  match found s key R with
  | None => sk_delete ltb eqb s key = Ret (s, false)
  | Some x => exists R' s', R = x :: R' /\ sk_delete ltb eqb s key = Ret (s', true) /\
      s_head s' = s_head s /\ s_tail s' = s_tail s /\ frame s (L ++ R') s' /\
      length (s_heap s') = length (s_heap s) /\
      Inv s' (L ++ R') /\ (forall y, ent (s_heap s') y = ent (s_heap s) y)
  end.
Proof.
  intros I HL HR. destruct (search_spec s key L R I HL HR) as (ctx & E & Hcl & Hctx).
  destruct (found s key R) as [x|] eqn:Ef; [|unfold sk_delete; rewrite E; reflexivity].
  destruct R as [|y R]; [discriminate|]. cbn in Ef.
  destruct (eqb (ky (s_heap s) y) key); [|discriminate]. injection Ef as ->.
  exists R. destruct (delete_core ltb eqb s key x L R ctx I E (conj Hcl Hctx)) as (s' & H). exists s'. tauto.
Qed.

(** *** New and Clear *)
Lemma new_inv h seed : all16 h -> Inv (new_on zeroK zeroV h seed) [].
Proof.
  intros Ha.
  set (n := length h). set (hd := SkNode zeroK zeroV (replicate MAX_HEIGHT (Some (S n))) 0).
  set (tl := SkNode zeroK zeroV (replicate MAX_HEIGHT None) 0 : sknode).
  assert (E1 : (h ++ [hd; tl]) !! n = Some hd) by (unfold n; rewrite lookup_app_r, Nat.sub_diag by lia; reflexivity).
  assert (E2 : (h ++ [hd; tl]) !! (S n) = Some tl).
  { rewrite lookup_app_r by (unfold n; lia). unfold n. replace (S (length h) - length h) with 1 by lia. reflexivity. }
  constructor; cbn [s_heap s_head s_tail s_len new_on].
  - constructor; [|constructor; [apply not_elem_of_nil|constructor]].
    rewrite elem_of_list_singleton. lia.
  - rewrite app_length. cbn [length]. repeat constructor; lia.
  - apply Forall_app; split; [exact Ha|]. repeat constructor.
  - intros i Hi. change (nx (h ++ [hd; tl]) i n = Some (S n)). unfold nx. rewrite E1. cbn [sk_next hd].
    rewrite lookup_replicate_2 by exact Hi. reflexivity.
  - constructor.
  - constructor.
  - change (nx (h ++ [hd; tl]) 0 (S n) = None). unfold nx. rewrite E2. reflexivity.
  - reflexivity.
Qed.

(** *** Next *)
Lemma next_spec s x L R :
  Inv s (L ++ R) -> x = last_or (s_head s) L ->
  forall it, (it = Some x \/ (it = None /\ L = [])) ->
  it_next s it = match R with
                 | [] => Ret (Some (s_tail s), None)
                 | y :: _ => Ret (Some y, Some (ent (s_heap s) y))
                 end.
Proof.
  intros I -> it Hit.
  pose proof (inv_path _ _ I 0 ltac:(lia)) as Hp. rewrite lv_0 in Hp by apply (inv_hg _ _ I).
  apply path_app in Hp.
  assert (HFx : last_or (s_head s) L < length (s_heap s)).
  { eapply inv_elem_bound; [exact I|]. pose proof (last_or_elem (s_head s) L) as H.
    rewrite !elem_of_cons in *. rewrite elem_of_app. tauto. }
  assert (E : it_next s it = let! n := get_next (s_heap s) (last_or (s_head s) L) 0 in
    match n with None => Panic | Some y => if (y =? s_tail s)%nat then Ret (Some y, None)
      else let! nd := deref (s_heap s !! y) in Ret (Some y, Some (sk_key nd, sk_value nd)) end).
  { destruct Hit as [->|[-> ->]]; reflexivity. }
  rewrite E. rewrite get_next_nx by (try apply (inv_16 _ _ I); auto; lia). cbn [rbind].
  destruct R as [|y R]; cbn in Hp.
  - rewrite Hp, Nat.eqb_refl. reflexivity.
  - destruct Hp as [Hp _]. rewrite Hp.
    pose proof (inv_nodup _ _ I) as HN. apply NoDup_cons in HN as [_ HN]. apply NoDup_cons in HN as [Ht HN].
    destruct (Nat.eqb_spec y (s_tail s)) as [->|_].
    { exfalso. apply Ht. apply elem_of_app; right; constructor. }
    destruct (deref_node (s_heap s) y) as (nd & En & Ek & Ev & _).
    { eapply inv_elem_bound; [exact I|]. rewrite !elem_of_cons, elem_of_app, elem_of_cons. tauto. }
    rewrite En. cbn [deref rbind]. unfold ent. rewrite Ek, Ev. reflexivity.
Qed.

Lemma enum_spec s L R fuel it :
  Inv s (L ++ R) -> (it = Some (last_or (s_head s) L) \/ (it = None /\ L = [])) -> length R <= fuel ->
  sk_enum fuel s it = Ret (ent (s_heap s) <$> R).
Proof.
  revert L R it; induction fuel as [|fuel IH]; intros L R it I Hit Hf.
  - destruct R; [|cbn in Hf; lia]. cbn [sk_enum]. rewrite (next_spec s _ L [] I eq_refl it Hit). reflexivity.
  - cbn [sk_enum]. rewrite (next_spec s _ L R I eq_refl it Hit).
    destruct R as [|y R]; [reflexivity|]. cbn [rbind].
    rewrite (IH (L ++ [y]) R).
    + reflexivity.
    + rewrite <- app_assoc. exact I.
    + left. unfold last_or. rewrite last_snoc. reflexivity.
    + cbn in Hf; lia.
Qed.

Lemma entries_spec s locs : Inv s locs -> sk_entries s = Ret (ent (s_heap s) <$> locs).
Proof.
  intros I. unfold sk_entries. apply (enum_spec s []); [exact I|right; auto|]. apply inv_length_bound; exact I.
Qed.
End Skl.
