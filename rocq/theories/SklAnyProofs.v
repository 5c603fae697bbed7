(** Proofs for SklAnyProps: the skip list with any two comparisons. *)
From Verif Require Import Base SplitMixModel SklSpec SklModel SklProofs SklRefine SklAnySpec.
From Coq Require Import Sorting.Sorted.

Section Any.
Context {K V : Type} (zeroK : K) (zeroV : V) (ltb eqb : K -> K -> bool).
Context (showK : K -> list Z) (showV : V -> list Z).
Notation skl := (skl K V).
Notation sknode := (sknode K V).
Implicit Types (h : list sknode) (s : skl) (locs : list nat).
Notation ky := (ky zeroK).
(** the representation invariant without the order *)
Notation SInv := (Inv (V := V) zeroK (fun _ _ => true)).

Lemma walk_any h fuel tail x i key : forall ls,
  all16 h -> i < 16 -> path (nx h i) x ls tail -> tail ∉ ls ->
  Forall (fun y => y < length h) (x :: ls) -> length ls <= fuel ->
  exists A B, ls = A ++ B /\ Forall (fun y => ltb (ky h y) key = true) A /\
    (forall b, head B = Some b -> ltb (ky h b) key = false) /\
    sk_walk ltb fuel h tail x i key = Ret (last_or x A).
Proof.
  revert x; induction fuel as [|fuel IH]; intros x ls Ha Hi Hp Ht Hb Hf;
  (destruct ls as [|b ls];
   [ cbn in Hp; exists [], []; split; [reflexivity|]; split; [constructor|]; split; [discriminate|]; cbn [sk_walk];
     rewrite get_next_nx by (try assumption; apply Forall_cons in Hb; tauto); cbn [rbind];
     rewrite Hp, Nat.eqb_refl; reflexivity|]).
  - cbn in Hf; lia.
  - cbn in Hp. destruct Hp as [Hp Hp']. cbn [sk_walk].
    rewrite get_next_nx by (try assumption; apply Forall_cons in Hb; tauto).
    cbn [rbind]. rewrite Hp. apply not_elem_of_cons in Ht as [Ht Ht'].
    destruct (Nat.eqb_spec b tail); [congruence|].
    apply Forall_cons in Hb as [_ Hb]. pose proof Hb as Hb2. apply Forall_cons in Hb2 as [Hba _].
    destruct (deref_node zeroK zeroV h b Hba) as (nd & E & Ek & _). rewrite E. cbn [deref rbind]. rewrite <- Ek.
    destruct (ltb (ky h b) key) eqn:El.
    + destruct (IH b ls Ha Hi Hp' Ht' Hb) as (A & B & -> & HA & HB & Hw); [cbn in Hf; lia|].
      exists (b :: A), B. split; [reflexivity|]. split; [constructor; assumption|]. split; [exact HB|].
      rewrite last_or_cons. exact Hw.
    + exists [], (b :: ls). split; [reflexivity|]. split; [constructor|]. split; [|reflexivity].
      intros b' [= <-]. exact El.
Qed.

(** a prefix of the filtered list is the filter of a prefix ending in the same node *)
Lemma lv_split h i : forall R A B, lv h i R = A ++ B -> exists R1 R2, R = R1 ++ R2 /\ lv h i R1 = A /\ lv h i R2 = B /\
  (forall x, last_or x R1 = last_or x A).
Proof.
  intros R A; revert R; induction A as [|a A IH]; intros R B H.
  - exists [], R. auto.
  - induction R as [|r R IHR]; [discriminate|].
    unfold lv in H. rewrite filter_cons in H. fold (lv h i R) in H.
    destruct (decide (i < hg h r)) as [Hr|Hr].
    + injection H as -> H. destruct (IH R B H) as (R1 & R2 & -> & H1 & H2 & H3).
      exists (a :: R1), R2. split; [reflexivity|]. split.
      { unfold lv. rewrite filter_cons_True by exact Hr. fold (lv h i R1). rewrite H1. reflexivity. }
      split; [exact H2|]. intros x. rewrite !last_or_cons. apply H3.
    + destruct (IHR H) as (R1 & R2 & -> & H1 & H2 & H3). exists (r :: R1), R2. split; [reflexivity|]. split.
      { unfold lv. rewrite filter_cons_False by exact Hr. exact H1. }
      split; [exact H2|]. intros x. rewrite last_or_cons. rewrite (H3 r), !last_or_cons. reflexivity.
Qed.
Lemma lv_le h i j R y : i <= j -> y ∈ lv h j R -> y ∈ lv h i R.
Proof. rewrite !lv_elem. intros ? [? ?]. split; [lia|assumption]. Qed.

(** at level j the walk starts at the node where the walk above ended, passes
    smaller nodes only, and ends at the last node of L *)
Definition walked s key (L : list nat) (j : nat) : Prop :=
  exists A0 A1, lv (s_heap s) j L = A0 ++ A1 /\
    last_or (s_head s) A0 = last_or (s_head s) (lv (s_heap s) (S j) L) /\
    Forall (fun y => ltb (ky (s_heap s) y) key = true) A1.

(** the search has come down to level i: it stands on the last node of L *)
Record down s key (i : nat) (L R : list nat) (x : nat) (ctx : list nat) : Prop := {
  d_len : length ctx = 16;
  d_x : x = last_or (s_head s) L;
  d_in : L = [] \/ i < hg (s_heap s) x;
  d_lt : L = [] \/ ltb (ky (s_heap s) x) key = true;
  d_ctx : forall j, i <= j < 16 -> ctx !! j = Some (last_or (s_head s) (lv (s_heap s) j L));
  d_stop : forall j b, i <= j < 16 -> head (lv (s_heap s) j R) = Some b -> ltb (ky (s_heap s) b) key = false;
  d_walk : forall j, i <= j < 16 -> walked s key L j }.

Lemma last_or_app x A B : last_or x (A ++ B) = last_or (last_or x A) B.
Proof.
  revert x; induction A as [|a A IH]; intros x; [reflexivity|]. cbn. rewrite !last_or_cons. apply IH.
Qed.

Lemma down_step s key i L R x ctx :
  SInv s (L ++ R) -> i < 16 -> down s key (S i) L R x ctx ->
  exists R1 R2 x', R = R1 ++ R2 /\
    sk_walk ltb (length (s_heap s)) (s_heap s) (s_tail s) x i key = Ret x' /\
    down s key i (L ++ R1) R2 x' (<[i := x']> ctx).
Proof.
  intros I Hi [Hl Hx Hin Hlt Hctx Hstop Hwalk]. set (h := s_heap s) in *.
  pose proof (inv_path _ _ _ _ I i Hi) as Hp. fold h in Hp. rewrite lv_app in Hp.
  pose proof (inv_nodup _ _ _ _ I) as HN. apply NoDup_cons in HN as [_ HN]. apply NoDup_cons in HN as [Ht HN].
  pose proof (inv_alloc _ _ _ _ I) as HF. apply Forall_cons in HF as [HFh HF]. apply Forall_cons in HF as [_ HF].
  pose proof (inv_length_bound _ _ _ _ I) as Hlen. rewrite app_length in Hlen. fold h in HF, HFh, Hlen.
  pose proof (lv_length h i R) as HlR.
  (* x is the last node of L at level i *)
  assert (Hxls : forall j, j <= S i -> last_or (s_head s) (lv h j L) = x).
  { intros j Hj. destruct Hin as [->|Hin]; [rewrite Hx; reflexivity|].
    destruct (decide (L = [])) as [->|HL]; [rewrite Hx; reflexivity|].
    destruct (exists_last HL) as (L0 & y & ->).
    assert (x = y) as -> by (rewrite Hx; unfold last_or; rewrite last_snoc; reflexivity).
    rewrite lv_app. unfold lv at 2. rewrite filter_cons_True by (fold h in Hin; lia). cbn.
    unfold last_or. rewrite last_snoc. reflexivity. }
  assert (Hxl := Hxls i ltac:(lia)).
  apply path_app in Hp. rewrite Hxl in Hp.
  destruct (walk_any h (length h) (s_tail s) x i key (lv h i R)) as (A & B & EAB & HA & HB & Hw).
  - apply (inv_16 _ _ _ _ I).
  - exact Hi.
  - exact Hp.
  - intros Hc. apply lv_elem in Hc as [_ Hc]. apply Ht. apply elem_of_app; auto.
  - constructor.
    + rewrite Hx. pose proof (last_or_elem (s_head s) L) as H. rewrite elem_of_cons in H. destruct H as [->|H]; [exact HFh|].
      rewrite Forall_forall in HF. apply HF. apply elem_of_app; auto.
    + apply lv_Forall. apply Forall_app in HF. tauto.
  - lia.
  - destruct (lv_split h i R A B EAB) as (R1 & R2 & -> & H1 & H2 & H3).
    exists R1, R2, (last_or x A). split; [reflexivity|]. split; [exact Hw|].
    (* a level above is not touched *)
    assert (Hup : forall j, S i <= j < 16 -> lv h j R1 = []).
    { intros j Hj. destruct (lv h j R1) as [|b l] eqn:E; [reflexivity|exfalso].
      assert (Hb : b ∈ A). { rewrite <- H1. apply (lv_le h i j); [lia|]. rewrite E. constructor. }
      rewrite Forall_forall in HA. specialize (HA b Hb).
      rewrite (Hstop j b) in HA; [discriminate|exact Hj|]. fold h. rewrite lv_app, E. reflexivity. }
    assert (Hx' : last_or x A = last_or (s_head s) (L ++ R1)).
    { rewrite last_or_app, <- Hx, H3. reflexivity. }
    constructor; fold h.
    + rewrite insert_length. exact Hl.
    + exact Hx'.
    + destruct (decide (A = [])) as [->|HA0].
      * assert (R1 = []) as ->.
        { destruct (decide (R1 = [])) as [|HR1]; [assumption|exfalso]. destruct (exists_last HR1) as (R0 & y & ->).
          specialize (H3 (S y)). unfold last_or in H3. rewrite last_snoc in H3. cbn in H3. lia. }
        rewrite app_nil_r. destruct Hin as [->|Hin]; [left; reflexivity|right]. cbn. lia.
      * right. destruct (exists_last HA0) as (A0 & y & ->). unfold last_or. rewrite last_snoc. cbn.
        assert (Hy : y ∈ lv h i R1) by (rewrite H1; apply elem_of_app; right; constructor).
        apply lv_elem in Hy. lia.
    + destruct (decide (A = [])) as [->|HA0].
      * assert (R1 = []) as ->.
        { destruct (decide (R1 = [])) as [|HR1]; [assumption|exfalso]. destruct (exists_last HR1) as (R0 & y & ->).
          specialize (H3 (S y)). unfold last_or in H3. rewrite last_snoc in H3. cbn in H3. lia. }
        rewrite app_nil_r. exact Hlt.
      * right. destruct (exists_last HA0) as (A0 & y & ->). unfold last_or. rewrite last_snoc. cbn.
        apply Forall_app in HA as [_ HA]. apply Forall_cons in HA. tauto.
    + intros j Hj. destruct (decide (j = i)) as [->|Hne].
      * rewrite list_lookup_insert by lia. rewrite lv_app, H1, last_or_app, Hxl. reflexivity.
      * rewrite list_lookup_insert_ne by lia. rewrite lv_app, Hup, app_nil_r by lia. apply Hctx. lia.
    + intros j b Hj Hb. destruct (decide (j = i)) as [->|Hne].
      * rewrite H2 in Hb. apply HB. exact Hb.
      * apply (Hstop j b); [lia|]. fold h. rewrite lv_app, Hup by lia. exact Hb.
    + assert (Hup' : forall j, S i <= j <= 16 -> lv h j R1 = []).
      { intros j Hj. destruct (decide (j = 16)) as [->|]; [|apply Hup; lia]. apply lv_16.
        pose proof (inv_hg _ _ _ _ I) as Hh. apply Forall_app in Hh as [_ Hh]. apply Forall_app in Hh as [Hh _]. exact Hh. }
      intros j Hj. unfold walked. fold h. destruct (decide (j = i)) as [->|Hne].
      * exists (lv h i L), A. rewrite lv_app, H1. split; [reflexivity|]. split; [|exact HA].
        rewrite lv_app, Hup', app_nil_r by lia. rewrite !Hxls by lia. reflexivity.
      * destruct (Hwalk j ltac:(lia)) as (A0 & A1 & W1 & W2 & W3). fold h in W1, W2, W3. exists A0, A1.
        rewrite !lv_app, !Hup', !app_nil_r by lia. auto.
Qed.

Lemma down_levels s key : forall i L R x ctx,
  SInv s (L ++ R) -> i <= 16 -> down s key i L R x ctx ->
  exists L' R' x' ctx', L ++ R = L' ++ R' /\
    sk_search_levels ltb (length (s_heap s)) (s_heap s) (s_tail s) x i key ctx = Ret (x', ctx') /\
    down s key 0 L' R' x' ctx'.
Proof.
  induction i as [|i IH]; intros L R x ctx I Hi D.
  - exists L, R, x, ctx. auto.
  - destruct (down_step s key i L R x ctx I) as (R1 & R2 & x1 & -> & Hw & D1); [lia|exact D|].
    cbn [sk_search_levels]. rewrite Hw. cbn [rbind].
    rewrite app_assoc in *. apply IH; [exact I|lia|exact D1].
Qed.

(** the search, for any comparisons: it finds a cut *)
Definition node_cut s key (L R : list nat) : Prop :=
  (forall y, last L = Some y -> ltb (ky (s_heap s) y) key = true) /\
  (forall y, head R = Some y -> ltb (ky (s_heap s) y) key = false).
Definition stands s key (L R : list nat) : Prop :=
  (forall j, j < 16 -> walked s key L j) /\
  (forall j b, j < 16 -> head (lv (s_heap s) j R) = Some b -> ltb (ky (s_heap s) b) key = false).
Lemma search_any s key locs :
  SInv s locs -> exists L R ctx, locs = L ++ R /\ node_cut s key L R /\ stands s key L R /\
    sk_search ltb eqb s key = Ret (found zeroK eqb s key R, ctx) /\ ctx_ok s L ctx.
Proof.
  intros I. assert (Hh : Forall (fun l => 1 <= hg (s_heap s) l <= 16) locs) by apply (inv_hg _ _ _ _ I).
  destruct (down_levels s key 16 [] locs (s_head s) (replicate 16 0) I) as (L & R & x & ctx & E & Hs & D); [lia| |].
  { constructor; auto; intros; lia. }
  cbn in E. subst locs. destruct D as [Hl Hx Hin Hlt Hctx Hstop Hwalk].
  exists L, R, ctx. split; [reflexivity|].
  apply Forall_app in Hh as [HhL HhR].
  assert (Hcut : node_cut s key L R).
  { split.
    - intros y Hy. destruct Hlt as [->|Hlt]; [discriminate|]. rewrite Hx in Hlt. unfold last_or in Hlt. rewrite Hy in Hlt. exact Hlt.
    - intros y Hy. apply (Hstop 0 y); [lia|]. rewrite lv_0 by exact HhR. exact Hy. }
  split; [exact Hcut|]. split; [split; [intros j Hj; apply Hwalk; lia|intros j b Hj; apply Hstop; lia]|]. split; [|split; [exact Hl|intros j Hj; apply Hctx; lia]].
  unfold sk_search, MAX_HEIGHT. rewrite Hs. cbn [rbind].
  pose proof (inv_path _ _ _ _ I 0 ltac:(lia)) as Hp. rewrite lv_0 in Hp by apply (inv_hg _ _ _ _ I).
  apply path_app in Hp. rewrite <- Hx in Hp.
  pose proof (inv_alloc _ _ _ _ I) as HF.
  assert (HFx : x < length (s_heap s)).
  { rewrite Forall_forall in HF. apply HF. rewrite Hx. pose proof (last_or_elem (s_head s) L) as H.
    rewrite !elem_of_cons in *. rewrite elem_of_app. tauto. }
  rewrite get_next_nx by (try apply (inv_16 _ _ _ _ I); auto; lia). cbn [rbind].
  destruct R as [|y R]; cbn in Hp.
  + rewrite Hp, Nat.eqb_refl. reflexivity.
  + destruct Hp as [Hp _]. rewrite Hp.
    pose proof (inv_nodup _ _ _ _ I) as HN. apply NoDup_cons in HN as [_ HN]. apply NoDup_cons in HN as [Ht HN].
    destruct (Nat.eqb_spec y (s_tail s)) as [->|_].
    { exfalso. apply Ht. apply elem_of_app; right; constructor. }
    rewrite Forall_forall in HF.
    destruct (deref_node zeroK zeroV (s_heap s) y) as (nd & En & Ek & _).
    { apply HF. rewrite !elem_of_cons, elem_of_app, elem_of_cons. tauto. }
    rewrite En. cbn [deref rbind found]. rewrite Ek. destruct (eqb (sk_key nd) key); reflexivity.
Qed.

(** such a place is unique *)
Lemma prefix_last (x : nat) : forall A B A' B', NoDup (x :: A ++ B) -> A ++ B = A' ++ B' ->
  last_or x A = last_or x A' -> A = A'.
Proof.
  intros A; revert x; induction A as [|a A IH]; intros x B A' B' HN E Hl.
  - destruct A' as [|a' A']; [reflexivity|exfalso]. cbn in E. subst B. rewrite last_or_cons in Hl. cbn in Hl.
    apply NoDup_cons in HN as [HN _]. apply HN. rewrite Hl. cbn. pose proof (last_or_elem a' A') as H.
    rewrite elem_of_cons in H. rewrite elem_of_cons, elem_of_app. tauto.
  - apply NoDup_cons in HN as [HN1 HN]. destruct A' as [|a' A'].
    + exfalso. rewrite last_or_cons in Hl. cbn in Hl. apply HN1. rewrite <- Hl. pose proof (last_or_elem a A) as H.
      rewrite elem_of_cons in H. cbn. rewrite elem_of_cons, elem_of_app. tauto.
    + cbn in E. injection E as <- E. rewrite !last_or_cons in Hl. f_equal. eapply IH; eassumption.
Qed.
Lemma maximal_prefix (P : nat -> bool) : forall A B A' B', A ++ B = A' ++ B' ->
  Forall (fun y => P y = true) A -> Forall (fun y => P y = true) A' ->
  (forall b, head B = Some b -> P b = false) -> (forall b, head B' = Some b -> P b = false) -> A = A'.
Proof.
  induction A as [|a A IH]; intros B A' B' E HA HA' HB HB'; destruct A' as [|a' A'].
  - reflexivity.
  - exfalso. cbn in E. subst B. apply Forall_cons in HA' as [HA' _]. rewrite (HB a') in HA' by reflexivity. discriminate.
  - exfalso. cbn in E. subst B'. apply Forall_cons in HA as [HA _]. rewrite (HB' a) in HA by reflexivity. discriminate.
  - cbn in E. injection E as <- E. apply Forall_cons in HA as [_ HA]. apply Forall_cons in HA' as [_ HA'].
    f_equal. eapply IH; eassumption.
Qed.
Lemma stands_unique s key L R L' R' : SInv s (L ++ R) -> L ++ R = L' ++ R' ->
  stands s key L R -> stands s key L' R' -> L = L'.
Proof.
  intros I E [HW HS] [HW' HS']. set (h := s_heap s) in *.
  pose proof (inv_hg _ _ _ _ I) as Hh. fold h in Hh. pose proof Hh as Hh'. rewrite E in Hh'.
  apply Forall_app in Hh as [HhL _]. apply Forall_app in Hh' as [HhL' _].
  assert (H : forall n, n <= 16 -> lv h (16 - n) L = lv h (16 - n) L').
  { induction n as [|n IH]; intros Hn; [rewrite !lv_16 by assumption; reflexivity|].
    specialize (IH ltac:(lia)). set (j := 16 - S n). assert (Ej : 16 - n = S j) by (unfold j; lia). rewrite Ej in IH.
    destruct (HW j ltac:(unfold j; lia)) as (A0 & A1 & E1 & E2 & E3). destruct (HW' j ltac:(unfold j; lia)) as (B0 & B1 & F1 & F2 & F3).
    fold h in E1, E2, E3, F1, F2, F3.
    assert (Ell : A0 ++ (A1 ++ lv h j R) = B0 ++ (B1 ++ lv h j R')).
    { rewrite !app_assoc, <- E1, <- F1, <- !lv_app, E. reflexivity. }
    assert (A0 = B0) as <-.
    { eapply prefix_last; [|exact Ell|rewrite E2, F2, IH; reflexivity]. rewrite app_assoc, <- E1, <- lv_app.
      pose proof (inv_nodup _ _ _ _ I) as HN. apply NoDup_cons in HN as [HN1 HN]. apply NoDup_cons in HN as [_ HN].
      constructor; [|apply lv_NoDup; exact HN]. intros Hc. apply lv_elem in Hc as [_ Hc]. apply HN1.
      apply elem_of_list_further. exact Hc. }
    apply app_inv_head in Ell. rewrite E1, F1. f_equal.
    eapply (maximal_prefix (fun y => ltb (ky h y) key)); [exact Ell|exact E3|exact F3| |].
    - intros b Hb. apply (HS j b); [unfold j; lia|exact Hb].
    - intros b Hb. apply (HS' j b); [unfold j; lia|exact Hb]. }
  specialize (H 16 ltac:(lia)). cbn [Nat.sub] in H. rewrite !lv_0 in H by assumption. exact H.
Qed.
Lemma search_stands s key L R : SInv s (L ++ R) -> stands s key L R ->
  exists ctx, sk_search ltb eqb s key = Ret (found zeroK eqb s key R, ctx) /\ ctx_ok s L ctx.
Proof.
  intros I HS. destruct (search_any s key (L ++ R) I) as (L' & R' & ctx & E & _ & HS' & Hs & Hctx).
  assert (L = L') as <- by (eapply stands_unique; eassumption). apply app_inv_head in E as <-. eauto.
Qed.

Notation ent := (ent zeroK zeroV).
(** adding a node does not change the height of another *)
Lemma insert_heights s key v L R ctx s' y :
  SInv s (L ++ R) -> sk_search ltb eqb s key = Ret (None, ctx) -> ctx_ok s L ctx ->
  sk_insert ltb eqb s key v = Ret s' -> y ∈ L ++ R -> hg (s_heap s') y = hg (s_heap s) y.
Proof.
  intros I Hs [Hcl Hctx] Ein Hy. unfold sk_insert in Ein. rewrite Hs in Ein. cbn [rbind] in Ein.
  pose proof (rand_height_range (s_seed s)) as Hrh. destruct (rand_height (s_seed s)) as [seed level]. cbn in Hrh.
  set (h0 := s_heap s ++ _) in Ein.
  assert (Hyb : y < length (s_heap s)).
  { eapply inv_elem_bound; [exact I|]. do 2 apply elem_of_list_further. exact Hy. }
  destruct (link_levels_spec zeroK zeroV ctx (length (s_heap s)) level h0 0) as (h' & E' & _ & _ & Hk' & _).
  - apply Forall_app; split; [apply (inv_16 _ _ _ _ I)|]. constructor; [reflexivity|constructor].
  - unfold h0. rewrite app_length. cbn. lia.
  - lia.
  - intros j Hj. exists (last_or (s_head s) (lv (s_heap s) j L)). split; [apply Hctx; exact Hj|].
    assert (last_or (s_head s) (lv (s_heap s) j L) < length (s_heap s)).
    { eapply inv_elem_bound; [exact I|]. pose proof (last_or_elem (s_head s) (lv (s_heap s) j L)) as H.
      rewrite !elem_of_cons in *. rewrite elem_of_app. destruct H as [H|H]; [auto|]. apply lv_elem in H. tauto. }
    unfold h0. rewrite app_length. lia.
  - rewrite E' in Ein. cbn [rbind] in Ein. injection Ein as <-. cbn [s_heap]. destruct (Hk' y) as (_ & _ & ->).
    unfold hg, h0. rewrite lookup_app_l by exact Hyb. reflexivity.
Qed.
(** the enumeration of a state *)
Definition Rep s (es : list (K * V)) : Prop := exists locs, SInv s locs /\ es = ent (s_heap s) <$> locs.

Lemma last_fmap' {X Y} (f : X -> Y) l : last (f <$> l) = f <$> last l.
Proof. induction l as [|x [|y l] IH]; [reflexivity|reflexivity|]. exact IH. Qed.
Lemma cut_ents s key L R : node_cut s key L R -> cut ltb key (ent (s_heap s) <$> L) (ent (s_heap s) <$> R).
Proof.
  intros [H1 H2]. split.
  - intros e. rewrite last_fmap'. destruct (last L) as [y|]; [|discriminate]. intros [= <-]. apply H1. reflexivity.
  - intros e. destruct R as [|y R]; [discriminate|]. intros [= <-]. apply H2. reflexivity.
Qed.
Lemma trivially_sorted {X} (l : list X) : StronglySorted (fun _ _ => true = true) l.
Proof. induction l; constructor; [assumption|]. apply Forall_forall. auto. Qed.

Lemma ent_ext (f g : nat -> K * V) (ls : list nat) : (forall y, y ∈ ls -> f y = g y) -> f <$> ls = g <$> ls.
Proof.
  intros H. apply list_fmap_ext. intros i x E. apply H. eapply elem_of_list_lookup_2; exact E.
Qed.

Lemma set_any s es key v : Rep s es ->
  exists s' es', sk_insert ltb eqb s key v = Ret s' /\ Rep s' es' /\ any_step ltb eqb showK showV es (MSet key v) es' MUnit.
Proof.
  intros (locs & I & ->). destruct (search_any s key locs I) as (L & R & ctx & -> & Hc & Hst & Hs & Hctx).
  pose proof (cut_ents s key L R Hc) as Hcut. rewrite fmap_app.
  destruct (found zeroK eqb s key R) as [x|] eqn:Ef.
  - destruct R as [|y R]; [discriminate|]. cbn in Ef.
    destruct (eqb (ky (s_heap s) y) key) eqn:Eq; [|discriminate]. injection Ef as <-.
    assert (Hy : y ∈ L ++ y :: R) by (apply elem_of_app; right; constructor).
    destruct (deref_node zeroK zeroV (s_heap s) y) as (nd & En & _).
    { eapply inv_elem_bound; [exact I|]. do 2 apply elem_of_list_further. exact Hy. }
    unfold sk_insert. rewrite Hs. cbn [rbind]. rewrite En. cbn [deref rbind].
    destruct (update_inv zeroK zeroV _ s _ y v nd I Hy En) as (H1 & _ & H3 & H4).
    eexists _, (((ent (s_heap s)) <$> L) ++ (ky (s_heap s) y, v) :: (ent (s_heap s) <$> R)).
    split; [reflexivity|]. split.
    + eexists; split; [exact H1|]. rewrite fmap_app. cbn [fmap list_fmap]. rewrite H4.
      pose proof (inv_nodup _ _ _ _ I) as HN. apply NoDup_cons in HN as [_ HN]. apply NoDup_cons in HN as [_ HN].
      apply NoDup_app in HN as (_ & HN1 & HN2). apply NoDup_cons in HN2 as [HN2 _].
      f_equal; [|f_equal]; symmetry; apply ent_ext; intros z Hz; apply H3; intros ->; [|contradiction].
      apply (HN1 y Hz). constructor.
    + cbn [fmap list_fmap] in *. apply any_set_old; [exact Hcut|exact Eq].
  - destruct (insert_core zeroK zeroV (fun _ _ => true) ltb eqb s key v L R ctx I Hs Hctx) as (s' & E & _ & _ & _ & I' & Ho & Hn).
    { intros. apply trivially_sorted. }
    exists s', (((ent (s_heap s)) <$> L) ++ (key, v) :: (ent (s_heap s) <$> R)). split; [exact E|]. split.
    + eexists; split; [exact I'|]. rewrite fmap_app. cbn [fmap list_fmap]. rewrite Hn.
      f_equal; [|f_equal]; symmetry; apply ent_ext; intros z Hz; apply Ho; intros ->.
      all: assert (Hb : length (s_heap s) < length (s_heap s)); [|lia].
      all: eapply inv_elem_bound; [exact I|]; do 2 apply elem_of_list_further; apply elem_of_app; auto.
    + apply any_set_new. split; [exact Hcut|]. intros e. destruct R as [|y R]; [discriminate|]. intros [= <-]. cbn in Ef |- *.
      destruct (eqb (ky (s_heap s) y) key); [discriminate|reflexivity].
Qed.

(** what was Set is found by the very next search *)
Lemma stands_ext s s' key L R R' : s_head s' = s_head s ->
  (forall y, y ∈ L ++ R -> ky (s_heap s') y = ky (s_heap s) y /\ hg (s_heap s') y = hg (s_heap s) y) ->
  (forall j b, j < 16 -> head (lv (s_heap s') j R') = Some b ->
     ltb (ky (s_heap s') b) key = false \/ (b ∈ R /\ head (lv (s_heap s) j R) = Some b)) ->
  stands s key L R -> stands s' key L R'.
Proof.
  intros Hhd Hk HR [HW HS].
  assert (HL : forall j, lv (s_heap s') j L = lv (s_heap s) j L).
  { intros j. apply lv_ext. intros y Hy. apply Hk. apply elem_of_app; auto. }
  split.
  - intros j Hj. destruct (HW j Hj) as (A0 & A1 & E1 & E2 & E3). exists A0, A1. rewrite !HL, Hhd. split; [exact E1|]. split; [exact E2|].
    rewrite Forall_forall in *. intros y Hy.
    assert (y ∈ lv (s_heap s) j L) as Hy' by (rewrite E1; apply elem_of_app; auto). apply lv_elem in Hy' as [_ Hy'].
    destruct (Hk y) as [-> _]; [apply elem_of_app; auto|]. apply E3; exact Hy.
  - intros j b Hj Hb. destruct (HR j b Hj Hb) as [H|[Hin H]]; [exact H|].
    destruct (Hk b) as [-> _]; [apply elem_of_app; auto|]. apply (HS j b Hj H).
Qed.
Lemma head_elem {X} (l : list X) b : head l = Some b -> b ∈ l.
Proof. destruct l; [discriminate|]. intros [= ->]. constructor. Qed.
Lemma set_get s es key v s' : Rep s es -> ltb key key = false -> eqb key key = true ->
  sk_insert ltb eqb s key v = Ret s' -> sk_get ltb eqb s' key = Ret (Some v).
Proof.
  intros (locs & I & ->) Hlt Heq Ein. destruct (search_any s key locs I) as (L & R & ctx & -> & Hc & Hst & Hs & Hctx).
  destruct (found zeroK eqb s key R) as [x|] eqn:Ef.
  - destruct R as [|y R]; [discriminate|]. cbn in Ef.
    destruct (eqb (ky (s_heap s) y) key) eqn:Eq; [|discriminate]. injection Ef as <-.
    assert (Hy : y ∈ L ++ y :: R) by (apply elem_of_app; right; constructor).
    destruct (deref_node zeroK zeroV (s_heap s) y) as (nd & En & _).
    { eapply inv_elem_bound; [exact I|]. do 2 apply elem_of_list_further. exact Hy. }
    unfold sk_insert in Ein. rewrite Hs in Ein. cbn [rbind] in Ein. rewrite En in Ein. cbn [deref rbind] in Ein.
    destruct (update_inv zeroK zeroV _ s _ y v nd I Hy En) as (H1 & _ & H3 & H4). injection Ein as <-.
    set (s' := Skl _ _ _ _ _) in *.
    assert (Hkh : forall z, ky (s_heap s') z = ky (s_heap s) z /\ hg (s_heap s') z = hg (s_heap s) z).
    { intros z. unfold s', SklProofs.ky, hg. cbn [s_heap]. destruct (decide (y = z)) as [->|Hne].
      - rewrite list_lookup_insert by (eapply lookup_lt_Some; exact En). rewrite En. auto.
      - rewrite list_lookup_insert_ne by exact Hne. auto. }
    destruct (search_stands s' key L (y :: R) H1) as (ctx' & Hs' & _).
    { eapply stands_ext with (s := s) (R := y :: R); [reflexivity|intros; apply Hkh| |exact Hst].
      intros j b Hj Hb. right. rewrite (lv_ext (s_heap s)) in Hb by (intros; apply Hkh). split; [|exact Hb].
      apply head_elem in Hb. apply lv_elem in Hb. tauto. }
    unfold sk_get. rewrite Hs'. cbn [rbind found]. rewrite (proj1 (Hkh y)), Eq.
    destruct (deref_node zeroK zeroV (s_heap s') y) as (nd' & En' & _ & Ev' & _).
    { eapply inv_elem_bound; [exact H1|]. do 2 apply elem_of_list_further. exact Hy. }
    rewrite En'. cbn [deref rbind]. rewrite <- Ev'. apply (f_equal snd) in H4. cbn [snd SklProofs.ent] in H4. rewrite H4. reflexivity.
  - destruct (insert_core zeroK zeroV (fun _ _ => true) ltb eqb s key v L R ctx I Hs Hctx) as (s1 & E & Hhd & _ & _ & I' & Ho & Hn).
    { intros. apply trivially_sorted. }
    rewrite Ein in E. injection E as <-. set (n := length (s_heap s)) in *. cbv zeta in *.
    assert (Hnl : forall y, y ∈ L ++ R -> y <> n).
    { intros y Hy ->. assert (Hb : n < length (s_heap s)); [|unfold n in Hb; lia].
      eapply inv_elem_bound; [exact I|]; do 2 apply elem_of_list_further; exact Hy. }
    assert (Hh : forall y, y ∈ L ++ R -> hg (s_heap s') y = hg (s_heap s) y).
    { intros y Hy. eapply insert_heights; [exact I|exact Hs|exact Hctx|exact Ein|exact Hy]. }
    assert (Hkn : ky (s_heap s') n = key) by (unfold SklProofs.ent in Hn; injection Hn; auto).
    destruct (search_stands s' key L (n :: R) I') as (ctx' & Hs' & _).
    { eapply stands_ext with (s := s) (R := R); [exact Hhd| | |exact Hst].
      - intros y Hy. split; [|apply Hh; exact Hy]. specialize (Ho y (Hnl y Hy)). unfold SklProofs.ent in Ho. injection Ho; auto.
      - intros j b Hj Hb. unfold lv in Hb. rewrite filter_cons in Hb. destruct (decide (j < hg (s_heap s') n)).
        + injection Hb as <-. left. rewrite Hkn. exact Hlt.
        + right. fold (lv (s_heap s') j R) in Hb. rewrite (lv_ext (s_heap s)) in Hb by (intros; apply Hh; apply elem_of_app; auto).
          split; [|exact Hb]. apply head_elem in Hb. apply lv_elem in Hb. tauto. }
    unfold sk_get. rewrite Hs'. cbn [rbind found]. rewrite Hkn, Heq.
    destruct (deref_node zeroK zeroV (s_heap s') n) as (nd' & En' & _ & Ev' & _).
    { eapply inv_elem_bound; [exact I'|]. do 2 apply elem_of_list_further. apply elem_of_app; right; constructor. }
    rewrite En'. cbn [deref rbind]. rewrite <- Ev'. apply (f_equal snd) in Hn. cbn [snd SklProofs.ent] in Hn. rewrite Hn. reflexivity.
Qed.

Lemma del_any s es key : Rep s es ->
  exists s' es' b, sk_delete ltb eqb s key = Ret (s', b) /\ Rep s' es' /\ any_step ltb eqb showK showV es (MDel key) es' (MBool b).
Proof.
  intros (locs & I & ->). destruct (search_any s key locs I) as (L & R & ctx & -> & Hc & Hst & Hs & Hctx).
  pose proof (cut_ents s key L R Hc) as Hcut. rewrite fmap_app.
  destruct (found zeroK eqb s key R) as [x|] eqn:Ef.
  - destruct R as [|y R]; [discriminate|]. cbn in Ef.
    destruct (eqb (ky (s_heap s) y) key) eqn:Eq; [|discriminate]. injection Ef as <-.
    destruct (delete_core zeroK zeroV (fun _ _ => true) ltb eqb s key y L R ctx I Hs Hctx) as (s' & E & _ & _ & _ & _ & I' & Ho).
    exists s', ((ent (s_heap s) <$> L) ++ (ent (s_heap s) <$> R)), true. split; [exact E|]. split.
    + eexists; split; [exact I'|]. rewrite fmap_app. f_equal; apply ent_ext; intros; symmetry; apply Ho.
    + cbn [fmap list_fmap] in *. eapply any_del_old; [exact Hcut|exact Eq].
  - exists s, ((ent (s_heap s) <$> L) ++ (ent (s_heap s) <$> R)), false. unfold sk_delete. rewrite Hs. split; [reflexivity|]. split.
    + eexists; split; [exact I|]. rewrite fmap_app. reflexivity.
    + apply any_del_new. split; [exact Hcut|]. intros e. destruct R as [|y R]; [discriminate|]. intros [= <-]. cbn in Ef |- *.
      destruct (eqb (ky (s_heap s) y) key); [discriminate|reflexivity].
Qed.

Lemma get_any s es key : Rep s es ->
  exists a, sk_get ltb eqb s key = Ret a /\ any_step ltb eqb showK showV es (MGet key) es (MVal a).
Proof.
  intros (locs & I & ->). destruct (search_any s key locs I) as (L & R & ctx & -> & Hc & Hst & Hs & Hctx).
  pose proof (cut_ents s key L R Hc) as Hcut. rewrite fmap_app.
  unfold sk_get. rewrite Hs. cbn [rbind].
  destruct (found zeroK eqb s key R) as [x|] eqn:Ef.
  - destruct R as [|y R]; [discriminate|]. cbn in Ef.
    destruct (eqb (ky (s_heap s) y) key) eqn:Eq; [|discriminate]. injection Ef as <-.
    destruct (deref_node zeroK zeroV (s_heap s) y) as (nd & En & _ & Ev & _).
    { eapply inv_elem_bound; [exact I|]. do 2 apply elem_of_list_further. apply elem_of_app; right; constructor. }
    rewrite En. cbn [deref rbind]. rewrite <- Ev. eexists; split; [reflexivity|].
    cbn [fmap list_fmap] in *. apply any_get_old; [exact Hcut|exact Eq].
  - exists None. split; [reflexivity|]. apply any_get_new. split; [exact Hcut|]. intros e. destruct R as [|y R]; [discriminate|]. intros [= <-]. cbn in Ef |- *.
      destruct (eqb (ky (s_heap s) y) key); [discriminate|reflexivity].
Qed.

Lemma rep_entries s es : Rep s es -> sk_entries s = Ret es /\ sk_len s = Z.of_nat (length es).
Proof.
  intros (locs & I & ->). split; [apply (entries_spec zeroK zeroV _ s locs I)|].
  unfold sk_len. rewrite (inv_len _ _ _ _ I), fmap_length. reflexivity.
Qed.
Lemma rep_new h seed : all16 h -> Rep (new_on zeroK zeroV h seed) [].
Proof. intros Ha. exists []. split; [apply new_inv; exact Ha|reflexivity]. Qed.

Lemma put_set (m : list (K * V)) k v : gomap_set eqb m k v = put eqb m k v.
Proof. induction m as [|[k' v'] m IH]; [reflexivity|]. cbn. rewrite IH. reflexivity. Qed.

Lemma step_any s es o : Rep s es ->
  exists s' es' r, m_step zeroK zeroV ltb eqb showK showV s o = Ret (s', r) /\ Rep s' es' /\
    any_step ltb eqb showK showV es o.2 es' r.
Proof.
  intros HR. destruct (rep_entries s es HR) as [He Hl]. destruct o as [c o]. unfold m_step. cbn [fst snd].
  destruct o as [k v|k|k| | | | | |].
  - destruct (set_any s es k v HR) as (s' & es' & E & HR' & Hs). rewrite E. cbn [rbind]. eauto 10.
  - destruct (del_any s es k HR) as (s' & es' & b & E & HR' & Hs). rewrite E. cbn [rbind]. eauto 10.
  - destruct (get_any s es k HR) as (a & E & Hs). rewrite E. cbn [rbind]. eauto 10.
  - rewrite Hl. do 3 eexists. split; [reflexivity|]. split; [exact HR|]. constructor.
  - do 3 eexists. split; [reflexivity|]. split; [|constructor]. unfold sk_clear.
    destruct HR as (locs & I & _). apply rep_new. apply (inv_16 _ _ _ _ I).
  - unfold sk_keys. rewrite He. cbn [rbind]. do 3 eexists. split; [reflexivity|]. split; [exact HR|]. constructor.
  - unfold sk_values. rewrite He. cbn [rbind]. do 3 eexists. split; [reflexivity|]. split; [exact HR|]. constructor.
  - unfold sk_to_string. rewrite He. cbn [rbind]. do 3 eexists. split; [reflexivity|]. split; [exact HR|].
    rewrite render_join. destruct es as [|e es]; [apply (any_string ltb eqb showK showV [])|]. apply (any_string ltb eqb showK showV (e :: es)).
  - unfold sk_to_map. rewrite He. cbn [rbind]. do 3 eexists. split; [reflexivity|]. split; [exact HR|].
    replace (fold_left (fun m e => gomap_set eqb m e.1 e.2) es []) with (fold_left (fun m e => put eqb m e.1 e.2) es []); [constructor|].
    generalize (@nil (K * V)) as m. clear. induction es as [|e es IH]; intros m; cbn; [reflexivity|]. rewrite put_set. apply IH.
Qed.

Lemma run_any : forall hist s es, Rep s es ->
  exists s' es' rs, run (m_step zeroK zeroV ltb eqb showK showV) s hist = (rs, Ret s') /\ Rep s' es' /\
    any_steps ltb eqb showK showV es hist.*2 es' rs.
Proof.
  induction hist as [|o hist IH]; intros s es HR.
  - exists s, es, []. split; [reflexivity|]. split; [exact HR|constructor].
  - destruct (step_any s es o HR) as (s1 & es1 & r & E & HR1 & Hs). destruct (IH s1 es1 HR1) as (s2 & es2 & rs & E2 & HR2 & Hss).
    exists s2, es2, (r :: rs). cbn [run]. rewrite E, E2. split; [reflexivity|]. split; [exact HR2|].
    cbn. econstructor; eassumption.
Qed.
End Any.

(** *** Keys like NaN, on the description *)
Section Unordered.
Context {K V : Type} (ltb eqb : K -> K -> bool) (kind : K -> bool).
Context (showK : K -> list Z) (showV : V -> list Z).
Context (U : unordered ltb eqb kind).
Notation step := (any_step (V := V) ltb eqb showK showV).
Definition of_kind (e : K * V) : bool := kind e.1.

Lemma cut_front k A B : kind k = true -> cut (V := V) ltb k A B -> A = [].
Proof.
  intros Hk [HA _]. destruct (decide (A = [])) as [|HA0]; [assumption|exfalso].
  destruct (exists_last HA0) as (A0 & e & ->). specialize (HA e). rewrite last_snoc in HA.
  rewrite (un_lt _ _ _ U) in HA by exact Hk. specialize (HA eq_refl). discriminate.
Qed.
Lemma un_set es k v es' r : kind k = true -> step es (MSet k v) es' r -> es' = (k, v) :: es /\ r = MUnit.
Proof.
  intros Hk H. inversion H as [A B k1 v1 [Hc _]|A B k1 v1 k0 v0 Hc He| | | | | | | | | |]; subst.
  - rewrite (cut_front k A B Hk Hc). auto.
  - destruct (un_eq _ _ _ U k0 k Hk). congruence.
Qed.
Lemma un_get es k es' r : kind k = true -> step es (MGet k) es' r -> es' = es /\ r = MVal None.
Proof.
  intros Hk H. inversion H as [| | |A B k1 k0 v0 Hc He| | | | | | | |]; subst; [auto|]. destruct (un_eq _ _ _ U k0 k Hk). congruence.
Qed.
Lemma un_del es k es' r : kind k = true -> step es (MDel k) es' r -> es' = es /\ r = MBool false.
Proof.
  intros Hk H. inversion H as [| | | | |A B k1 k0 v0 Hc He| | | | | |]; subst; [auto|]. destruct (un_eq _ _ _ U k0 k Hk). congruence.
Qed.

Definition kinds (es : list (K * V)) : list (K * V) := filter (fun e => of_kind e = true) es.
Lemma kinds_app A B : kinds (A ++ B) = kinds A ++ kinds B.
Proof. apply filter_app. Qed.
Lemma kinds_cons e es : kinds (e :: es) = if kind e.1 then e :: kinds es else kinds es.
Proof. unfold kinds. destruct (kind e.1) eqn:E; [rewrite filter_cons_True by exact E|rewrite filter_cons_False by (unfold of_kind; congruence)]; reflexivity. Qed.
Lemma un_step es o es' r past : step es o es' r -> kinds es = recent_sets kind past ->
  kinds es' = recent_sets kind (o :: past).
Proof.
  intros H E. destruct H as [A B k v [Hc _]|A B k v k0 v0 Hc He| | | |A B k k0 v0 Hc He| | | | | |]; cbn [recent_sets]; try exact E.
  - destruct (kind k) eqn:Hk.
    + rewrite (cut_front k A B Hk Hc) in *. cbn [app] in *. rewrite kinds_cons. cbn [fst]. rewrite Hk, E. reflexivity.
    + rewrite kinds_app, kinds_cons in *. cbn [fst]. rewrite Hk. exact E.
  - assert (Hk0 : kind k0 = false).
    { destruct (kind k0) eqn:Hk; [|reflexivity]. destruct (un_eq _ _ _ U k k0 Hk). congruence. }
    assert (Hk : kind k = false).
    { destruct (kind k) eqn:Hk; [|reflexivity]. destruct (un_eq _ _ _ U k0 k Hk). congruence. }
    rewrite Hk. rewrite kinds_app, kinds_cons in *. cbn [fst] in *. rewrite Hk0 in *. exact E.
  - assert (Hk0 : kind k0 = false).
    { destruct (kind k0) eqn:Hk; [|reflexivity]. destruct (un_eq _ _ _ U k k0 Hk). congruence. }
    rewrite kinds_app, kinds_cons in E. cbn [fst] in E. rewrite Hk0 in E. rewrite kinds_app. exact E.
  - reflexivity.
Qed.
Lemma un_steps os : forall es es' rs past, any_steps ltb eqb showK showV es os es' rs ->
  kinds es = recent_sets kind past -> kinds es' = recent_sets kind (rev os ++ past).
Proof.
  induction os as [|o os IH]; intros es es' rs past H E; inversion H; subst; [exact E|].
  cbn [rev]. rewrite <- app_assoc. cbn. eapply IH; [eassumption|]. eapply un_step; eassumption.
Qed.
End Unordered.
