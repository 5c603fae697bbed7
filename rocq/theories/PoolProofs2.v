From Verif Require Import Base Conc PoolModel PoolProofs.
Local Open Scope Z.

Section inv.
Context (idle : Z).
(** *** jobs *)
Record binv (s : pstate) : Prop := {
  b_buf : forall c t, p_buf s c = Some t -> p_job s t = JRet true /\ p_started s t = 0%nat;
  b_uniq : forall c c' t, p_buf s c = Some t -> p_buf s c' = Some t -> c = c';
  b_not : forall t, p_job s t <> JRet true -> p_started s t = 0%nat;
  b_ok : forall t, p_job s t = JRet true -> p_started s t = 1%nat \/ exists c, p_buf s c = Some t;
  b_le : forall t, (p_started s t <= 1)%nat;
  b_handle : forall g w c t, p_gor s g = GHandle w c t -> p_started s t = 1%nat;
  b_one : forall g g' w w' c c' t, p_gor s g = GHandle w c t -> p_gor s g' = GHandle w' c' t -> g = g' }.
Lemma binv_init maxw n tts clock : binv (p_init maxw n tts clock).
Proof.
  constructor; cbn; try discriminate; try (intros; lia).
  - intros g w c t H. case_decide; discriminate.
  - intros g g' w w' c c' t H. case_decide; discriminate.
Qed.
Lemma binv_step s l s' : pinv s -> binv s -> p_step idle s l s' -> binv s'.
Proof.
  intros A B H. destruct H; constructor; cbn; try (apply B); try (intros; eapply (b_uniq s B); eassumption); try (intros; eapply (b_one s B); eassumption).
  all: intros; ts; try discriminate; try congruence.
  all: try (match goal with H : p_buf _ ?c = Some ?t |- _ => destruct (b_buf s B c t H); split; congruence end).
  all: try (apply (b_not s B); congruence).
  all: try (apply (b_ok s B); congruence).
  all: try (eapply (b_handle s B); eassumption).
  all: try (eapply (b_one s B); eassumption).
  all: try (eapply (b_uniq s B); eassumption).
  - split; [reflexivity|]. apply (b_not s B). congruence.
  - assert (t0 = t) as -> by congruence. destruct (b_buf s B c0 t ltac:(eassumption)). congruence.
  - assert (t0 = t) as -> by congruence. destruct (b_buf s B c' t ltac:(eassumption)). congruence.
  - right. exists c. apply tset_eq.
  - destruct (b_ok s B t0 ltac:(assumption)) as [|[c0 E]]; [left; assumption|right]. exists c0. ts; congruence.
  - assert (c0 = c) by (eapply (b_uniq s B); eassumption). congruence.
  - destruct (b_buf s B c t ltac:(assumption)). congruence.
  - left. destruct (b_buf s B c t ltac:(assumption)). congruence.
  - destruct (b_ok s B t0 ltac:(assumption)) as [|[c0 E]]; [left; assumption|right]. exists c0. ts; congruence.
  - destruct (b_buf s B c t ltac:(assumption)) as [_ ->]. lia.
  - apply B.
  - destruct (b_buf s B c t ltac:(assumption)) as [_ ->]. lia.
  - destruct (b_buf s B c t ltac:(assumption)) as [_ ->]. lia.
  - destruct (b_buf s B c t ltac:(assumption)) as [_ E]. assert (t0 = t) as -> by congruence. pose proof (b_handle s B g0 _ _ _ ltac:(eassumption)). congruence.
  - destruct (b_buf s B c t ltac:(assumption)) as [_ E]. assert (t0 = t) as -> by congruence. pose proof (b_handle s B g' _ _ _ ltac:(eassumption)). congruence.
Qed.

(** *** what the labels of an execution count *)
#[global] Instance plab_dec : EqDecision plab.
Proof. solve_decision. Defined.
Definition begins (t : nat) (tr : list plab) : nat := length (filter (fun l => l = LBegin t) tr).
Definition ends (t : nat) (tr : list plab) : nat := length (filter (fun l => l = LEnd t) tr).
Lemma begins_snoc t tr l : begins t (tr ++ [l]) = (begins t tr + if decide (l = LBegin t) then 1 else 0)%nat.
Proof. unfold begins. rewrite filter_app, app_length. rewrite (filter_cons _ l). destruct (decide _); reflexivity. Qed.
Lemma ends_snoc t tr l : ends t (tr ++ [l]) = (ends t tr + if decide (l = LEnd t) then 1 else 0)%nat.
Proof. unfold ends. rewrite filter_app, app_length. rewrite (filter_cons _ l). destruct (decide _); reflexivity. Qed.
Lemma begins_started maxw n tts clock tr s t : steps (p_step idle) (p_init maxw n tts clock) tr s -> begins t tr = p_started s t.
Proof.
  revert tr s. apply steps_trace_invariant; [reflexivity|]. intros tr s l s' _ IH H. rewrite begins_snoc, IH.
  destruct H; cbn; try (rewrite decide_False by discriminate; lia).
  case_decide as E; [injection E as ->; rewrite tset_eq; lia|]. rewrite tset_ne by congruence. lia.
Qed.
Lemma binv_reach maxw n tts clock s : 0 < maxw -> reach (p_init maxw n tts clock) (p_step idle) s -> binv s.
Proof.
  intros Hm R. assert (H : pinv s /\ binv s); [|tauto]. revert s R. apply reach_invariant.
  - split; [apply pinv_init; assumption|apply binv_init].
  - intros s l s' [A B] H. split; [exact (pinv_step idle s l s' A H)|exact (binv_step s l s' A B H)].
Qed.
Lemma ends_started maxw n tts clock tr s t : 0 < maxw -> steps (p_step idle) (p_init maxw n tts clock) tr s ->
  (forall g w c, p_gor s g = GHandle w c t -> ends t tr = 0%nat) /\
  ((forall g w c, p_gor s g <> GHandle w c t) -> ends t tr = p_started s t).
Proof.
  intros Hm. revert tr s. apply steps_trace_invariant; [split; [reflexivity|intros; reflexivity]|].
  intros tr s l s' R [I1 I2] H. assert (B : binv s) by (eapply binv_reach; [exact Hm|exists tr; exact R]).
  assert (A : pinv s) by (eapply pinv_reach; [exact Hm|exists tr; exact R]). pose proof (a_gor s A (p_ng s) ltac:(lia)) as G. rewrite ends_snoc.
  destruct H; cbn; try (rewrite decide_False by discriminate; rewrite Nat.add_0_r).
  all: try (split; [intros; ts; try discriminate; eapply I1; eassumption|]).
  all: try (intros N; apply I2; intros g0 w0 c0 E; specialize (N g0 w0 c0); revert N; ts; try congruence; tauto).
  all: try (intros N; apply I2; exact N).
  - split.
    + intros g0 w0 c0 E. ts; [|eapply I1; eassumption]. assert (t0 = t) as -> by congruence.
      destruct (b_buf s B c t ltac:(assumption)) as [_ E0]. rewrite I2, E0; [reflexivity|].
      intros g1 w1 c1 E1. pose proof (b_handle s B _ _ _ _ E1). congruence.
    + intros N. destruct (decide (t = t0)) as [->|Hne].
      * exfalso. apply (N g w c). rewrite tset_eq. reflexivity.
      * rewrite tset_ne by congruence. apply I2. intros g0 w0 c0 E. specialize (N g0 w0 c0). revert N. ts; congruence || tauto.
  - destruct (decide (LEnd t0 = LEnd t)) as [Et|Et].
    + injection Et as ->. split.
      * intros g0 w0 c0 E. ts; [discriminate|]. pose proof (b_one s B _ _ _ _ _ _ _ E H). congruence.
      * intros N. rewrite (I1 _ _ _ H), (b_handle s B _ _ _ _ H). reflexivity.
    + rewrite Nat.add_0_r. split.
      * intros; ts; try discriminate; eapply I1; eassumption.
      * intros N. apply I2. intros g0 w0 c0 E. specialize (N g0 w0 c0). revert N. ts; congruence || tauto.
Qed.

(** *** the worker count *)
Definition live (p : gpc) : Z := match p with GNone | GDone => 0 | _ => 1 end.
Fixpoint total {A} (m : A -> Z) (f : nat -> A) (n : nat) : Z := match n with O => 0 | S n => m (f n) + total m f n end.
Lemma total_ext {A} (m : A -> Z) f f' n : (forall i, (i < n)%nat -> f i = f' i) -> total m f n = total m f' n.
Proof. induction n as [|n IH]; intros H; cbn; [reflexivity|]. rewrite H, IH by (intros; auto with arith). reflexivity. Qed.
Lemma total_tset {A} (m : A -> Z) f g p n : (g < n)%nat -> total m (tset f g p) n = total m f n + m p - m (f g).
Proof.
  induction n as [|n IH]; intros H; [lia|]. cbn. destruct (decide (g = n)) as [->|].
  - rewrite tset_eq, (total_ext m (tset f n p) f); [lia|]. intros i Hi. apply tset_ne. lia.
  - rewrite tset_ne by congruence. rewrite IH by lia. lia.
Qed.
Lemma total_tset_out {A} (m : A -> Z) f g p n : (n <= g)%nat -> total m (tset f g p) n = total m f n.
Proof. intros H. apply total_ext. intros i Hi. apply tset_ne. lia. Qed.
Definition cinv (s : pstate) : Prop := p_workers s = total live (p_gor s) (p_ng s).
Lemma gor_lt s g : pinv s -> p_gor s g <> GNone -> (g < p_ng s)%nat.
Proof. intros A H. destruct (decide (p_ng s <= g)%nat) as [Hle|]; [|lia]. destruct H. exact (a_gor s A g Hle). Qed.
Lemma cinv_init maxw n tts clock : cinv (p_init maxw n tts clock).
Proof.
  unfold cinv. cbn. assert (H : forall k, (k <= n)%nat -> total live (fun g => if decide (g < n)%nat then GStart g else GNone) k = Z.of_nat k); [|rewrite H; lia].
  induction k as [|k IH]; intros Hk; [reflexivity|]. cbn [total]. rewrite decide_True by lia. rewrite IH by lia. cbn [live]. lia.
Qed.
Lemma cinv_step s l s' : pinv s -> cinv s -> p_step idle s l s' -> cinv s'.
Proof.
  intros A C H. unfold cinv in *. destruct H; cbn; try exact C.
  all: try (rewrite tset_eq, total_tset_out by lia; cbn; lia).
  all: match goal with H : p_gor _ ?g = _ |- _ => rewrite total_tset by (apply gor_lt; [exact A|congruence]); rewrite H; cbn; lia end.
Qed.

(** *** a worker object somebody is going to use has a goroutine to serve it *)
Definition awaited (o : owner) : bool := match o with ODobby | ORun _ | OQueued | OCol => true | _ => false end.
Definition serves (s : pstate) (g w : nat) : Prop := p_gor s g = GStart w \/ exists c, p_obj s w = Some c /\ p_gor s g = GRecv w c.
Definition dinv (s : pstate) : Prop := forall w, awaited (p_own s w) = true -> exists g, serves s g w.
Lemma dinv_init maxw n tts clock : dinv (p_init maxw n tts clock).
Proof. intros w H. exists w. left. cbn in *. case_decide; [reflexivity|discriminate]. Qed.
Lemma dinv_step s l s' : pinv s -> dinv s -> p_step idle s l s' -> dinv s'.
Proof.
  intros A D H.
  assert (keep : forall w, awaited (p_own s w) = true -> (forall g, serves s g w -> serves s' g w) -> exists g, serves s' g w).
  { intros w Hw K. destruct (D w Hw) as [g Hg]. exists g. apply K, Hg. }
  assert (usab : forall w, awaited (p_own s w) = true -> exists c, p_obj s w = Some c /\ p_closed s c = false).
  { intros w Hw. apply (a_open s A). destruct (p_own s w); try discriminate; reflexivity. }
  intros v Hv.
  destruct H; cbn in Hv; unfold serves in *; cbn in keep |- *; try (apply keep; [exact Hv|tauto]).
  all: pose proof (a_gor s A (p_ng s) ltac:(lia)) as G.
  all: try (apply keep; [exact Hv|]; intros g0 [E|(c0 & E1 & E2)]; [left|right; exists c0; split; [assumption|]]; ts; solve [congruence|
    destruct (usab _ Hv) as (? & ? & ?); congruence]).
  - (* pop *) apply keep; [|tauto]. ts; [|exact Hv]. rewrite (proj1 (a_dobby s A ltac:(assumption) w)); [reflexivity|].
    match goal with H : p_dobby s = _ |- _ => rewrite H end. apply elem_of_app. right. left.
  - destruct (decide (v = p_nobj s)) as [->|Hn]; [exists (p_ng s); left; rewrite tset_eq; reflexivity|]. rewrite tset_ne in Hv by exact Hn.
    apply keep; [exact Hv|]. intros g0 [E|(c0 & E1 & E2)]; [left|right; exists c0; split; [rewrite tset_ne by exact Hn; assumption|]]; ts; congruence.
  - destruct (decide (v = w)) as [->|Hn]; [exists (p_ng s); left; rewrite tset_eq; reflexivity|]. rewrite tset_ne in Hv by exact Hn.
    apply keep; [exact Hv|]. intros g0 [E|(c0 & E1 & E2)]; [left|right; exists c0; split; [rewrite tset_ne by exact Hn; assumption|]]; ts; congruence.
  - (* send *) apply keep; [|tauto]. ts; [|exact Hv]. rewrite (proj2 (a_run s A w t)); [reflexivity|assumption].
  - (* start *) destruct (D v Hv) as [g0 [E|(c0 & E1 & E2)]]; exists g0; ts; first [left; exact E|right; exists c; split; congruence|right; exists c0; split; congruence].
  - (* recv *) ts; [discriminate|].
    apply keep; [exact Hv|]. intros g0 [E|(c0 & E1 & E2)]; [left|right; exists c0; split; [assumption|]]; ts; congruence.
  - (* free *) ts.
    + exists g. right. exists c. rewrite tset_eq. split; [|reflexivity]. apply (a_busy s A g). match goal with H : p_gor s g = _ |- _ => rewrite H end. reflexivity.
    + apply keep; [exact Hv|]. intros g0 [E|(c0 & E1 & E2)]; [left|right; exists c0; split; [assumption|]]; ts; congruence.
  - (* free_stop *) ts; [discriminate|].
    apply keep; [exact Hv|]. intros g0 [E|(c0 & E1 & E2)]; [left|right; exists c0; split; [assumption|]]; ts; congruence.
  - (* tick *) apply keep; [|tauto]. unfold own_all in Hv. case_decide as Ht; [|exact Hv].
    rewrite (proj1 (a_dobby s A ltac:(assumption) v)); [reflexivity|]. eapply elem_of_take in Ht as (i & Ht & _). eapply elem_of_list_lookup_2. exact Ht.
  - (* close *) ts; [discriminate|]. apply keep; [exact Hv|tauto].
  - (* nil *) destruct (decide (v = w)) as [->|Hn].
    + rewrite (proj2 (a_closing s A w)) in Hv; [discriminate|]. match goal with H : p_col s = _ |- _ => rewrite H end. reflexivity.
    + apply keep; [exact Hv|]. rewrite tset_ne by exact Hn. tauto.
  - ts; [discriminate|]. apply keep; [exact Hv|tauto].
  - unfold own_all in Hv. case_decide; [discriminate|]. apply keep; [exact Hv|tauto].
Qed.

(** *** without preheated workers every worker object has one goroutine *)
Definition attached (s : pstate) (g w : nat) : Prop :=
  p_gor s g = GStart w \/ exists c, p_obj s w = Some c /\ (p_gor s g = GRecv w c \/ busy (p_gor s g) = Some (w, c)).
Record einv (s : pstate) : Prop := {
  e_start : forall g w, p_gor s g = GStart w -> (exists t, p_own s w = ORun t) \/ p_own s w = OQueued;
  e_uniq : forall g g' w, attached s g w -> attached s g' w -> g = g';
  e_nil : forall g w, p_gor s g <> GNil w;
  e_open : forall g w c, p_gor s g = GRecv w c -> p_closed s c = false -> awaited (p_own s w) = true }.
Lemma einv_init maxw tts clock : einv (p_init maxw 0 tts clock).
Proof. constructor; cbn; unfold attached; cbn; try discriminate. intros g g' w [H|(c & _ & [H|H])]; discriminate. Qed.
Lemma einv_step s l s' : pinv s -> einv s -> p_step idle s l s' -> einv s'.
Proof.
  intros A E H.
  assert (keep : (forall g w, attached s' g w -> attached s g w) -> forall g g' w, attached s' g w -> attached s' g' w -> g = g').
  { intros K g g' w H1 H2. eapply (e_uniq s E); apply K; eassumption. }
  assert (usab : forall w, awaited (p_own s w) = true -> exists c, p_obj s w = Some c /\ p_closed s c = false).
  { intros w Hw. apply (a_open s A). destruct (p_own s w); try discriminate; reflexivity. }
  destruct H; constructor; unfold attached in *; cbn in keep |- *; try (apply E); try (intros; eapply (e_open s E); eassumption); try (apply keep; tauto).
  all: pose proof (a_gor s A (p_ng s) ltac:(lia)) as G.
  all: try (intros; ts; solve [discriminate|congruence|eapply (e_nil s E); eassumption|eapply (e_start s E); eassumption|eapply (e_open s E); eassumption|
    left; eexists; reflexivity|right; reflexivity|reflexivity]).
  all: try (apply keep; intros g0 w0 [K|(c0 & K0 & [K|K])]; ts; cbn [busy] in *; try discriminate; try congruence;
    solve [left; congruence|left; assumption | right; exists c0; split; [congruence|left; congruence] | right; exists c0; split; [congruence|right; congruence]
      | left; injection K as -> ->; assumption|right; exists c0; split; [congruence|right; rewrite H; cbn [busy]; congruence]]).
  all: try (intros g0 w0 K; destruct (e_start s E g0 w0 K) as [[t' K']|K']; unfold own_all; try case_decide; ts; solve [congruence|eauto]).
  all: assert (SO : forall g w, p_gor s g = GStart w -> (exists t, p_own s w = ORun t) \/ p_own s w = OQueued) by (apply E).
  all: assert (FR : forall g w, p_own s w = OFree -> attached s g w -> False)
    by (intros ? ? F [K|(? & K & _)]; [destruct (SO _ _ K) as [[? ?]|?]; congruence|rewrite (a_free s A _ F) in K; discriminate]).
  - (* new *) pose proof (a_new s A (p_nobj s) ltac:(lia)) as F.
    assert (U : forall g0 w0, w0 <> p_nobj s -> g0 <> p_ng s -> (tset (p_gor s) (p_ng s) (GStart (p_nobj s)) g0 = GStart w0 \/
      (exists c, tset (p_obj s) (p_nobj s) (Some (p_nch s)) w0 = Some c /\ (tset (p_gor s) (p_ng s) (GStart (p_nobj s)) g0 = GRecv w0 c \/ busy (tset (p_gor s) (p_ng s) (GStart (p_nobj s)) g0) = Some (w0, c)))) -> attached s g0 w0).
    { intros g0 w0 N1 N2. unfold attached. rewrite !tset_ne by assumption. tauto. }
    assert (V : forall g0, (tset (p_gor s) (p_ng s) (GStart (p_nobj s)) g0 = GStart (p_nobj s) \/
      (exists c, tset (p_obj s) (p_nobj s) (Some (p_nch s)) (p_nobj s) = Some c /\ (tset (p_gor s) (p_ng s) (GStart (p_nobj s)) g0 = GRecv (p_nobj s) c \/ busy (tset (p_gor s) (p_ng s) (GStart (p_nobj s)) g0) = Some (p_nobj s, c)))) -> g0 = p_ng s).
    { intros g0. destruct (decide (g0 = p_ng s)) as [->|N]; [reflexivity|]. rewrite tset_eq, tset_ne by exact N.
      intros [K|(c0 & K0 & [K|K])]; exfalso.
      - apply (FR g0 (p_nobj s) F). left. exact K.
      - destruct (a_recv s A _ _ _ K) as [K1 _]. injection K0 as <-. lia.
      - apply (a_busy s A) in K. rewrite (a_free s A _ F) in K. discriminate. }
    intros g1 g2 w0 H3 H4. destruct (decide (w0 = p_nobj s)) as [->|N1]; [rewrite (V g1 H3), (V g2 H4); reflexivity|].
    assert (X : forall g0, (tset (p_gor s) (p_ng s) (GStart (p_nobj s)) g0 = GStart w0 \/
      (exists c, tset (p_obj s) (p_nobj s) (Some (p_nch s)) w0 = Some c /\ (tset (p_gor s) (p_ng s) (GStart (p_nobj s)) g0 = GRecv w0 c \/ busy (tset (p_gor s) (p_ng s) (GStart (p_nobj s)) g0) = Some (w0, c)))) -> g0 <> p_ng s).
    { intros g0 K ->. rewrite tset_eq in K. cbn in K. destruct K as [K|(? & _ & [K|K])]; congruence. }
    apply (e_uniq s E g1 g2 w0); [apply (U g1 w0 N1 (X g1 H3) H3)|apply (U g2 w0 N1 (X g2 H4) H4)].
  - (* recycled *) assert (F : p_own s w = OFree) by (apply (a_pool s A); match goal with H : p_pool s = _ |- _ => rewrite H end; apply elem_of_app; right; left).
    assert (U : forall g0 w0, w0 <> w -> g0 <> p_ng s -> (tset (p_gor s) (p_ng s) (GStart w) g0 = GStart w0 \/
      (exists c, tset (p_obj s) w (Some (p_nch s)) w0 = Some c /\ (tset (p_gor s) (p_ng s) (GStart w) g0 = GRecv w0 c \/ busy (tset (p_gor s) (p_ng s) (GStart w) g0) = Some (w0, c)))) -> attached s g0 w0).
    { intros g0 w0 N1 N2. unfold attached. rewrite !tset_ne by assumption. tauto. }
    assert (V : forall g0, (tset (p_gor s) (p_ng s) (GStart w) g0 = GStart w \/
      (exists c, tset (p_obj s) w (Some (p_nch s)) w = Some c /\ (tset (p_gor s) (p_ng s) (GStart w) g0 = GRecv w c \/ busy (tset (p_gor s) (p_ng s) (GStart w) g0) = Some (w, c)))) -> g0 = p_ng s).
    { intros g0. destruct (decide (g0 = p_ng s)) as [->|N]; [reflexivity|]. rewrite tset_eq, tset_ne by exact N.
      intros [K|(c0 & K0 & [K|K])]; exfalso.
      - apply (FR g0 w F). left. exact K.
      - destruct (a_recv s A _ _ _ K) as [K1 _]. injection K0 as <-. lia.
      - apply (a_busy s A) in K. rewrite (a_free s A _ F) in K. discriminate. }
    intros g1 g2 w0 K1 K2. destruct (decide (w0 = w)) as [->|N1]; [rewrite (V g1 K1), (V g2 K2); reflexivity|].
    assert (X : forall g0, (tset (p_gor s) (p_ng s) (GStart w) g0 = GStart w0 \/
      (exists c, tset (p_obj s) w (Some (p_nch s)) w0 = Some c /\ (tset (p_gor s) (p_ng s) (GStart w) g0 = GRecv w0 c \/ busy (tset (p_gor s) (p_ng s) (GStart w) g0) = Some (w0, c)))) -> g0 <> p_ng s).
    { intros g0 K ->. rewrite tset_eq in K. cbn in K. destruct K as [K|(? & _ & [K|K])]; congruence. }
    apply (e_uniq s E g1 g2 w0); [apply (U g1 w0 N1 (X g1 K1) K1)|apply (U g2 w0 N1 (X g2 K2) K2)].
  - (* start *) intros g0 w0 c0 K1 K2. destruct (decide (g0 = g)) as [->|N0]; [rewrite tset_eq in K1|rewrite tset_ne in K1 by exact N0]; [|eapply (e_open s E); eassumption]. injection K1 as <- <-. destruct (SO _ _ H) as [[t ->]| ->]; reflexivity.
  - (* nil *) intros g0 w0. destruct (decide (g0 = g)) as [->|N0]; [rewrite tset_eq|rewrite tset_ne by exact N0; apply E]. destruct (SO _ _ H) as [[t K]|K]; destruct (usab w ltac:(rewrite K; reflexivity)) as (? & ? & ?); congruence.
  - (* recv *) intros g0 w0 K. destruct (decide (g0 = g)) as [->|N0]; [rewrite tset_eq in K; discriminate|rewrite tset_ne in K by exact N0]. destruct (decide (w0 = w)) as [->|N]; [|rewrite tset_ne by exact N; eapply SO; exact K].
    exfalso. apply N0. apply (e_uniq s E g0 g w); [left; exact K|]. right. exists c. split; [|left; exact H].
    match goal with H : p_buf s c = Some t |- _ => destruct (a_buf s A _ _ H) as (w1 & O1 & O2) end.
    destruct (a_recv s A _ _ _ H) as [_ [Q|Q]]; [exact Q|]. destruct (a_open s A w1 ltac:(rewrite O2; reflexivity)) as (? & ? & ?); congruence.
  - intros g0 w0 c0 K1 K2. destruct (decide (g0 = g)) as [->|N0]; [rewrite tset_eq in K1; discriminate|rewrite tset_ne in K1 by exact N0]. destruct (decide (w0 = w)) as [->|N]; [|rewrite tset_ne by exact N; eapply (e_open s E); eassumption].
    exfalso. apply N0.
    match goal with H : p_buf s c = Some t |- _ => destruct (a_buf s A _ _ H) as (w1 & O1 & O2) end.
    destruct (a_open s A w1 ltac:(rewrite O2; reflexivity)) as (? & ? & ?).
    assert (Q : p_obj s w = Some c) by (destruct (a_recv s A _ _ _ H) as [_ [Q|Q]]; [exact Q|congruence]).
    assert (Q' : p_obj s w = Some c0) by (destruct (a_recv s A _ _ _ K1) as [_ [Q'|Q']]; [exact Q'|congruence]).
    apply (e_uniq s E g0 g w); right; [exists c0|exists c]; (split; [assumption|left; assumption]).
  - (* free *) intros g0 w0 K. destruct (decide (g0 = g)) as [->|N0]; [rewrite tset_eq in K; discriminate|rewrite tset_ne in K by exact N0]. destruct (decide (w0 = w)) as [->|N]; [|rewrite tset_ne by exact N; eapply SO; exact K].
    exfalso. assert (Q : p_own s w = OWork g) by (apply (a_work s A); exists c; rewrite H; reflexivity). destruct (SO _ _ K) as [[? ?]|?]; congruence.
  - (* free_stop *) intros g0 w0 K. destruct (decide (g0 = g)) as [->|N0]; [rewrite tset_eq in K; discriminate|rewrite tset_ne in K by exact N0]. destruct (decide (w0 = w)) as [->|N]; [|rewrite tset_ne by exact N; eapply SO; exact K].
    exfalso. assert (Q : p_own s w = OWork g) by (apply (a_work s A); exists c; rewrite H; reflexivity). destruct (SO _ _ K) as [[? ?]|?]; congruence.
  - intros g0 w0 c0 K1 K2. destruct (decide (g0 = g)) as [->|N0]; [rewrite tset_eq in K1; discriminate|rewrite tset_ne in K1 by exact N0]. destruct (decide (w0 = w)) as [->|N]; [|rewrite tset_ne by exact N; eapply (e_open s E); eassumption].
    assert (Q : p_own s w = OWork g) by (apply (a_work s A); exists c; rewrite H; reflexivity).
    pose proof (e_open s E _ _ _ K1 K2) as Q'. rewrite Q in Q'. discriminate.
  - (* tick *) intros g0 w0 K. unfold own_all. case_decide as T; [|eapply SO; exact K]. exfalso.
    assert (Q : p_own s w0 = ODobby). { apply (a_dobby s A); [assumption|]. apply elem_of_take in T as (i & T & _). eapply elem_of_list_lookup_2. exact T. }
    destruct (SO _ _ K) as [[? ?]|?]; congruence.
  - intros g0 w0 c0 K1 K2. unfold own_all. case_decide as T; [reflexivity|]. eapply (e_open s E); eassumption.
  - intros g0 w0 c0 K1 K2. apply close_all_false in K2 as [K2 _]. eapply (e_open s E); eassumption.
  - (* close *) intros g0 w0 K. destruct (decide (w0 = w)) as [->|N]; [|rewrite tset_ne by exact N; eapply SO; exact K].
    exfalso. assert (Q : p_own s w = OCol) by (apply (a_col s A); rewrite H; left). destruct (SO _ _ K) as [[? ?]|?]; congruence.
  - intros g0 w0 c0 K1 K2. destruct (decide (c0 = c)) as [->|N]; [rewrite tset_eq in K2; discriminate|]. rewrite tset_ne in K2 by exact N.
    destruct (decide (w0 = w)) as [->|N']; [|rewrite tset_ne by exact N'; eapply (e_open s E); eassumption].
    destruct (a_recv s A _ _ _ K1) as [_ [Q|Q]]; congruence.
  - (* put *) intros g0 w0 K. destruct (decide (w0 = w)) as [->|N]; [|rewrite tset_ne by exact N; eapply SO; exact K].
    exfalso. assert (Q : p_own s w = OClosing) by (apply (a_closing s A); rewrite H; reflexivity). destruct (SO _ _ K) as [[? ?]|?]; congruence.
  - intros g0 w0 c0 K1 K2. destruct (decide (w0 = w)) as [->|N]; [|rewrite tset_ne by exact N; eapply (e_open s E); eassumption].
    assert (Q : p_own s w = OClosing) by (apply (a_closing s A); rewrite H; reflexivity). pose proof (e_open s E _ _ _ K1 K2) as Q'. rewrite Q in Q'. discriminate.
  - (* stop *) assert (M : p_max s <> -1) by (rewrite (a_max s A); congruence).
    intros g0 w0 K. unfold own_all. case_decide as T; [|eapply SO; exact K]. exfalso.
    assert (Q : p_own s w0 = ODobby) by (apply (a_dobby s A); assumption). destruct (SO _ _ K) as [[? ?]|?]; congruence.
  - intros g0 w0 c0 K1 K2. apply close_all_false in K2 as [K2 K3]. unfold own_all. case_decide as T; [|eapply (e_open s E); eassumption].
    destruct (a_recv s A _ _ _ K1) as [_ [Q|Q]]; [destruct (K3 w0 T Q)|congruence].
Qed.
Lemma einv_reach maxw tts clock s : 0 < maxw -> reach (p_init maxw 0 tts clock) (p_step idle) s -> einv s.
Proof.
  intros Hm R. assert (H : pinv s /\ einv s); [|tauto]. revert s R. apply reach_invariant.
  - split; [apply pinv_init; assumption|apply einv_init].
  - intros s l s' [A B] H. split; [exact (pinv_step idle s l s' A H)|exact (einv_step s l s' A B H)].
Qed.
Lemma cinv_reach maxw n tts clock s : 0 < maxw -> reach (p_init maxw n tts clock) (p_step idle) s -> cinv s.
Proof.
  intros Hm R. assert (H : pinv s /\ cinv s); [|tauto]. revert s R. apply reach_invariant.
  - split; [apply pinv_init; assumption|apply cinv_init].
  - intros s l s' [A B] H. split; [exact (pinv_step idle s l s' A H)|exact (cinv_step s l s' A B H)].
Qed.
Lemma dinv_reach maxw n tts clock s : 0 < maxw -> reach (p_init maxw n tts clock) (p_step idle) s -> dinv s.
Proof.
  intros Hm R. assert (H : pinv s /\ dinv s); [|tauto]. revert s R. apply reach_invariant.
  - split; [apply pinv_init; assumption|apply dinv_init].
  - intros s l s' [A B] H. split; [exact (pinv_step idle s l s' A H)|exact (dinv_step s l s' A B H)].
Qed.
End inv.
