(** Lazies whose constructors call Get of each other. *)
From Verif Require Import Base Conc LazyNetModel.

Section props.
Context {A : Type} (zero : A) (ctor main : nat -> gcode A).
Notation step := (v_step ctor).
Notation init := (v_init zero main).

(** the Lazies whose mutex a goroutine has *)
Definition busy (x : vthr A) : list nat := match v_pc x with VLoad | VWait | VRead | VPanicked => tail (v_in x).*1 | _ => (v_in x).*1 end.
(** the Lazies whose constructor it is inside of, or has just left *)
Definition making (x : vthr A) : list nat := match v_pc x with VRun _ | VAssign _ | VSetDone _ => (v_in x).*1 | _ => tail (v_in x).*1 end.
Record tok (d : nat -> bool) (m : nat -> option nat) (t : nat) (x : vthr A) : Prop := {
  k_dup : NoDup (busy x);
  k_mu : forall j, j ∈ busy x -> m j = Some t;
  k_done : forall j, j ∈ making x -> d j = false;
  k_after : match v_pc x, v_in x with VUnlock _, (j, _) :: _ | VRead, (j, _) :: _ | VPanicked, (j, _) :: _ => d j = true | _, _ => True end;
  k_in : match v_pc x with VRun _ => True | _ => v_in x <> [] end
}.
Record vinv (s : vstate A) : Prop := {
  i_tok : forall t, tok (g_done s) (g_mu s) t (g_th s t);
  i_own : forall j t, g_mu s j = Some t -> j ∈ busy (g_th s t);
  i_calls : forall j, g_calls s j <= 1 /\ (g_calls s j = 1 -> g_done s j = true \/ exists t, j ∈ making (g_th s t))
}.
Lemma making_busy x j : j ∈ making x -> j ∈ busy x.
Proof. unfold making, busy. destruct (v_in x) as [|[i k] st]; destruct (v_pc x); cbn; auto; intros H; right; exact H. Qed.
(** the other goroutines when t changes what is said about j *)
Lemma tok_other d m t u x j b o : u <> t -> tok d m u x -> m j = None \/ m j = Some t -> (d j = true -> b = true) -> tok (tset d j b) (tset m j o) u x.
Proof.
  intros Hu [K1 K2 K3 K4 K5] Hm Hb. assert (N : forall i, i ∈ busy x -> i <> j) by (intros i Hi ->; rewrite (K2 j Hi) in Hm; destruct Hm; congruence). split; try assumption.
  - intros i Hi. rewrite tset_ne by (apply N; exact Hi). auto.
  - intros i Hi. rewrite tset_ne by (apply N, making_busy; exact Hi). auto.
  - destruct (v_pc x), (v_in x) as [|[i k] st]; auto; (destruct (tset_cases d j b i) as [[-> ->]|[_ ->]]; auto).
Qed.
Lemma tset_id {P} (f : nat -> P) i j : tset f i (f i) j = f j.
Proof. destruct (tset_cases f i (f i) j) as [[-> ->]|[_ ->]]; reflexivity. Qed.
Lemma tok_ext d m d' m' t x : (forall j, d j = d' j) -> (forall j, m j = m' j) -> tok d m t x -> tok d' m' t x.
Proof.
  intros Hd Hm [K1 K2 K3 K4 K5]. split; auto; [intros j Hj; rewrite <- Hm; auto|intros j Hj; rewrite <- Hd; auto|].
  destruct (v_pc x), (v_in x) as [|[i k] st]; auto; rewrite <- Hd; exact K4.
Qed.
(** what is asked of a step: t goes from x to y, the done, the mutex and the count of j
    change to b, o and n *)
Lemma vinv_change d m v v' c th t y j b o n : vinv (VS d m v c th) ->
  (m j = None \/ m j = Some t \/ (b = d j /\ o = m j)) -> (d j = true -> b = true) ->
  tok (tset d j b) (tset m j o) t y ->
  (forall i, i <> j -> (i ∈ busy y <-> i ∈ busy (th t))) -> (o = Some t <-> j ∈ busy y) -> (o = Some t \/ o = None \/ o = m j) ->
  (forall i, i <> j -> (i ∈ making (th t) -> i ∈ making y)) -> (n = 1 -> b = true \/ j ∈ making y \/ c j = 1 /\ exists u, u <> t /\ j ∈ making (th u)) -> n <= 1 ->
  vinv (VS (tset d j b) (tset m j o) v' (tset c j n) (tset th t y)).
Proof.
  intros [I1 I2 I3] Hm Hb Hy B1 B2 B3 M1 M2 Hn. cbn [g_done g_mu g_val g_calls g_th] in *. split; cbn [g_done g_mu g_val g_calls g_th].
  - intros u. destruct (tset_cases th t y u) as [[-> ->]|[Hu ->]]; [exact Hy|].
    destruct Hm as [Hm|[Hm|[-> ->]]]; [apply (tok_other d m t); auto|apply (tok_other d m t); auto|]. eapply tok_ext; [| |apply I1]; intros i; symmetry; apply tset_id.
  - intros i u. destruct (tset_cases m j o i) as [[-> ->]|[Hi ->]].
    + intros E. destruct (decide (u = t)) as [->|Hu]; [rewrite tset_eq; apply B2; exact E|]. rewrite tset_ne by exact Hu. destruct B3 as [B3|[B3|B3]]; [congruence|congruence|]. apply I2. congruence.
    + intros E. destruct (decide (u = t)) as [->|Hu]; [rewrite tset_eq; apply B1; auto|rewrite tset_ne by exact Hu; auto].
  - intros i. destruct (tset_cases c j n i) as [[-> ->]|[Hi ->]].
    + split; [exact Hn|]. intros E. rewrite tset_eq. destruct (M2 E) as [->|[K|(_ & u & Hu & K)]]; [auto| |]; right; [exists t; rewrite tset_eq; exact K|exists u; rewrite tset_ne by exact Hu; exact K].
    + destruct (I3 i) as [J1 J2]. split; [exact J1|]. intros E. rewrite tset_ne by exact Hi. destruct (J2 E) as [K|[u K]]; [auto|]. right. exists u.
      destruct (decide (u = t)) as [->|Hu]; [rewrite tset_eq; auto|rewrite tset_ne by exact Hu; exact K].
Qed.
Lemma vinv_same d m v v' c th t y : vinv (VS d m v c th) -> busy y = busy (th t) -> making y = making (th t) ->
  match v_pc y, v_in y with VUnlock _, (j, _) :: _ | VRead, (j, _) :: _ | VPanicked, (j, _) :: _ => d j = true | _, _ => True end ->
  match v_pc y with VRun _ => True | _ => v_in y <> [] end -> vinv (VS d m v' c (tset th t y)).
Proof.
  intros [I1 I2 I3] B M K4 K5. cbn [g_done g_mu g_val g_calls g_th] in *. split; cbn [g_done g_mu g_val g_calls g_th].
  - intros u. destruct (tset_cases th t y u) as [[-> ->]|[Hu ->]]; [|apply I1]. destruct (I1 t) as [J1 J2 J3 _ _]. split; try rewrite B; try rewrite M; auto.
  - intros i u E. destruct (tset_cases th t y u) as [[-> ->]|[Hu ->]]; [rewrite B|]; auto.
  - intros i. destruct (I3 i) as [J1 J2]. split; [exact J1|]. intros E. destruct (J2 E) as [K|[u K]]; [auto|]. right. exists u. destruct (tset_cases th t y u) as [[-> ->]|[Hu ->]]; [rewrite M|]; exact K.
Qed.
Lemma vinv_ext d m v c th d' m' c' : (forall j, d j = d' j) -> (forall j, m j = m' j) -> (forall j, c j = c' j) -> vinv (VS d m v c th) -> vinv (VS d' m' v c' th).
Proof.
  intros Hd Hm Hc [I1 I2 I3]. cbn in *. split; cbn.
  - intros t. eapply tok_ext; eauto.
  - intros j t. rewrite <- Hm. apply I2.
  - intros j. rewrite <- Hc, <- Hd. apply I3.
Qed.
Lemma vinv_step s l s' : vinv s -> step s l s' -> vinv s'.
Proof.
  intros HI HS. destruct HS as [d m v c th t j k st H|d m v c th t j k st H|d m v c th t j k st H Hm|d m v c th t j k st H Hd|d m v c th t j k st H Hd|d m v c th t j k st x H|d m v c th t j k st H|d m v c th t j k st x H|d m v c th t j k st ok H|d m v c th t j k st ok H|d m v c th t j k st H|d m v c th t j k st H];
    pose proof (i_tok _ HI t) as HT; cbn [g_done g_mu g_th] in HT; rewrite H in HT.
  1, 6, 7, 8, 11, 12: eapply vinv_same; [exact HI|rewrite H; reflexivity|rewrite H; reflexivity|exact I|cbn; try exact I; discriminate].
  - eapply vinv_same; [exact HI|rewrite H; destruct (d j); reflexivity|rewrite H; destruct (d j); reflexivity|cbn; destruct (d j); [reflexivity|exact I]|cbn; destruct (d j); discriminate].
  - (* lock *) destruct HT as [K1 K2 K3 _ _]. unfold busy, making in *. cbn in *.
    apply (vinv_ext (tset d j (d j)) (tset m j (Some t)) _ (tset c j (c j))); [intros; apply tset_id|reflexivity|intros; apply tset_id|].
    assert (Nj : j ∉ st.*1) by (intros Q; rewrite (K2 j Q) in Hm; discriminate).
    eapply vinv_change; [exact HI|auto|auto| | | |auto| | |apply (i_calls _ HI j)]; unfold busy, making; rewrite ?H; cbn.
    + split; unfold busy, making; cbn; [constructor; assumption| | |exact I|discriminate].
      * intros i Hi. apply elem_of_cons in Hi as [->|Hi]; [apply tset_eq|]. rewrite tset_ne by (intros ->; contradiction). auto.
      * intros i Hi. rewrite tset_id. auto.
    + intros i Hi. rewrite elem_of_cons. tauto.
    + split; [left|reflexivity].
    + auto.
    + intros E. destruct (proj2 (i_calls _ HI j) E) as [Q|[u Q]]; cbn in Q; [auto|]. right. right. split; [exact E|]. exists u. split; [|exact Q]. intros ->. rewrite H in Q. exact (Nj Q).
  - eapply vinv_same; [exact HI|rewrite H; reflexivity|rewrite H; reflexivity|exact Hd|discriminate].
  - (* check *) destruct HT as [K1 K2 K3 _ _]. unfold busy, making in *. cbn in *.
    apply (vinv_ext (tset d j (d j)) (tset m j (m j)) _ (tset c j (S (c j)))); [intros; apply tset_id|intros; apply tset_id|reflexivity|].
    apply NoDup_cons in K1 as [Nj K1]. assert (Mj : m j = Some t) by (apply K2; left).
    assert (Cj : c j = 0).
    { destruct (i_calls _ HI j) as [L E]. cbn in L, E. destruct (c j) as [|[|]]; [reflexivity| |lia]. exfalso. destruct (E eq_refl) as [Q|[u Q]]; [congruence|].
      assert (u = t). { pose proof (k_mu _ _ _ _ (i_tok _ HI u) j (making_busy _ _ Q)) as Mu. cbn in Mu. congruence. } subst u. unfold making in Q. rewrite H in Q. exact (Nj Q). }
    eapply vinv_change; [exact HI|auto|auto| | | |auto| | |lia]; unfold busy, making; rewrite ?H; cbn.
    + split; unfold busy, making; cbn; [constructor; assumption| | |exact I|exact I].
      * intros i Hi. rewrite tset_id. auto.
      * intros i Hi. rewrite tset_id. apply elem_of_cons in Hi as [->|Hi]; auto.
    + reflexivity.
    + split; [left|auto].
    + intros i Hi Q. right. exact Q.
    + intros _. right. left. left.
  - (* set done *) destruct HT as [K1 K2 K3 _ _]. unfold busy, making in *. cbn in *.
    apply (vinv_ext (tset d j true) (tset m j (m j)) _ (tset c j (c j))); [reflexivity|intros; apply tset_id|intros; apply tset_id|].
    assert (Mj : m j = Some t) by (apply K2; left). pose proof K1 as K1'. apply NoDup_cons in K1' as [Nj _].
    eapply vinv_change; [exact HI|auto|auto| | | |auto| | |apply (i_calls _ HI j)]; unfold busy, making; rewrite ?H; cbn.
    + split; unfold busy, making; cbn; [exact K1| | |apply tset_eq|discriminate].
      * intros i Hi. rewrite tset_id. auto.
      * intros i Hi. rewrite tset_ne by (intros ->; contradiction). apply K3. right. exact Hi.
    + reflexivity.
    + split; [left|auto].
    + intros i Hi Q. apply elem_of_cons in Q as [->|Q]; [contradiction|exact Q].
    + auto.
  - (* unlock *) destruct HT as [K1 K2 K3 K4 _]. unfold busy, making in *. cbn in *.
    apply (vinv_ext (tset d j (d j)) (tset m j None) _ (tset c j (c j))); [intros; apply tset_id|reflexivity|intros; apply tset_id|].
    assert (Mj : m j = Some t) by (apply K2; left). apply NoDup_cons in K1 as [Nj K1].
    eapply vinv_change; [exact HI|auto|auto| | | |auto| | |apply (i_calls _ HI j)]; unfold busy, making; rewrite ?H; cbn.
    + split; unfold busy, making; cbn; destruct ok; cbn; try exact K1; try discriminate; try (rewrite tset_eq; exact K4).
      all: intros i Hi; rewrite ?tset_id; auto. all: rewrite tset_ne by (intros ->; contradiction); apply K2; right; exact Hi.
    + intros i Hi. destruct ok; cbn; rewrite elem_of_cons; tauto.
    + split; [discriminate|]. intros Q. exfalso. destruct ok; exact (Nj Q).
    + intros i Hi Q. destruct ok; exact Q.
    + auto.
Qed.
Lemma vinv_init : vinv init.
Proof.
  split; cbn.
  - intros t. split; unfold busy, making; cbn; try exact I; [constructor|intros j Q; inversion Q|intros j Q; inversion Q].
  - discriminate.
  - intros j. split; [lia|discriminate].
Qed.
Lemma vinv_reach s : reach init step s -> vinv s.
Proof. apply reach_invariant; [apply vinv_init|apply vinv_step]. Qed.
Lemma vinv_steps s ls s' : vinv s -> steps step s ls s' -> vinv s'.
Proof. intros H. apply (steps_invariant s step vinv H vinv_step). Qed.

(** C197: whatever the constructors do, each is called at most once, and only one goroutine
    is ever inside of it *)
Theorem lazy_net_once s : reach init step s ->
  (forall j, g_calls s j <= 1) /\ (forall j t u, j ∈ making (g_th s t) -> j ∈ making (g_th s u) -> t = u) /\ forall t, NoDup (making (g_th s t)).
Proof.
  intros HR. pose proof (vinv_reach s HR) as HI. split; [intros j; apply (i_calls s HI j)|]. split.
  - intros j t u Ht Hu. pose proof (k_mu _ _ _ _ (i_tok s HI t) j (making_busy _ _ Ht)). pose proof (k_mu _ _ _ _ (i_tok s HI u) j (making_busy _ _ Hu)). congruence.
  - intros t. pose proof (k_dup _ _ _ _ (i_tok s HI t)) as K. unfold making, busy in *. destruct (v_pc (g_th s t)), (v_in (g_th s t)) as [|[j k] st]; cbn in *; try exact K; try (apply NoDup_cons in K as [_ K]; exact K); constructor.
Qed.

(** *** What Get returns *)
(** what code evaluates to when Get of a Lazy is a call of its constructor *)
Inductive evals : gcode A -> A -> Prop :=
| ev_ret v : evals (GRet v) v
| ev_get j k v w : evals (ctor j) v -> evals (k v) w -> evals (GGet j k) w.
Lemma evals_fun c v w : evals c v -> evals c w -> v = w.
Proof.
  intros H. revert w. induction H as [v|j k v w H1 IH1 H2 IH2]; intros w' H; inversion H; subst; [reflexivity|]. assert (v = v0) by (apply IH1; assumption). subst v0. apply IH2. assumption.
Qed.
(** code that does not panic *)
Fixpoint calm (c : gcode A) : Prop := match c with GRet _ => True | GPanic => False | GGet _ k => forall v, calm (k v) end.
(** the code that has called what st is inside of *)
Definition root (t : nat) (st : list (nat * (A -> gcode A))) : gcode A := match st with [] => main t | (j, _) :: _ => ctor j end.
Fixpoint val_in (t : nat) (st : list (nat * (A -> gcode A))) : Prop :=
  match st with [] => True | (j, k) :: st => (forall v, calm (k v)) /\ (forall v w, evals (ctor j) v -> evals (k v) w -> evals (root t st) w) /\ val_in t st end.
Definition val_th (v : nat -> A) (t : nat) (x : vthr A) : Prop :=
  val_in t (v_in x) /\
  match v_pc x with
  | VRun c => calm c /\ forall w, evals c w -> evals (root t (v_in x)) w
  | VAssign w => evals (root t (v_in x)) w
  | VSetDone ok => ok = true /\ match v_in x with (j, _) :: _ => evals (ctor j) (v j) | [] => False end
  | VUnlock ok => ok = true
  | VPanicked => False
  | _ => True
  end.
Definition val_inv (s : vstate A) : Prop := (forall t, val_th (g_val s) t (g_th s t)) /\ forall j, g_done s j = true -> evals (ctor j) (g_val s j).
Context (HC : forall j, calm (ctor j)) (HM : forall t, calm (main t)).
Lemma val_step s l s' : vinv s -> val_inv s -> step s l s' -> val_inv s'.
Proof using HC.
  intros HI [V1 V2] HS. destruct HS as [d m v c th t j k st H|d m v c th t j k st H|d m v c th t j k st H Hm|d m v c th t j k st H Hd|d m v c th t j k st H Hd|d m v c th t j k st x H|d m v c th t j k st H|d m v c th t j k st x H|d m v c th t j k st ok H|d m v c th t j k st ok H|d m v c th t j k st H|d m v c th t j k st H];
    pose proof (i_tok _ HI t) as HT; pose proof (V1 t) as HV; cbn [g_done g_mu g_th g_val] in *; rewrite H in HT, HV; unfold val_th in HV; cbn in HV; destruct HV as [HV1 HV2].
  8: { (* the value of j is assigned: nobody else has just assigned it, and it is not done *)
    assert (Dj : d j = false) by (apply (k_done _ _ _ _ HT); left). split; cbn [g_th g_val g_done].
    - intros u. destruct (decide (u = t)) as [->|Hu]; [rewrite tset_eq; split; [exact HV1|]; cbn; rewrite tset_eq; auto|]. rewrite tset_ne by exact Hu. pose proof (V1 u) as [W1 W2]. split; [exact W1|].
      destruct (v_pc (th u)) eqn:E; try exact W2. destruct W2 as [W2 W3]. split; [exact W2|]. destruct (v_in (th u)) as [|[i k'] st'] eqn:E'; [exact W3|]. rewrite tset_ne; [exact W3|]. intros ->.
      apply Hu. pose proof (k_mu _ _ _ _ (i_tok _ HI u) j) as Mu. pose proof (k_mu _ _ _ _ HT j) as Mt. unfold busy in Mu, Mt. cbn in Mu, Mt. rewrite E, E' in Mu. cbn in Mu. specialize (Mu ltac:(left)). specialize (Mt ltac:(left)). congruence.
    - intros i Hi. rewrite tset_ne by congruence. auto. }
  all: split; cbn [g_th g_val g_done]; [intros u; destruct (decide (u = t)) as [->|Hu]; [rewrite tset_eq; unfold val_th; cbn|rewrite tset_ne by exact Hu; apply V1]|try exact V2].
  - split; [|exact I]. destruct HV2 as [W1 W2]. split; [exact W1|]. split; [|exact HV1]. intros y w E1 E2. apply W2. econstructor; eassumption.
  - split; [exact HV1|]. destruct (d j); exact I.
  - split; [exact HV1|exact I].
  - auto.
  - split; [exact HV1|]. split; [apply HC|auto].
  - split; [exact HV1|]. apply HV2. constructor.
  - destruct HV2 as [[] _].
  - split; [exact HV1|]. apply HV2.
  - intros i. destruct (tset_cases d j true i) as [[-> ->]|[Hi ->]]; [intros _; apply HV2|apply V2].
  - split; [exact HV1|]. rewrite HV2. exact I.
  - destruct HV1 as (W1 & W2 & W3). split; [exact W3|]. split; [apply W1|]. intros w Hw. apply (W2 (v j)); [|exact Hw]. apply V2. exact (k_after _ _ _ _ HT).
  - destruct HV2.
Qed.
Lemma val_reach s : reach init step s -> vinv s /\ val_inv s.
Proof using HC HM.
  apply (reach_invariant init step (fun s => vinv s /\ val_inv s)).
  - split; [apply vinv_init|]. split; [|discriminate]. intros t. split; [exact I|]. cbn. split; [apply HM|auto].
  - intros s1 l s2 [I1 I2] H. split; [eapply vinv_step; eassumption|eapply val_step; eassumption].
Qed.
(** C197: without panics, what Get of a Lazy returns, and what a goroutine computes from it,
    is what one gets by calling the constructors; nothing else depends on the order of
    things *)
Theorem lazy_net_value s : reach init step s ->
  (forall j, g_done s j = true -> evals (ctor j) (g_val s j)) /\ (forall t v, g_th s t = VT (VRun (GRet v)) [] -> evals (main t) v) /\
  forall t, g_th s t <> VT (VRun GPanic) [].
Proof using HC HM.
  intros HR. destruct (val_reach s HR) as [_ [V1 V2]]. split; [exact V2|]. split.
  - intros t v E. specialize (V1 t). rewrite E in V1. destruct V1 as [_ [_ V]]. apply V. constructor.
  - intros t E. specialize (V1 t). rewrite E in V1. destruct V1 as [_ [[] _]].
Qed.
End props.

Section cycles.
Context {A : Type} (zero : A) (ctor main : nat -> gcode A).
Notation step := (v_step ctor).
Notation init := (v_init zero main).
(** *** Who waits for ever *)
(** a goroutine that is in, or about to call, Get of a Lazy whose constructor a goroutine of
    D is inside of *)
Definition gwaits (D : nat -> Prop) (s : vstate A) (t : nat) : Prop :=
  exists j u, D u /\ j ∈ making (g_th s u) /\
    ((exists k, v_pc (g_th s t) = VRun (GGet j k)) \/ (v_pc (g_th s t) = VLoad \/ v_pc (g_th s t) = VWait) /\ exists k st, v_in (g_th s t) = (j, k) :: st).
Lemma gwaits_step (D : nat -> Prop) s l s' : vinv s -> (forall t, D t -> gwaits D s t) -> step s l s' ->
  (forall t, D t -> gwaits D s' t) /\ forall t, D t -> making (g_th s' t) = making (g_th s t).
Proof.
  intros HI HD HS.
  assert (HB : forall j u, j ∈ making (g_th s u) -> g_mu s j = Some u /\ g_done s j = false).
  { intros j u Hj. split; [exact (k_mu _ _ _ _ (i_tok s HI u) j (making_busy _ _ Hj))|exact (k_done _ _ _ _ (i_tok s HI u) j Hj)]. }
  assert (E : forall t, D t -> making (g_th s' t) = making (g_th s t) /\ forall j,
    (exists k, v_pc (g_th s t) = VRun (GGet j k)) \/ (v_pc (g_th s t) = VLoad \/ v_pc (g_th s t) = VWait) /\ (exists k st, v_in (g_th s t) = (j, k) :: st) ->
    (exists k, v_pc (g_th s' t) = VRun (GGet j k)) \/ (v_pc (g_th s' t) = VLoad \/ v_pc (g_th s' t) = VWait) /\ exists k st, v_in (g_th s' t) = (j, k) :: st).
  { intros u Du. destruct (HD u Du) as (j0 & u0 & Du0 & Hj & W). destruct (HB j0 u0 Hj) as [Mj Dj].
    destruct HS as [d m v c th t j k st H|d m v c th t j k st H|d m v c th t j k st H Hm|d m v c th t j k st H Hd|d m v c th t j k st H Hd|d m v c th t j k st x H|d m v c th t j k st H|d m v c th t j k st x H|d m v c th t j k st ok H|d m v c th t j k st ok H|d m v c th t j k st H|d m v c th t j k st H];
      cbn [g_done g_mu g_th] in *; (destruct (decide (u = t)) as [->|Hu]; [rewrite tset_eq|rewrite tset_ne by exact Hu; auto]); rewrite H in W |- *; cbn in W |- *;
      destruct W as [[k0 W]|[[W|W] (k0 & st0 & W')]]; try discriminate W.
    - injection W as <- <-. split; [reflexivity|]. intros i [[k' Q]|[[Q|Q] _]]; try discriminate Q. injection Q as <- <-. right. split; [auto|]. eauto.
    - injection W' as <- <- <-. rewrite Dj. split; [reflexivity|]. intros i [[k' Q]|[_ Q]]; [discriminate Q|]. right. auto.
    - injection W' as <- <- <-. congruence. }
  split; [|intros t Ht; apply (E t Ht)]. intros t Ht. destruct (HD t Ht) as (j & u & Du & Hj & W). exists j, u. split; [exact Du|]. split; [rewrite (proj1 (E u Du)); exact Hj|]. apply (E t Ht). exact W.
Qed.
Lemma gwaits_steps (D : nat -> Prop) s tr s' : vinv s -> (forall t, D t -> gwaits D s t) -> steps step s tr s' ->
  forall t, D t -> gwaits D s' t /\ making (g_th s' t) = making (g_th s t).
Proof.
  intros HI HD HS. induction HS as [s|s tr s1 l s2 HS IH H1]; [auto|]. specialize (IH HI HD).
  destruct (gwaits_step D s1 l s2 (vinv_steps ctor main _ _ _ HI HS) (fun t Ht => proj1 (IH t Ht)) H1) as [K1 K2]. intros t Ht. split; [auto|]. rewrite K2 by exact Ht. apply (IH t Ht).
Qed.
(** C197: if each goroutine of a set is in Get of a Lazy whose constructor one of the set is
    inside of, none of them ever comes out, and no Get of a Lazy that they are constructing
    ever returns or panics *)
Theorem lazy_net_deadlock (D : nat -> Prop) s tr s' : reach init step s -> (forall t, D t -> gwaits D s t) -> steps step s tr s' ->
  forall t, D t -> gwaits D s' t /\ making (g_th s' t) = making (g_th s t) /\
    forall j, j ∈ making (g_th s t) -> g_done s' j = false /\ g_calls s' j = g_calls s j /\ forall u k st, g_th s' u <> VT VRead ((j, k) :: st) /\ g_th s' u <> VT VPanicked ((j, k) :: st).
Proof.
  intros HR HD HS. pose proof (vinv_reach zero ctor main s HR) as HI. clear HR.
  pose proof (gwaits_steps D s tr s' HI HD HS) as K.
  pose proof (vinv_steps ctor main _ _ _ HI HS) as HI'.
  intros t Ht. destruct (K t Ht) as [K1 K2]. split; [exact K1|]. split; [exact K2|]. intros j Hj. rewrite <- K2 in Hj.
  assert (Dj : g_done s' j = false) by exact (k_done _ _ _ _ (i_tok s' HI' t) j Hj). split; [exact Dj|]. split.
  - clear HI' Dj K1. rewrite K2 in Hj. clear K2 K.
    induction HS as [s|s tr s1 l s2 HS IH H1]; [reflexivity|]. rewrite <- IH by assumption. clear IH.
    pose proof (gwaits_steps D s tr s1 HI HD HS) as K.
    pose proof (vinv_steps ctor main _ _ _ HI HS) as HI1. rewrite <- (proj2 (K t Ht)) in Hj. clear K HS HI HD.
    pose proof (k_mu _ _ _ _ (i_tok s1 HI1 t) j (making_busy _ _ Hj)) as Mj. pose proof (k_done _ _ _ _ (i_tok s1 HI1 t) j Hj) as Dj.
    destruct H1 as [d m v c th u i k st H|d m v c th u i k st H|d m v c th u i k st H Hm|d m v c th u i k st H Hd|d m v c th u i k st H Hd|d m v c th u i k st x H|d m v c th u i k st H|d m v c th u i k st x H|d m v c th u i k st ok H|d m v c th u i k st ok H|d m v c th u i k st H|d m v c th u i k st H]; cbn [g_calls]; try reflexivity.
    destruct (tset_cases c i (S (c i)) j) as [[-> _]|[_ ->]]; [exfalso|reflexivity]. cbn [g_mu g_th] in *.
    pose proof (i_tok _ HI1 u) as HT. cbn [g_mu g_th g_done] in HT. rewrite H in HT. pose proof (k_mu _ _ _ _ HT i ltac:(left)) as Mu. assert (u = t) by congruence. subst u.
    rewrite H in Hj. pose proof (k_dup _ _ _ _ HT) as Du. unfold busy, making in Du, Hj. cbn in Du, Hj. apply NoDup_cons in Du as [Du _]. exact (Du Hj).
  - intros u k st. split; intros E; pose proof (k_after _ _ _ _ (i_tok s' HI' u)) as Q; rewrite E in Q; cbn in Q; congruence.
Qed.
(** C197: so Lazies whose constructors need each other in a circle are never constructed:
    the goroutine that comes round waits for ever *)
Corollary lazy_net_circle s t j k tr s' : reach init step s -> v_pc (g_th s t) = VRun (GGet j k) -> j ∈ making (g_th s t) -> steps step s tr s' ->
  making (g_th s' t) = making (g_th s t) /\ forall i, i ∈ making (g_th s t) -> g_done s' i = false /\ forall u k st, g_th s' u <> VT VRead ((i, k) :: st) /\ g_th s' u <> VT VPanicked ((i, k) :: st).
Proof.
  intros HR HP HJ HS. assert (HD : forall u, t = u -> gwaits (eq t) s u) by (intros u <-; exists j, t; split; [reflexivity|]; split; [exact HJ|left; eauto]).
  destruct (lazy_net_deadlock (eq t) s tr s' HR HD HS t eq_refl) as (_ & K1 & K2). split; [exact K1|]. intros i Hi. destruct (K2 i Hi) as (Q1 & _ & Q2). auto.
Qed.

(** *** No circles *)
(** code that calls Get only of Lazies below i *)
Fixpoint below (i : nat) (c : gcode A) : Prop := match c with GGet j k => j < i /\ forall v, below i (k v) | _ => True end.
Fixpoint below_in (st : list (nat * (A -> gcode A))) : Prop :=
  match st with [] => True | (j, k) :: st => match st with [] => True | (i, _) :: _ => j < i /\ forall v, below i (k v) end /\ below_in st end.
Definition below_th (x : vthr A) : Prop := below_in (v_in x) /\ match v_pc x, v_in x with VRun c, (i, _) :: _ => below i c | _, _ => True end.
Lemma below_step s l s' : (forall i, below i (ctor i)) -> (forall t, below_th (g_th s t)) -> step s l s' -> forall t, below_th (g_th s' t).
Proof.
  intros HB HT HS. destruct HS as [d m v c th t j k st H|d m v c th t j k st H|d m v c th t j k st H Hm|d m v c th t j k st H Hd|d m v c th t j k st H Hd|d m v c th t j k st x H|d m v c th t j k st H|d m v c th t j k st x H|d m v c th t j k st ok H|d m v c th t j k st ok H|d m v c th t j k st H|d m v c th t j k st H];
    cbn [g_th] in *; pose proof (HT t) as Ht; rewrite H in Ht; unfold below_th in Ht; cbn in Ht; intros u; (destruct (decide (u = t)) as [->|Hu]; [rewrite tset_eq|rewrite tset_ne by exact Hu; apply HT]); unfold below_th; cbn; destruct Ht as [H1 H2].
  - destruct st as [|[i k'] st]; tauto.
  - split; [exact H1|]. destruct (d j); exact I.
  - tauto.
  - tauto.
  - split; [exact H1|apply HB].
  - tauto.
  - tauto.
  - tauto.
  - tauto.
  - split; [exact H1|]. destruct ok; exact I.
  - destruct st as [|[i k'] st]; [tauto|]. destruct H1 as [[_ H1] H3]. split; [exact H3|apply H1].
  - destruct st as [|[i k'] st]; tauto.
Qed.
Lemma below_top j k st : below_in ((j, k) :: st) -> forall i, i ∈ st.*1 -> j < i.
Proof.
  revert j k. induction st as [|[i k'] st IH]; intros j k H i0 Hi; [inversion Hi|]. cbn [below_in] in H. destruct H as [[H1 _] H2]. cbn in Hi. apply elem_of_cons in Hi as [->|Hi]; [exact H1|]. specialize (IH i k' H2 i0 Hi). lia.
Qed.
Definition finished (x : vthr A) : Prop := v_in x = [] /\ exists c, v_pc x = VRun c /\ match c with GGet _ _ => False | _ => True end.
(** C197: if the constructor of each Lazy calls Get only of Lazies below it, somebody can
    always make a step, unless all goroutines have come to their end *)
Theorem lazy_net_ordered s t : (forall i, below i (ctor i)) -> reach init step s -> ~ finished (g_th s t) -> exists u s', step s u s'.
Proof.
  intros HB HR HF. pose proof (vinv_reach zero ctor main s HR) as HI.
  assert (HT : forall t, below_th (g_th s t)). { revert s HR HF HI. intros s HR _ _. revert s HR. apply (reach_invariant init step (fun s => forall t, below_th (g_th s t))); [intros u; split; exact I|]. intros s1 l s2. apply below_step. exact HB. }
  assert (K : forall v, (forall j k st, g_th s v = VT VWait ((j, k) :: st) -> g_mu s j <> None -> exists u s', step s u s') -> ~ finished (g_th s v) -> exists u s', step s u s').
  { intros w HW HN. pose proof (k_in _ _ _ _ (i_tok s HI w)) as NI. destruct s as [d m v c th]. cbn [g_th g_mu] in *. destruct (th w) as [pc st] eqn:E. destruct pc as [cc| | | |x|ok|ok| |]; cbn in NI; try (destruct st as [|[j k] st]; [contradiction|]).
    - destruct cc as [x| |j k].
      + destruct st as [|[j k] st]; [exfalso; apply HN; split; [reflexivity|eexists; split; [reflexivity|exact I]]|]. do 2 eexists. eapply vs_ret. exact E.
      + destruct st as [|[j k] st]; [exfalso; apply HN; split; [reflexivity|eexists; split; [reflexivity|exact I]]|]. do 2 eexists. eapply vs_panic. exact E.
      + do 2 eexists. eapply vs_call. exact E.
    - do 2 eexists. eapply vs_load. exact E.
    - destruct (m j) eqn:Em; [eapply HW; [reflexivity|rewrite Em; discriminate]|]. do 2 eexists. eapply vs_lock; eassumption.
    - destruct (d j) eqn:Ed; do 2 eexists; [eapply vs_check_done|eapply vs_check_run]; eassumption.
    - do 2 eexists. eapply vs_assign. exact E.
    - do 2 eexists. eapply vs_set_done. exact E.
    - do 2 eexists. eapply vs_unlock. exact E.
    - do 2 eexists. eapply vs_read. exact E.
    - do 2 eexists. eapply vs_panicked. exact E. }
  assert (W : forall j v k st, g_th s v = VT VWait ((j, k) :: st) -> g_mu s j <> None -> exists u s', step s u s').
  { intros j. induction j as [j IH] using lt_wf_ind. intros v k st E Hm. destruct (g_mu s j) as [u|] eqn:Em; [|congruence]. pose proof (i_own s HI j u Em) as Hj.
    apply (K u).
    - intros j' k' st' E' Hm'. apply (IH j') with (v := u) (k := k') (st := st'); [|exact E'|exact Hm']. rewrite E' in Hj. unfold busy in Hj. cbn in Hj. destruct (HT u) as [Q _]. rewrite E' in Q. exact (below_top _ _ _ Q j Hj).
    - intros [Q (c & Qc & _)]. unfold busy in Hj. rewrite Qc, Q in Hj. inversion Hj. }
  apply (K t); [|exact HF]. intros j k st. apply W.
Qed.
(** C197: then calling the constructors instead comes to an end, so that there is a value
    for Get to return *)
Theorem lazy_net_defined : (forall i, below i (ctor i)) -> (forall j, calm (ctor j)) -> forall c, calm c -> exists v, evals ctor c v.
Proof.
  intros HB HC.
  assert (K : forall i c, (forall j, j < i -> exists v, evals ctor (ctor j) v) -> below i c -> calm c -> exists v, evals ctor c v).
  { intros i c HL. induction c as [v| |j k IH]; cbn; intros B Cc; [exists v; constructor|contradiction|]. destruct B as [Lj B]. destruct (HL j Lj) as [v Hv]. destruct (IH v (B v) (Cc v)) as [w Hw]. exists w. econstructor; eassumption. }
  assert (J : forall j, exists v, evals ctor (ctor j) v) by (intros j; induction j as [j IH] using lt_wf_ind; apply (K j); auto).
  intros c. induction c as [v| |j k IH]; cbn; intros Cc; [exists v; constructor|contradiction|]. destruct (J j) as [v Hv]. destruct (IH v (Cc v)) as [w Hw]. exists w. econstructor; eassumption.
Qed.
End cycles.
Print Assumptions lazy_net_once.
Print Assumptions lazy_net_value.
Print Assumptions lazy_net_deadlock.
Print Assumptions lazy_net_circle.
Print Assumptions lazy_net_ordered.
Print Assumptions lazy_net_defined.

(** two Lazies whose constructors call Get of each other, and a goroutine for each *)
Definition ring_ctor (j : nat) : gcode nat := match j with 0 => GGet 1 (fun v => GRet (v + 1)) | 1 => GGet 0 (fun v => GRet (v + 1)) | _ => GRet 7 end.
Definition ring_main (t : nat) : gcode nat := match t with 0 => GGet 0 GRet | 1 => GGet 1 GRet | _ => GRet 0 end.
(** C197: false: Get returns as long as no goroutine calls Get of a Lazy whose constructor it
    is inside of itself. Here each goroutine is inside of one constructor, needs the other
    Lazy, and neither Get ever returns *)
Theorem lazy_net_ring_refuted : exists s, reach (v_init 0 ring_main) (v_step ring_ctor) s /\ making (g_th s 0) = [0] /\ making (g_th s 1) = [1] /\
  forall tr s', steps (v_step ring_ctor) s tr s' -> forall t, t < 2 -> g_done s' t = false /\ forall v, g_th s' t <> VT (VRun (GRet v)) [].
Proof.
  eexists. match goal with |- ?P /\ _ => assert (HR : P) end.
  { eexists. unfold v_init.
    eapply steps_cons; [eapply (vs_call _ _ _ _ _ _ 0); reflexivity|]. eapply steps_cons; [eapply (vs_call _ _ _ _ _ _ 1); reflexivity|].
    eapply steps_cons; [eapply (vs_load _ _ _ _ _ _ 0); reflexivity|]. eapply steps_cons; [eapply (vs_load _ _ _ _ _ _ 1); reflexivity|].
    eapply steps_cons; [eapply (vs_lock _ _ _ _ _ _ 0); reflexivity|]. eapply steps_cons; [eapply (vs_lock _ _ _ _ _ _ 1); reflexivity|].
    eapply steps_cons; [eapply (vs_check_run _ _ _ _ _ _ 0); reflexivity|]. eapply steps_cons; [eapply (vs_check_run _ _ _ _ _ _ 1); reflexivity|]. constructor. }
  split; [exact HR|]. split; [reflexivity|]. split; [reflexivity|]. intros tr s' HS.
  match type of HS with steps _ ?s0 _ _ => pose proof (lazy_net_deadlock 0 ring_ctor ring_main (fun t => t < 2) s0 tr s' HR) as K end.
  assert (K' : forall t, t < 2 -> making (g_th s' t) = [t] /\ g_done s' t = false).
  { intros t Ht. destruct (K) with (t := t) as (_ & K1 & K2); [|exact HS|exact Ht|].
    - intros u Hu. destruct u as [|[|]]; [exists 1, 1|exists 0, 0|lia]; (split; [lia|]; split; [left|left; eexists; reflexivity]).
    - rewrite K1. destruct t as [|[|]]; [| |lia]; (split; [reflexivity|]; apply K2; left). }
  intros t Ht. destruct (K' t Ht) as [K1 K2]. split; [exact K2|]. intros v E. rewrite E in K1. discriminate K1.
Qed.
Print Assumptions lazy_net_ring_refuted.

(** three Lazies in order: the constructor of 2 needs 1 and 0, that of 1 needs 0 *)
Definition tower_ctor (j : nat) : gcode nat := match j with 0 => GRet 5 | 1 => GGet 0 (fun v => GRet (v + 1)) | 2 => GGet 1 (fun v => GGet 0 (fun w => GRet (v * w))) | _ => GRet 0 end.
Definition tower_main (t : nat) : gcode nat := match t with 0 => GGet 2 GRet | 1 => GGet 1 GRet | _ => GRet 0 end.
Example lazy_net_ordered_case : (forall i, below i (tower_ctor i)) /\ (forall j, calm (tower_ctor j)) /\ (forall t, calm (tower_main t)) /\ evals tower_ctor (tower_main 0) 30 /\
  exists s, reach (v_init 0 tower_main) (v_step tower_ctor) s /\ g_done s 1 = true /\ g_val s 1 = 6 /\ making (g_th s 0) = [2] /\ g_th s 1 = VT VWait [(1, GRet)].
Proof.
  split; [intros [|[|[|]]]; cbn; auto with lia|]. split; [intros [|[|[|]]]; cbn; auto|]. split; [intros [|[|]]; cbn; auto|].
  split.
  { apply (ev_get _ 2 _ 30); [|constructor]. cbn. apply (ev_get _ 1 _ 6); [apply (ev_get _ 0 _ 5); [constructor|exact (ev_ret _ 6)]|]. apply (ev_get _ 0 _ 5); [constructor|exact (ev_ret _ 30)]. }
  eexists. split; [eexists; unfold v_init|].
  - eapply steps_cons; [eapply (vs_call _ _ _ _ _ _ 1); reflexivity|]. eapply steps_cons; [eapply (vs_load _ _ _ _ _ _ 1); reflexivity|].
    eapply steps_cons; [eapply (vs_call _ _ _ _ _ _ 0); reflexivity|]. eapply steps_cons; [eapply (vs_load _ _ _ _ _ _ 0); reflexivity|]. eapply steps_cons; [eapply (vs_lock _ _ _ _ _ _ 0); reflexivity|]. eapply steps_cons; [eapply (vs_check_run _ _ _ _ _ _ 0); reflexivity|].
    eapply steps_cons; [eapply (vs_call _ _ _ _ _ _ 0); reflexivity|]. eapply steps_cons; [eapply (vs_load _ _ _ _ _ _ 0); reflexivity|]. eapply steps_cons; [eapply (vs_lock _ _ _ _ _ _ 0); reflexivity|]. eapply steps_cons; [eapply (vs_check_run _ _ _ _ _ _ 0); reflexivity|].
    eapply steps_cons; [eapply (vs_call _ _ _ _ _ _ 0); reflexivity|]. eapply steps_cons; [eapply (vs_load _ _ _ _ _ _ 0); reflexivity|]. eapply steps_cons; [eapply (vs_lock _ _ _ _ _ _ 0); reflexivity|]. eapply steps_cons; [eapply (vs_check_run _ _ _ _ _ _ 0); reflexivity|].
    eapply steps_cons; [eapply (vs_ret _ _ _ _ _ _ 0); reflexivity|]. eapply steps_cons; [eapply (vs_assign _ _ _ _ _ _ 0); reflexivity|]. eapply steps_cons; [eapply (vs_set_done _ _ _ _ _ _ 0); reflexivity|]. eapply steps_cons; [eapply (vs_unlock _ _ _ _ _ _ 0); reflexivity|]. eapply steps_cons; [eapply (vs_read _ _ _ _ _ _ 0); reflexivity|].
    eapply steps_cons; [eapply (vs_ret _ _ _ _ _ _ 0); reflexivity|]. eapply steps_cons; [eapply (vs_assign _ _ _ _ _ _ 0); reflexivity|]. eapply steps_cons; [eapply (vs_set_done _ _ _ _ _ _ 0); reflexivity|]. eapply steps_cons; [eapply (vs_unlock _ _ _ _ _ _ 0); reflexivity|]. constructor.
  - repeat split.
Qed.
(** a goroutine that comes round to a constructor it is inside of *)
Example lazy_net_circle_case : exists s k, reach (v_init 0 ring_main) (v_step ring_ctor) s /\ v_pc (g_th s 0) = VRun (GGet 0 k) /\ making (g_th s 0) = [1; 0].
Proof.
  do 2 eexists. split; [eexists; unfold v_init|split].
  - do 2 (eapply steps_cons; [eapply (vs_call _ _ _ _ _ _ 0); reflexivity|]; eapply steps_cons; [eapply (vs_load _ _ _ _ _ _ 0); reflexivity|]; eapply steps_cons; [eapply (vs_lock _ _ _ _ _ _ 0); reflexivity|]; eapply steps_cons; [eapply (vs_check_run _ _ _ _ _ _ 0); reflexivity|]). constructor.
  - reflexivity.
  - reflexivity.
Qed.

Section panics.
Context {A : Type} (zero : A) (ctor main : nat -> gcode A).
Notation step := (v_step ctor).
Notation init := (v_init zero main).
(** the value of a Lazy that is not constructed is the zero value, unless it has just been
    assigned *)
Lemma val_zero s : reach init step s -> forall j, g_done s j = true \/ g_val s j = zero \/ exists t k st, g_th s t = VT (VSetDone true) ((j, k) :: st).
Proof.
  revert s. apply (reach_invariant init step (fun s => forall j, g_done s j = true \/ g_val s j = zero \/ exists t k st, g_th s t = VT (VSetDone true) ((j, k) :: st))); [intros j; right; left; reflexivity|].
  intros s l s' HI HS i. specialize (HI i).
  destruct HS as [d m v c th t j k st H|d m v c th t j k st H|d m v c th t j k st H Hm|d m v c th t j k st H Hd|d m v c th t j k st H Hd|d m v c th t j k st x H|d m v c th t j k st H|d m v c th t j k st x H|d m v c th t j k st ok H|d m v c th t j k st ok H|d m v c th t j k st H|d m v c th t j k st H];
    cbn [g_done g_val g_th] in *;
    try solve [destruct HI as [HI|[HI|(u & k' & st' & E)]]; [auto|auto|right; right; exists u, k', st'; rewrite tset_ne by congruence; exact E]].
  - destruct (decide (i = j)) as [->|Hi]; [right; right; exists t, k, st; apply tset_eq|]. rewrite (tset_ne v j x i Hi).
    destruct HI as [HI|[HI|(u & k' & st' & E)]]; [auto|auto|right; right; exists u, k', st'; rewrite tset_ne by congruence; exact E].
  - destruct (decide (i = j)) as [->|Hi]; [left; apply tset_eq|]. rewrite (tset_ne d j true i Hi).
    destruct HI as [HI|[HI|(u & k' & st' & E)]]; [auto|auto|]. right; right; exists u, k', st'. rewrite tset_ne; [exact E|]. intros ->. congruence.
Qed.
(** where a goroutine is that unwinds *)
Definition unwinds (p : vpc A) : Prop := p = VRun GPanic \/ p = VSetDone false \/ p = VUnlock false \/ p = VPanicked.
(** C197: a goroutine that panics inside of constructors does nothing any more but unwind
    through their calls of Get. The Lazies whose constructors it was inside of keep the zero
    value for ever, and count as constructed as soon as it has left them *)
Theorem lazy_net_panic s t st tr s' : reach init step s -> g_th s t = VT (VRun GPanic) st -> steps step s tr s' ->
  exists pre st', st = pre ++ st' /\ v_in (g_th s' t) = st' /\ unwinds (v_pc (g_th s' t)) /\
    (forall j, j ∈ st.*1 -> g_val s' j = zero) /\ forall j, j ∈ pre.*1 -> g_done s' j = true.
Proof.
  intros HR E HS. pose proof (vinv_reach zero ctor main s HR) as HI.
  assert (H0 : forall j, j ∈ st.*1 -> g_val s j = zero).
  { intros j Hj. assert (Hm : j ∈ making (g_th s t)) by (rewrite E; exact Hj).
    destruct (val_zero s HR j) as [D|[V|(u & k & st' & Eu)]]; [|exact V|].
    - rewrite (k_done _ _ _ _ (i_tok s HI t) j Hm) in D. discriminate D.
    - assert (Hu : j ∈ making (g_th s u)) by (rewrite Eu; left). pose proof (proj1 (proj2 (lazy_net_once zero ctor main s HR)) j t u Hm Hu). subst u. congruence. }
  clear HR. induction HS as [s|s tr s1 l s2 HS IH H1].
  { exists [], st. rewrite E. repeat split; [left; reflexivity|exact H0|]. intros j Hj. inversion Hj. }
  specialize (IH E HI H0). pose proof (vinv_steps ctor main _ _ _ HI HS) as HI1. clear HI H0 HS E. destruct IH as (pre & st' & -> & E & W & V & Dn).
  assert (NM : forall u j, u <> t -> j ∈ (pre ++ st').*1 -> j ∉ making (g_th s1 u)).
  { intros u j Hu Hj Hm. pose proof (k_done _ _ _ _ (i_tok s1 HI1 u) j Hm) as D0. pose proof (k_mu _ _ _ _ (i_tok s1 HI1 u) j (making_busy _ _ Hm)) as M0.
    rewrite fmap_app in Hj. apply elem_of_app in Hj as [Hj|Hj]; [rewrite (Dn j Hj) in D0; discriminate D0|].
    pose proof (i_tok s1 HI1 t) as [_ T2 _ T4 _]. unfold busy in T2. rewrite E in T2, T4. destruct W as [W|[W|[W|W]]]; rewrite W in T2, T4; try (specialize (T2 j Hj); congruence).
    destruct st' as [|[i k'] st']; [inversion Hj|]. cbn in Hj, T2, T4. apply elem_of_cons in Hj as [->|Hj]; [congruence|specialize (T2 j Hj); congruence]. }
  pose proof (k_after _ _ _ _ (i_tok s1 HI1 t)) as KA.
  destruct H1 as [d m v c th u j k st H|d m v c th u j k st H|d m v c th u j k st H Hm|d m v c th u j k st H Hd|d m v c th u j k st H Hd|d m v c th u j k st x H|d m v c th u j k st H|d m v c th u j k st x H|d m v c th u j k st ok H|d m v c th u j k st ok H|d m v c th u j k st H|d m v c th u j k st H];
    cbn [g_done g_val g_th] in *; destruct (decide (u = t)) as [->|Hu];
    try (rewrite tset_eq; rewrite H in E, W, KA; cbn in E, W, KA; unfold unwinds in W; subst st'; destruct W as [W|[W|[W|W]]]; try discriminate W);
    try (exists pre, st'; rewrite tset_ne by congruence; repeat split; [exact E|exact W| |]; try exact V; try exact Dn).
  - exists pre, ((j, k) :: st). repeat split; [right; left; reflexivity|exact V|exact Dn].
  - intros i Hi. rewrite tset_ne; [auto|]. intros ->. apply (NM u j Hu Hi). rewrite H. left.
  - injection W as ->. exists pre, ((j, k) :: st). repeat split; [right; right; left; reflexivity|exact V|]. intros i Hi. destruct (tset_cases d j true i) as [[_ ->]|[_ ->]]; auto.
  - intros i Hi. destruct (tset_cases d j true i) as [[_ ->]|[_ ->]]; auto.
  - injection W as ->. exists pre, ((j, k) :: st). repeat split; [right; right; right; reflexivity|exact V|exact Dn].
  - exists (pre ++ [(j, k)]), st. rewrite <- app_assoc. repeat split; [left; reflexivity|exact V|]. intros i Hi. rewrite fmap_app in Hi. apply elem_of_app in Hi as [Hi|Hi]; [auto|]. apply elem_of_list_singleton in Hi as ->. exact KA.
Qed.
End panics.
Print Assumptions lazy_net_panic.
(** a goroutine panics inside of two constructors *)
Definition bad_ctor (j : nat) : gcode nat := match j with 0 => GPanic | _ => GGet 0 (fun v => GRet (v + 1)) end.
Example lazy_net_panic_case : exists s k, reach (v_init 0 (fun _ => GGet 1 GRet)) (v_step bad_ctor) s /\ g_th s 0 = VT (VRun GPanic) [(0, k); (1, GRet)].
Proof.
  do 2 eexists. split; [eexists; unfold v_init|].
  - do 2 (eapply steps_cons; [eapply (vs_call _ _ _ _ _ _ 0); reflexivity|]; eapply steps_cons; [eapply (vs_load _ _ _ _ _ _ 0); reflexivity|]; eapply steps_cons; [eapply (vs_lock _ _ _ _ _ _ 0); reflexivity|]; eapply steps_cons; [eapply (vs_check_run _ _ _ _ _ _ 0); reflexivity|]). constructor.
  - reflexivity.
Qed.
