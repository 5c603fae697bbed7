(** Proofs about convx with the code of sync.RWMutex. *)
From Verif Require SyncMapRWProofs.
From Verif Require Import Base Conc ConvModel ConvProofs ConvConcModel ConvConcProofs RWModel RWProofs RWMuProofs ConvRWModel.

Section proofs.
Context {V : Type} (conv : nat -> V -> code V) (uid : nat -> nat -> nat) (N : nat) (HN : (Z.of_nat N <= max_readers)%Z).
Context (UI : forall t d t' d', uid t d = uid t' d' -> t = t' /\ d = d').
Context (main : nat -> code V).
Notation step := (z_step conv uid N).
Notation events ls := (omap id ls).

(** where a goroutine is in convx.go, and where the user it is now is in the RWMutex *)
Definition here (p : kpc V) (q : rwpc) : Prop :=
  match p with
  | PRun c => q <> PRHold /\ q <> PWHold /\ (in_rlock q = true -> is_read c = true) /\ (in_lock q = true -> is_write c = true)
  | PRead _ | PRel _ => q = PRHold
  | PWrite _ | PTorn _ | PUnlock _ => q = PWHold
  | PWait _ => False
  end.
Definition uses (rw : rwstate) (t : nat) (x : thr V) : Prop :=
  here (t_pc x) (rw_pc rw (uid t (length (t_in x)))) /\
  (forall j, j < length (t_in x) -> rw_pc rw (uid t j) = PRHold) /\ (forall j, length (t_in x) < j -> rw_pc rw (uid t j) = PIdle).
Lemma uses_other rw rw' t x u : rw_step N rw u rw' -> (forall d, u <> uid t d) -> uses rw t x -> uses rw' t x.
Proof.
  intros H Hu (A & B & C). unfold uses. assert (Q : forall d, rw_pc rw' (uid t d) = rw_pc rw (uid t d)) by (intros d; apply (rw_others N rw u rw' _ H); intros E; apply (Hu d); auto).
  setoid_rewrite Q. auto.
Qed.
Lemma uses_move rw rw' t p p' fr : rw_step N rw (uid t (length fr)) rw' -> here p' (rw_pc rw' (uid t (length fr))) -> uses rw t (Thr p fr) -> uses rw' t (Thr p' fr).
Proof.
  intros H Hp (_ & B & C). unfold uses. cbn in *. split; [exact Hp|].
  split; intros j Hj; rewrite (rw_others N rw _ rw' _ H) by (intros E; apply UI in E; lia); auto.
Qed.
(** what somebody has for reading or writing in convx.go he has in the RWMutex *)
Lemma uses_reads rw t x : uses rw t x -> 0 < held x -> exists j, rw_pc rw (uid t j) = PRHold.
Proof.
  intros (A & B & _) H. unfold held in H. destruct (t_in x) as [|g fr] eqn:E; [|exists 0; apply B; cbn; lia].
  exists 0. cbn in *. destruct (t_pc x); cbn in *; (lia || exact A).
Qed.
Lemma uses_writes rw t x : uses rw t x -> wr (t_pc x) = true -> rw_pc rw (uid t (length (t_in x))) = PWHold.
Proof. intros (A & _) H. destruct (t_pc x); cbn in *; (discriminate || tauto). Qed.

Record zsim (ls : list (nat * option (kev V))) (z : zstate V) : Prop := ZSim_ {
  zi_rw : reach rw_new (rw_step N) (z_rw z);
  zi_uses : forall t, uses (z_rw z) t (z_th z t);
  zi_sim : exists ks p rs th, steps (k_step conv) (k_init main) ks (KS (z_reg z) (z_torn z) (z_crash z) p rs th) /\ (forall t, th t = z_th z t) /\ events ks = z_events ls }.

Lemma reach_rw rw u rw' : reach rw_new (rw_step N) rw -> rw_step N rw u rw' -> reach rw_new (rw_step N) rw'.
Proof. intros [l H] HS. eexists. econstructor; eassumption. Qed.
Lemma zev_snoc (ls : list (nat * option (kev V))) l : z_events (ls ++ [l]) = z_events ls ++ match snd l with Some e => [e] | None => [] end.
Proof. unfold z_events. rewrite omap_app. cbn. destruct (snd l); reflexivity. Qed.
Lemma excl_rw rw a b : reach rw_new (rw_step N) rw -> rw_pc rw a = PWHold -> b <> a -> rw_pc rw b <> PWHold /\ rw_pc rw b <> PRHold.
Proof. intros R. apply SyncMapRWProofs.rw_excl with (N := N). apply rwinv_reach; [exact HN|exact R]. Qed.
Lemma rw_from_rhold rw u rw' : rw_step N rw u rw' -> rw_pc rw u = PRHold -> rw_pc rw' u = PIdle \/ rw_pc rw' u = PRDec.
Proof. intros H E. destruct H; cbn in *; try congruence. rewrite tset_eq. destruct (_ <? _)%Z; auto. Qed.
Lemma rw_from_whold rw u rw' : rw_step N rw u rw' -> rw_pc rw u = PWHold -> exists r, rw_pc rw' u = PWPost r 0.
Proof. intros H E. destruct H; cbn in *; try congruence. rewrite tset_eq. eauto. Qed.
Lemma rw_to_rhold rw u rw' : rw_step N rw u rw' -> rw_pc rw' u = PRHold -> in_rlock (rw_pc rw u) = true.
Proof. intros H. destruct H; cbn; rewrite tset_eq; repeat case_match; try discriminate; intros _; rewrite H; reflexivity. Qed.
Lemma rw_to_whold rw u rw' : rw_step N rw u rw' -> rw_pc rw' u = PWHold -> in_lock (rw_pc rw u) = true.
Proof. intros H. destruct H; cbn; rewrite tset_eq; repeat case_match; try discriminate; intros _; rewrite H; reflexivity. Qed.

Lemma zsim_step ls z l z' : zsim ls z -> step z l z' -> zsim (ls ++ [l]) z'.
Proof.
  intros [IR IU (ks & p & rs & kth & IS & IT & IE)] H.
  assert (KI : inv (KS (z_reg z) (z_torn z) (z_crash z) p rs kth)) by (eapply inv_reach; eexists; exact IS).
  destruct H as [m tn cr rw th t c fr rw' E u HR R1 R2 R3 R4|m tn cr rw th t c fr rw' E u HR R1|m tn cr rw th t c fr rw' E u HR R1|m tn cr rw th t c fr rw' E u HR|m tn cr rw th t c fr rw' E u HR
    |m cr rw th t T R k fr E|m cr rw th t T R d v k fr E F|m cr rw th t T R d v k fr f E F|m tn cr rw th t T R d v f k r fr E F|m tn cr rw th t k fr E F|m cr rw th t c fr E|m tn cr rw th t T R f k fr E|m tn cr rw th t T R k fr E|m cr rw th t c fr E];
    cbn [z_reg z_torn z_crash z_rw z_th] in *.
  all: assert (ST : forall x y, tset kth t x y = tset th t x y) by (intros x y; destruct (decide (y = t)) as [->|Ne]; [rewrite !tset_eq; reflexivity|rewrite !tset_ne by exact Ne; apply IT]).
  all: pose proof (IU t) as Ut; try (rewrite E in Ut; destruct Ut as (Ua & Ub & Uc); cbn [t_pc t_in here length] in Ua, Ub, Uc).
  all: try (assert (E' := E); rewrite <- IT in E').
  all: try (assert (OT : forall p', here p' (rw_pc rw' u) -> forall x, uses rw' x (tset th t (Thr p' fr) x))
    by (intros p' Hp' x; destruct (tset_cases th t (Thr p' fr) x) as [[-> ->]|[Ne ->]];
        [pose proof (IU t) as UU; rewrite E in UU; exact (uses_move rw rw' t _ p' fr HR Hp' UU)|apply (uses_other rw rw' x _ u HR); [intros d' Q; apply UI in Q; destruct Q; congruence|apply IU]])).
  all: try (assert (OS : forall p', here p' (rw_pc rw (uid t (length fr))) -> (forall j, length fr < j -> rw_pc rw (uid t j) = PIdle) -> forall x, uses rw x (tset th t (Thr p' fr) x))
    by (intros p' Hp' Uc' x; destruct (tset_cases th t (Thr p' fr) x) as [[-> ->]|[Ne ->]];
        [split; [exact Hp'|split; [cbn; intros j Hj; apply Ub; lia|exact Uc']]|apply IU])).
  - (* inside *)
    split; cbn [z_reg z_torn z_crash z_rw z_th]; [eapply reach_rw; eassumption| |exists ks, p, rs, kth; rewrite zev_snoc; cbn; rewrite app_nil_r; auto].
    intros x. destruct (decide (x = t)) as [->|Ne].
    + rewrite E. apply (uses_move rw rw' t (PRun c) (PRun c) fr HR); [cbn; auto|]. rewrite <- E. apply IU.
    + apply (uses_other rw rw' x _ u HR); [intros d' Q; apply UI in Q; destruct Q; congruence|apply IU].
  - (* rlock *)
    destruct Ua as (_ & _ & Ur & _). specialize (Ur (rw_to_rhold _ _ _ HR R1)).
    assert (p = None) as ->.
    { destruct p as [w|]; [exfalso|reflexivity]. pose proof (proj2 (i_pend _ KI w) eq_refl) as W. cbn in W. rewrite IT in W. assert (Ne : w <> t) by (intros ->; rewrite E in W; discriminate W).
      pose proof (uses_writes rw w _ (IU w) W) as Q. rewrite <- (rw_others N rw u rw' _ HR) in Q by (intros X; apply UI in X; destruct X; congruence).
      apply (proj2 (excl_rw rw' _ u (reach_rw _ _ _ IR HR) Q ltac:(intros X; apply UI in X; destruct X; congruence))). exact R1. }
    split; cbn [z_reg z_torn z_crash z_rw z_th]; [eapply reach_rw; eassumption|apply OT; exact R1|].
    eexists _, _, _, _. split; [econstructor; [exact IS|eapply ks_rlock; [exact E'|exact Ur]]|]. split; [apply ST|]. rewrite omap_app, IE, zev_snoc. reflexivity.
  - (* lock *)
    destruct Ua as (_ & _ & _ & Ur). specialize (Ur (rw_to_whold _ _ _ HR R1)).
    pose proof (fun b => excl_rw rw' _ b (reach_rw _ _ _ IR HR) R1) as EX.
    assert (p = None) as ->.
    { destruct p as [w|]; [exfalso|reflexivity]. pose proof (proj2 (i_pend _ KI w) eq_refl) as W. cbn in W. rewrite IT in W. assert (Ne : w <> t) by (intros ->; rewrite E in W; discriminate W).
      pose proof (uses_writes rw w _ (IU w) W) as Q. assert (X : uid w (length (t_in (th w))) <> u) by (intros X; apply UI in X; destruct X; congruence).
      rewrite <- (rw_others N rw u rw' _ HR X) in Q. apply (proj1 (EX _ X)). exact Q. }
    assert (rs = []) as ->.
    { apply occ_nil_all. intros x. pose proof (i_held _ KI x) as Q. cbn in Q. rewrite Q, IT. destruct (decide (0 < held (th x))) as [P|P]; [exfalso|lia].
      destruct (uses_reads rw x _ (IU x) P) as [j Hj]. assert (X : uid x j <> u).
      { intros X. rewrite X in Hj. pose proof (rw_to_whold _ _ _ HR R1) as Y. rewrite Hj in Y. discriminate Y. }
      rewrite <- (rw_others N rw u rw' _ HR X) in Hj. apply (proj2 (EX _ X)). exact Hj. }
    split; cbn [z_reg z_torn z_crash z_rw z_th]; [eapply reach_rw; eassumption|apply OT; exact R1|].
    eexists ((ks ++ [None]) ++ [None]), (Some t), [], _. rewrite !omap_app, IE, zev_snoc. split; [|split; [|cbn; rewrite !app_nil_r; reflexivity]].
    + econstructor; [econstructor; [exact IS|eapply ks_announce; [exact E'|exact Ur]]|]. eapply ks_lock. apply tset_eq.
    + intros x. destruct (decide (x = t)) as [->|Ne]; [rewrite !tset_eq; reflexivity|rewrite !tset_ne by exact Ne; apply IT].
  - (* runlock *)
    split; cbn [z_reg z_torn z_crash z_rw z_th]; [eapply reach_rw; eassumption|apply OT; destruct (rw_from_rhold _ _ _ HR Ua) as [-> | ->]; cbn; repeat split; discriminate|].
    eexists _, _, _, _. split; [econstructor; [exact IS|eapply ks_runlock; exact E']|]. split; [apply ST|]. rewrite omap_app, IE, zev_snoc. reflexivity.
  - (* unlock *)
    split; cbn [z_reg z_torn z_crash z_rw z_th]; [eapply reach_rw; eassumption|apply OT; destruct (rw_from_whold _ _ _ HR Ua) as [r ->]; cbn; repeat split; discriminate|].
    eexists _, _, _, _. split; [econstructor; [exact IS|eapply ks_unlock; exact E']|]. split; [apply ST|]. rewrite omap_app, IE, zev_snoc. reflexivity.
  - split; cbn [z_reg z_torn z_crash z_rw z_th]; [assumption|apply OS; assumption|].
    eexists _, _, _, _. split; [econstructor; [exact IS|eapply ks_exists; exact E']|]. split; [apply ST|]. rewrite omap_app, IE, zev_snoc. reflexivity.
  - split; cbn [z_reg z_torn z_crash z_rw z_th]; [assumption|apply OS; assumption|].
    eexists _, _, _, _. split; [econstructor; [exact IS|eapply ks_miss; [exact E'|exact F]]|]. split; [apply ST|]. rewrite omap_app, IE, zev_snoc. reflexivity.
  - (* hit *)
    split; cbn [z_reg z_torn z_crash z_rw z_th]; [assumption| |].
    + intros x. destruct (tset_cases th t (Thr (PRun (conv f v)) (Fr T R d v f k :: fr)) x) as [[-> ->]|[Ne ->]]; [|apply IU]. unfold uses. cbn [t_in t_pc length here]. rewrite (Uc (S (length fr))) by lia.
      split; [repeat split; discriminate|]. split; intros j Hj; [|apply Uc; lia]. destruct (decide (j = length fr)) as [->|]; [exact Ua|apply Ub; lia].
    + eexists _, _, _, _. split; [econstructor; [exact IS|eapply ks_hit; [exact E'|exact F]]|]. split; [apply ST|]. rewrite omap_app, IE, zev_snoc. reflexivity.
  - (* ret *)
    split; cbn [z_reg z_torn z_crash z_rw z_th]; [assumption|apply OS; [apply Ub; lia|]|].
    + intros j Hj. destruct (decide (j = S (length fr))) as [->|]; [exact F|apply Uc; lia].
    + eexists _, _, _, _. split; [econstructor; [exact IS|eapply ks_ret; exact E']|]. split; [apply ST|]. rewrite omap_app, IE, zev_snoc. reflexivity.
  - split; cbn [z_reg z_torn z_crash z_rw z_th]; [assumption|apply OS; [apply Ub; lia|]|].
    + intros j Hj. destruct (decide (j = S (length fr))) as [->|]; [exact F|apply Uc; lia].
    + eexists _, _, _, _. split; [econstructor; [exact IS|eapply ks_panic; exact E']|]. split; [apply ST|]. rewrite omap_app, IE, zev_snoc. reflexivity.
  - split; cbn [z_reg z_torn z_crash z_rw z_th]; [assumption|apply OS; assumption|].
    eexists _, _, _, _. split; [econstructor; [exact IS|eapply ks_write; exact E']|]. split; [apply ST|]. rewrite omap_app, IE, zev_snoc. reflexivity.
  - split; cbn [z_reg z_torn z_crash z_rw z_th]; [assumption|apply OS; assumption|].
    eexists _, _, _, _. split; [econstructor; [exact IS|eapply ks_register; exact E']|]. split; [apply ST|]. rewrite omap_app, IE, zev_snoc. reflexivity.
  - split; cbn [z_reg z_torn z_crash z_rw z_th]; [assumption|apply OS; assumption|].
    eexists _, _, _, _. split; [econstructor; [exact IS|eapply ks_unregister; exact E']|]. split; [apply ST|]. rewrite omap_app, IE, zev_snoc. reflexivity.
  - split; cbn [z_reg z_torn z_crash z_rw z_th]; [assumption|assumption|].
    eexists _, _, _, _. split; [econstructor; [exact IS|eapply ks_race; rewrite IT; exact E]|]. split; [exact IT|]. rewrite omap_app, IE, zev_snoc. reflexivity.
Qed.
Lemma zsim_steps ls z : steps step (z_init main) ls z -> zsim ls z.
Proof.
  revert ls z. apply (steps_trace_invariant (z_init main) step zsim).
  - split; cbn; [exists []; constructor| |exists [], None, [], (fun t => Thr (PRun (main t)) []); split; [constructor|split; [reflexivity|reflexivity]]].
    intros t. unfold uses. cbn. repeat split; try discriminate. intros j Hj. lia.
  - intros ls z l z' _. apply zsim_step.
Qed.

(** *** deadlock *)
(** Lock of convertersLock has announced itself and waits *)
Definition waiting (p : rwpc) : Prop := match p with PWWait _ | PWSem => True | _ => False end.
Definition zdead (w u : nat) (z : zstate V) : Prop :=
  waiting (rw_pc (z_rw z) (uid w (length (t_in (z_th z w))))) /\ rw_rsem (z_rw z) = 0%Z /\
  t_in (z_th z u) <> [] /\ exists c, t_pc (z_th z u) = PRun c /\ is_call c = true.
Lemma no_hold rw a v v' rw' : rwinv N rw -> waiting (rw_pc rw a) -> rw_pc rw v = PRHold -> rw_rsem rw = 0%Z -> rw_step N rw v' rw' ->
  rw_pc rw' v' <> PRHold /\ rw_pc rw' v' <> PWHold /\ rw_rsem rw' = 0%Z /\ (v' = a -> waiting (rw_pc rw' a)).
Proof.
  intros IV Hw Hv Ha HS. assert (W : rw_w rw = Some a) by (apply (rv_w _ _ IV); destruct (rw_pc rw a); cbn in *; tauto).
  assert (IV' : rwinv N rw') by (eapply rwinv_step; eassumption).
  assert (La : a < N) by (destruct (decide (a < N)) as [|G]; [assumption|rewrite (rv_N _ _ IV) in Hw by lia; destruct Hw]).
  assert (NW : rw_pc rw' v' <> PWHold).
  { intros Q. assert (X : v <> v') by (intros ->; pose proof (rw_to_whold _ _ _ HS Q) as Y; rewrite Hv in Y; discriminate Y).
    destruct (SyncMapRWProofs.rw_excl N rw' v' v IV' Q X) as [_ Y]. apply Y. rewrite (rw_others N _ _ _ _ HS X). exact Hv. }
  pose proof (rv_o _ _ IV) as O. rewrite W in O. cbn in O.
  assert (CC : rw_count rw = (cs N n_sem (rw_pc rw) + cs N n_hold (rw_pc rw) - max_readers)%Z) by (destruct (rw_pc rw a); cbn in *; tauto).
  assert (NR : rw_pc rw' v' <> PRHold).
  { intros Q. pose proof (rw_to_rhold _ _ _ HS Q) as Y.
    assert (L' : v' < N) by (destruct (decide (v' < N)) as [|G]; [assumption|rewrite (rv_N _ _ IV) in Y by lia; discriminate Y]).
    destruct HS; cbn in *; rewrite tset_eq in Q; try discriminate Q; try (rewrite H in Y; discriminate Y); try lia.
    destruct (c + 1 <? 0)%Z eqn:E; [discriminate Q|]. apply Z.ltb_ge in E.
    assert (Ne : t <> a) by (intros ->; rewrite H in Hw; exact Hw).
    pose proof (few2 N pc t a La L' Ne ltac:(rewrite H; reflexivity) ltac:(destruct (pc a); cbn in *; tauto)). lia. }
  split; [exact NR|]. split; [exact NW|]. split.
  - destruct HS; cbn in *; try assumption; try lia. exfalso. assert (X : is_w (pc t)) by (rewrite H; exact I). apply (rv_w _ _ IV) in X. cbn in X. rewrite W in X. injection X as <-. rewrite H in Hw. exact Hw.
  - intros ->. destruct HS; cbn in *; rewrite tset_eq in *; try (match goal with E : ?f ?y = _ |- _ => rewrite E in Hw; destruct Hw end; fail).
    all: repeat case_match; try exact I; destruct NW; reflexivity.
Qed.
Lemma zdead_step ls w u z l z' : zsim ls z -> zdead w u z -> step z l z' ->
  zdead w u z' /\ z_reg z' = z_reg z /\ z_th z' w = z_th z w /\ z_th z' u = z_th z u /\
  forall t c fr, z_th z t = Thr (PRun c) fr -> is_call c = true -> z_th z' t = Thr (PRun c) fr.
Proof.
  intros [IR IU _] (Dw & Da & Du & cu & Dp & Dc) H.
  assert (IV : rwinv N (z_rw z)) by (apply rwinv_reach; [exact HN|exact IR]).
  assert (Hv : rw_pc (z_rw z) (uid u 0) = PRHold) by (apply (IU u); destruct (t_in (z_th z u)); [congruence|cbn; lia]).
  assert (Pw : exists c, t_pc (z_th z w) = PRun c /\ is_write c = true).
  { destruct (IU w) as (A & _). unfold here in A. destruct (rw_pc (z_rw z) (uid w (length (t_in (z_th z w))))); cbn in Dw; try tauto; destruct (t_pc (z_th z w)) as [c| | | | | |]; try discriminate; try tauto; exists c; split; try reflexivity; apply A; reflexivity. }
  destruct Pw as (cw & Pw & Cw).
  assert (NX : forall t, ~ rw_pc (z_rw z) (uid t (length (t_in (z_th z t)))) = PWHold).
  { intros t Q. destruct (SyncMapRWProofs.rw_excl N _ _ (uid u 0) IV Q) as [_ Y]; [intros X; rewrite X in Hv; congruence|exact (Y Hv)]. }
  pose proof (fun v' rw' => no_hold (z_rw z) _ (uid u 0) v' rw' IV Dw Hv Da) as NH.
  assert (KEEP : forall m tn cr rw' th' t, z' = ZS m tn cr rw' th' -> (forall x, x <> t -> th' x = z_th z x) -> ~ (exists c fr, z_th z t = Thr (PRun c) fr /\ is_call c = true) ->
    m = z_reg z -> (rw' = z_rw z \/ exists v', rw_step N (z_rw z) v' rw') ->
    zdead w u z' /\ z_reg z' = z_reg z /\ z_th z' w = z_th z w /\ z_th z' u = z_th z u /\ forall t c fr, z_th z t = Thr (PRun c) fr -> is_call c = true -> z_th z' t = Thr (PRun c) fr).
  { intros m tn cr rw' th' t -> Ho Hn -> Hr. cbn [z_reg z_torn z_crash z_rw z_th].
    assert (St : forall x c fr, z_th z x = Thr (PRun c) fr -> is_call c = true -> th' x = Thr (PRun c) fr) by (intros x c fr E Hc; rewrite Ho; [exact E|intros ->; apply Hn; eauto]).
    assert (Eu : th' u = z_th z u) by (destruct (z_th z u) as [pu fu] eqn:E; cbn in Dp; subst pu; eapply St; eauto).
    assert (Ew : th' w = z_th z w) by (destruct (z_th z w) as [pw fw] eqn:E; cbn in Pw; subst pw; eapply St; [exact E|unfold is_call; rewrite Cw; apply orb_true_r]).
    split; [|auto]. unfold zdead. cbn [z_reg z_torn z_crash z_rw z_th]. rewrite Eu, Ew. destruct Hr as [->|(v' & Hr)]; [split; [exact Dw|]; split; [exact Da|]; split; eauto|].
    destruct (NH v' rw' Hr) as (_ & _ & N1 & N2). split; [|split; [exact N1|split; eauto]].
    destruct (decide (v' = uid w (length (t_in (z_th z w))))) as [X|X]; [auto|]. rewrite (rw_others N _ _ _ _ Hr) by congruence. exact Dw. }
  destruct H as [m tn cr rw th t c fr rw' E v HR R1 R2 R3 R4|m tn cr rw th t c fr rw' E v HR R1|m tn cr rw th t c fr rw' E v HR R1|m tn cr rw th t c fr rw' E v HR|m tn cr rw th t c fr rw' E v HR
    |m cr rw th t T R k fr E|m cr rw th t T R d v k fr E F|m cr rw th t T R d v k fr f E F|m tn cr rw th t T R d v f k r fr E F|m tn cr rw th t k fr E F|m cr rw th t c fr E|m tn cr rw th t T R f k fr E|m tn cr rw th t T R k fr E|m cr rw th t c fr E];
    cbn [z_reg z_torn z_crash z_rw z_th] in *.
  all: try (assert (NW : t_pc (th t) <> PWrite c) by (intros Q; apply (NX t); destruct (IU t) as (A & _); rewrite Q in A; exact A)).
  all: try (exfalso; apply (NX t); destruct (IU t) as (A & _); rewrite E in A |- *; exact A).
  all: try (exfalso; destruct (NH _ _ HR) as (Y1 & Y2 & _); tauto).
  1: { destruct (decide (is_call c = true)) as [Hc|Hc].
    - assert (Q := NH _ _ HR). destruct Q as (_ & _ & N1 & N2). split; [|split; [reflexivity|split; [reflexivity|split; [reflexivity|auto]]]].
      unfold zdead. cbn [z_reg z_torn z_crash z_rw z_th]. split; [|split; [exact N1|split; eauto]].
      destruct (decide (v = uid w (length (t_in (th w))))) as [X|X]; [auto|]. rewrite (rw_others N _ _ _ _ HR) by congruence. exact Dw.
    - eapply (KEEP _ _ _ _ _ t); [reflexivity|auto| |reflexivity|right; eauto]. intros (c' & fr' & E' & Hc'). rewrite E in E'. injection E' as -> ->. auto. }
  all: (eapply (KEEP _ _ _ _ _ t); [reflexivity|intros x Hx; try (rewrite tset_ne by exact Hx); reflexivity| |reflexivity|first [left; reflexivity|right; eexists; eassumption]]);
    try (intros (c' & fr' & E' & Hc'); rewrite E in E'; try discriminate E'; injection E' as <- <-; discriminate Hc').
  intros (c' & fr' & E' & Hc'). destruct E as [E|E]; rewrite E in E'; discriminate E'.
Qed.
Lemma zdead_steps ls0 w u z ls z' : steps step (z_init main) ls0 z -> zdead w u z -> steps step z ls z' ->
  zdead w u z' /\ z_reg z' = z_reg z /\ z_th z' w = z_th z w /\ z_th z' u = z_th z u /\
  forall t c fr, z_th z t = Thr (PRun c) fr -> is_call c = true -> z_th z' t = Thr (PRun c) fr.
Proof.
  intros H0 HD HS. cut ((exists ls1, steps step (z_init main) ls1 z') /\ zdead w u z' /\ z_reg z' = z_reg z /\ z_th z' w = z_th z w /\ z_th z' u = z_th z u /\
    forall t c fr, z_th z t = Thr (PRun c) fr -> is_call c = true -> z_th z' t = Thr (PRun c) fr); [tauto|].
  induction HS as [z|z ls z1 l z2 HS IH Hst]; [split; [eauto|]; auto|]. destruct (IH H0 HD) as ((ls1 & A) & B & C & D & E & F).
  destruct (zdead_step ls1 w u z1 l z2 (zsim_steps _ _ A) B Hst) as (B' & C' & D' & E' & F'). split; [eexists; econstructor; eassumption|].
  split; [exact B'|]. split; [congruence|]. split; [congruence|]. split; [congruence|]. eauto.
Qed.
(** a converter that calls Register or Unregister *)
Lemma zreentrant ls0 z ls z' t c fr : steps step (z_init main) ls0 z -> z_th z t = Thr (PRun c) fr -> fr <> [] -> is_write c = true -> steps step z ls z' -> z_th z' t = Thr (PRun c) fr.
Proof.
  intros H0 Ht Hf Hc HS. cut ((exists ls1, steps step (z_init main) ls1 z') /\ z_th z' t = Thr (PRun c) fr); [tauto|].
  induction HS as [z|z ls z1 l z2 HS IH Hst]; [eauto|]. destruct (IH H0 Ht) as ((ls1 & A) & B). split; [eexists; econstructor; eassumption|].
  destruct (zsim_steps _ _ A) as [IR IU _]. pose proof (IU t) as (Ua & Ub & _). rewrite B in Ua, Ub. cbn in Ua, Ub.
  assert (Hv : rw_pc (z_rw z1) (uid t 0) = PRHold) by (apply Ub; destruct fr; [congruence|cbn; lia]).
  destruct Hst as [m tn cr rw th x c' fr' rw' E v HR R1 R2 R3 R4|m tn cr rw th x c' fr' rw' E v HR R1|m tn cr rw th x c' fr' rw' E v HR R1|m tn cr rw th x c' fr' rw' E v HR|m tn cr rw th x c' fr' rw' E v HR
    |m cr rw th x T R k fr' E|m cr rw th x T R d v k fr' E F|m cr rw th x T R d v k fr' f E F|m tn cr rw th x T R d v f k r fr' E F|m tn cr rw th x k fr' E F|m cr rw th x c' fr' E|m tn cr rw th x T R f k fr' E|m tn cr rw th x T R k fr' E|m cr rw th x c' fr' E];
    cbn [z_reg z_torn z_crash z_rw z_th] in *; try exact B.
  all: destruct (decide (t = x)) as [<-|Ne]; [|rewrite tset_ne by exact Ne; exact B]; rewrite B in E; try discriminate E.
  all: injection E as -> ->; try discriminate Hc.
  - exfalso. pose proof (rw_to_rhold _ _ _ HR R1) as Y. destruct Ua as (_ & _ & Ua & _). specialize (Ua Y). destruct c'; discriminate.
  - exfalso. assert (X : uid t 0 <> v) by (intros X; pose proof (rw_to_whold _ _ _ HR R1) as Y; rewrite <- X, Hv in Y; discriminate Y).
    destruct (excl_rw rw' _ _ (reach_rw _ _ _ IR HR) R1 X) as [_ Y]. apply Y. rewrite (rw_others N _ _ _ _ HR X). exact Hv.
Qed.
End proofs.
