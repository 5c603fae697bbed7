From Verif Require Import Base Conc RWModel RWProofs MutexModel MutexProofs MutexProps RWMuModel.

Section compose.
Context {S L : Type} (step : S -> L -> S -> Prop) (rwof : S -> rwstate) (forget : S -> S) (tid : L -> nat) (N : nat) (HN : (Z.of_nat N <= max_readers)%Z).
Context (init : S) (H0 : rwof init = rw_new).
Context (HA : forall s l s', step s l s' -> rwof s' = rwof s \/ rw_step N (rwof s) (tid l) (rwof s')).
Context (HF : forall s, rw_w (rwof s) = None -> forget s = s).
Notation cstep := (c_step step rwof forget tid N).

Lemma of_reach ls s : steps step init ls s -> rwinv N (rwof s).
Proof using H0 HA HN. apply (steps_invariant init step (fun s => rwinv N (rwof s))); [rewrite H0; apply rwinv_init|]. intros s1 l s2 I HS. destruct (HA _ _ _ HS) as [-> |Q]; [exact I|]. eapply rwinv_step; eassumption. Qed.
Lemma rw_others r t r' u : rw_step N r t r' -> u <> t -> rw_pc r' u = rw_pc r u.
Proof using. intros H Hu. destruct H; cbn; rewrite tset_ne by exact Hu; reflexivity. Qed.
Lemma mx_others m t m' u : mx_step N m t m' -> u <> t -> x_pc m' u = x_pc m u.
Proof using. intros H Hu. destruct H; cbn; try rewrite tset_ne by exact Hu; reflexivity. Qed.

(** what a goroutine does in the mutex, by where it is in the RWMutex *)
Definition linked (p : rwpc) (q : xpc) : Prop :=
  match p with
  | PIdle => q = XIdle \/ in_unlock q
  | PWWant => q <> XHold /\ ~ in_unlock q
  | PWAnn | PWWait _ | PWSem | PWHold | PWPost _ _ => q = XHold
  | _ => q = XIdle
  end.
Record cinv (ls : list (L + nat)) (c : S * mxstate) : Prop := {
  ci_s : steps step init (c_proj ls) (fst c);
  ci_m : exists ms, steps (mx_step N) mx_new ms (snd c);
  ci_l : forall t, linked (rw_pc (rwof (fst c)) t) (x_pc (snd c) t) }.

Lemma proj_l (ls : list (L + nat)) (l : L) : c_proj (ls ++ [inl l]) = c_proj ls ++ [l].
Proof using. unfold c_proj. rewrite omap_app. reflexivity. Qed.
Lemma proj_r (ls : list (L + nat)) (t : nat) : c_proj (ls ++ [inr t]) = c_proj ls.
Proof using. unfold c_proj. rewrite omap_app. cbn. apply app_nil_r. Qed.

(** a step of sync/mutex.go, by where the goroutine is *)
Lemma mx_kind m t m' : mxinv N m -> mx_step N m t m' ->
  match x_pc m t with
  | XHold => x_pc m' t = XIdle \/ in_unlock (x_pc m' t)
  | XFree _ | XRel => x_pc m' t = XIdle \/ in_unlock (x_pc m' t)
  | _ => ~ in_unlock (x_pc m' t)
  end.
Proof using.
  intros IM H. pose proof (mxinv_step N m t m' IM H) as IM'.
  assert (FN : forall w, free_next w = XIdle \/ in_unlock (free_next w)) by (intros w; unfold free_next; destruct (_ || _); cbn; auto).
  pose proof (mv_b _ _ IM') as BB.
  destruct H; cbn in *; try congruence; try rewrite tset_eq; repeat match goal with E : ?pc ?t = _ |- context [?pc ?t] => rewrite E end; cbn; auto.
  - destruct (_ || _); cbn; auto.
  - unfold unlock_next. destruct (_ =? _)%Z; [auto|]. destruct (w_s _); [right; exact I|apply FN].
Qed.

Lemma rw_link r t r' q : rw_step N r t r' -> ~ (rw_pc r t = PWWant /\ rw_pc r' t = PWAnn) -> ~ (exists x i, rw_pc r t = PWPost x i /\ rw_pc r' t = PIdle) ->
  (rw_pc r t = PIdle -> q = XIdle) -> linked (rw_pc r t) q -> linked (rw_pc r' t) q.
Proof using.
  intros H NT NG HI Q. destruct H; cbn in *; repeat match goal with E : ?pc ?t = _ |- _ => rewrite E in *; clear E end; rewrite tset_eq in *; cbn in *;
    try (specialize (HI eq_refl); subst q; cbn; repeat split; auto; discriminate); repeat case_match; cbn; try assumption; auto.
  all: exfalso; (apply NT; split; reflexivity) || (apply NG; eauto).
Qed.
Lemma rw_took r t r' : rw_step N r t r' -> rw_pc r t = PWWant -> rw_pc r' t = PWAnn.
Proof using. intros H E. destruct H; cbn in *; try congruence. apply tset_eq. Qed.
(** the owner of RWModel.v is who has the mutex *)
Lemma owner_none s m : rwinv N (rwof s) -> (forall t, linked (rw_pc (rwof s) t) (x_pc m t)) -> (forall t, x_pc m t <> XHold) -> rw_w (rwof s) = None.
Proof using.
  intros HR Il NH. destruct (rw_w (rwof s)) as [t|] eqn:E; [exfalso|reflexivity]. apply (rv_w _ _ HR) in E. specialize (Il t). apply (NH t). destruct (rw_pc (rwof s) t); cbn in *; tauto.
Qed.

Lemma cinv_step ls c l c' : cinv ls c -> cstep c l c' -> cinv (ls ++ [l]) c'.
Proof using H0 HA HF HN.
  intros [Is (ms & Im) Il] H. destruct H as [s m l s' HS NT NG HI|s m t m' HW HM HH|s m l s' m' HM HH HS [T1 T2]|s m l s' m' HS (r & i & G1 & G2) HH HM|s m t m' HU HM]; cbn [fst snd] in *.
  - split; cbn [fst snd]; [rewrite proj_l; econstructor; eassumption|eauto|]. intros t. pose proof (Il t) as Q.
    destruct (HA _ _ _ HS) as [-> |R]; [exact Q|]. destruct (decide (t = tid l)) as [->|Ne]; [|rewrite (rw_others _ _ _ _ R Ne); exact Q].
    apply (rw_link _ _ _ _ R NT NG HI Q).
  - split; cbn [fst snd]; [rewrite proj_r; exact Is|eexists; econstructor; eassumption|]. intros u. destruct (decide (u = t)) as [->|Ne]; [|rewrite (mx_others _ _ _ _ HM Ne); apply Il].
    specialize (Il t). rewrite HW in *. cbn in *. split; [exact HH|]. pose proof (mx_kind _ _ _ (mx_inv N _ _ Im) HM) as Q. destruct Il as [I1 I2]. destruct (x_pc m t); cbn in *; tauto.
  - assert (Im' : steps (mx_step N) mx_new (ms ++ [tid l]) m') by (econstructor; eassumption).
    assert (NH : forall t, x_pc m t <> XHold).
    { intros t E. destruct (decide (t = tid l)) as [->|Ne]; [pose proof (Il (tid l)) as Q; rewrite T1 in Q; apply (proj1 Q); exact E|].
      apply Ne. apply (mutex_exclusion N _ m' t (tid l) Im'); [rewrite (mx_others _ _ _ _ HM Ne); exact E|exact HH]. }
    rewrite HF in HS by (apply (owner_none s m); [eapply of_reach; exact Is|exact Il|exact NH]).
    split; cbn [fst snd]; [rewrite proj_l; econstructor; eassumption|eauto|]. intros u. destruct (HA _ _ _ HS) as [R|R]; [exfalso; congruence|].
    destruct (decide (u = tid l)) as [->|Ne]; [rewrite T2, HH; reflexivity|]. rewrite (rw_others _ _ _ _ R Ne), (mx_others _ _ _ _ HM Ne). apply Il.
  - split; cbn [fst snd]; [rewrite proj_l; econstructor; eassumption|eexists; econstructor; eassumption|]. intros u. destruct (HA _ _ _ HS) as [R|R]; [exfalso; congruence|].
    destruct (decide (u = tid l)) as [->|Ne]; [|rewrite (rw_others _ _ _ _ R Ne), (mx_others _ _ _ _ HM Ne); apply Il].
    rewrite G2. pose proof (mx_kind _ _ _ (mx_inv N _ _ Im) HM) as Q. rewrite HH in Q. exact Q.
  - split; cbn [fst snd]; [rewrite proj_r; exact Is|eexists; econstructor; eassumption|]. intros u. destruct (decide (u = t)) as [->|Ne]; [|rewrite (mx_others _ _ _ _ HM Ne); apply Il].
    specialize (Il t). pose proof (mx_kind _ _ _ (mx_inv N _ _ Im) HM) as Q. destruct (x_pc m t) eqn:E; cbn in HU; try tauto; destruct (rw_pc (rwof s) t); cbn in *; try discriminate; try tauto; destruct Il as [? []]; exact I.
Qed.
Lemma cinv_steps ls c : steps cstep (init, mx_new) ls c -> cinv ls c.
Proof using H0 HA HF HN.
  intros HS. revert HS. apply (steps_trace_invariant (init, mx_new) cstep cinv).
  - split; cbn; [constructor|exists []; constructor|]. intros t. rewrite H0. cbn. auto.
  - intros ls1 s1 l s2 _. apply cinv_step.
Qed.

(** when a step of the program is possible, one of it or of the mutex is *)
Context (HD : forall ls s u, steps step init ls s -> rw_pc (rwof s) u = PWWant -> rw_w (rwof s) = None -> exists l s', tid l = u /\ step s l s' /\ rw_pc (rwof s') u = PWAnn).
Definition mutex_busy (s : S) (m : mxstate) (u : nat) : Prop := x_pc m u <> XIdle \/ rw_pc (rwof s) u = PWWant.
Lemma c_progress ls s m l s' : steps cstep (init, mx_new) ls (s, m) -> step s l s' ->
  (exists s2 m2, cstep (s, m) (inl l) (s2, m2)) \/ exists l2 c2, cstep (s, m) l2 c2 /\ mutex_busy s m (match l2 with inl l => tid l | inr u => u end).
Proof using H0 HA HF HN HD.
  intros HC HS. destruct (cinv_steps _ _ HC) as [Is (ms & Im) Il]. cbn [fst snd] in *. pose proof (of_reach _ _ Is) as HR. pose proof (mx_inv N _ _ Im) as IM. set (t := tid l) in *.
  pose proof (Il t) as Q.
  assert (TK : takes rwof s t s' \/ ~ takes rwof s t s').
  { unfold takes. destruct (rw_pc (rwof s) t); try (right; intros [? ?]; discriminate). destruct (rw_pc (rwof s') t); try (right; intros [? ?]; discriminate). left. auto. }
  assert (GV : gives rwof s t s' \/ ~ gives rwof s t s').
  { unfold gives. destruct (rw_pc (rwof s) t); try (right; intros (? & ? & ? & ?); discriminate). destruct (rw_pc (rwof s') t); try (right; intros (? & ? & ? & ?); discriminate). left. eauto. }
  destruct TK as [TK|TK]; [|destruct GV as [GV|GV]].
  - right. assert (W : rw_w (rwof s) = None).
    { destruct (HA _ _ _ HS) as [R|R]; [destruct TK; congruence|]. fold t in R. destruct TK as [T1 T2]. destruct R; cbn in *; congruence || reflexivity. }
    assert (NH : forall u, x_pc m u <> XHold).
    { intros u E. specialize (Il u). assert (IW : is_w (rw_pc (rwof s) u)) by (destruct (rw_pc (rwof s) u); cbn in *; try exact I; rewrite E in Il; cbn in Il; intuition (try discriminate; auto)).
      apply (rv_w _ _ HR) in IW. congruence. }
    assert (GO : forall u m', mx_step N m u m' -> rw_pc (rwof s) u = PWWant -> exists l2 c2, cstep (s, m) l2 c2 /\ mutex_busy s m (match l2 with inl l => tid l | inr u => u end)).
    { intros u m' HM Hu. assert (D : x_pc m' u = XHold \/ x_pc m' u <> XHold) by (destruct (x_pc m' u); auto; right; discriminate). destruct D as [D|D].
      - destruct (HD _ _ u Is Hu W) as (l2 & s2 & <- & A & B). exists (inl l2), (s2, m'). split; [|right; exact Hu]. eapply cs_take; [exact HM|exact D|rewrite HF by exact W; exact A|split; assumption].
      - exists (inr u), (s, m'). split; [eapply cs_locking; eassumption|right; exact Hu]. }
    destruct TK as [T1 T2]. assert (LT : (t < N)%nat) by (destruct (decide (t < N)%nat) as [|X]; [assumption|]; rewrite (rv_N _ _ HR) in T1 by lia; discriminate).
    assert (D : x_pc m t = XIdle \/ x_pc m t <> XIdle) by (destruct (x_pc m t); auto; right; discriminate). destruct D as [D|D].
    + destruct m as [w a b pc]. eapply (GO t); [|exact T1]. apply mx_lock; assumption.
    + destruct (mutex_progress N _ _ t Im D) as [(u & Hu)|(u & m' & A & B & C)]; [destruct (NH u Hu)|].
      specialize (Il u). destruct (rw_pc (rwof s) u) eqn:Eu; cbn in Il; try congruence; [|eapply GO; eassumption].
      exists (inr u), (s, m'). split; [eapply cs_unlocking; [tauto|exact A]|left; exact B].
  - left. destruct GV as (r & i & G1 & G2). rewrite G1 in Q. cbn in Q. destruct m as [w a b pc]. cbn in Q.
    assert (w_l w = true) as WL.
    { destruct IM as [IN _ _ G]. cbn in *. destruct G as (_ & _ & G & _). destruct (decide (t < N)%nat) as [LT|LT]; [|rewrite IN in Q by lia; discriminate].
      pose proof (ct_ge N MutexProofs.n_hold pc t ltac:(intros []; cbn; lia) LT) as Y. rewrite Q in Y. cbn in Y. destruct (w_l w); [reflexivity|cbn in G; lia]. }
    eexists _, _. eapply cs_give; [exact HS|eexists _, _; split; eassumption|exact Q|].
    eapply (mx_unlock N w (MW false (w_k w) (w_s w) (w_n w))); [exact Q|exact WL|]. unfold enc. rewrite WL. cbn [w_l w_k w_s w_n]. change (Z.b2z true) with 1%Z. change (Z.b2z false) with 0%Z. lia.
  - assert (D : x_pc m t = XIdle \/ x_pc m t <> XIdle) by (destruct (x_pc m t); auto; right; discriminate).
    assert (E : rw_pc (rwof s) t = PIdle \/ rw_pc (rwof s) t <> PIdle) by (destruct (rw_pc (rwof s) t); auto; right; discriminate).
    destruct D as [D|D]; [left; eexists _, _; eapply cs_other; eauto|]. destruct E as [E|E]; [|left; eexists _, _; eapply cs_other; eauto; intros X; destruct (E X)].
    right. rewrite E in Q. cbn in Q. destruct m as [w a b pc]. cbn in *. destruct Q as [Q|Q]; [destruct (D Q)|].
    destruct (pc t) eqn:P; cbn in Q; try tauto.
    + assert (X : enc w = enc old \/ enc w <> enc old) by lia. destruct X as [X|X]; [apply enc_inj in X; subst old|]; (eexists (inr t), _; split; [eapply cs_unlocking; [cbn; rewrite P; exact I|]|left; cbn; congruence]).
      * apply mx_free. exact P.
      * eapply mx_free_fail; [exact P|congruence].
    + eexists (inr t), _. split; [eapply cs_unlocking; [cbn; rewrite P; exact I|]|left; cbn; congruence]. apply mx_rel. exact P.
Qed.
End compose.
