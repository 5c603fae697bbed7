(** CloseManagers inside of CloseManagers, used by several goroutines. *)
From Verif Require Import Base Conc CloseTreeModel CloseNetModel.

(** the managers that a goroutine has locked *)
Definition w_held (x : wthr) : list nat := (w_in x).*1.
(** the manager that it is about to lock *)
Definition w_wants (x : wthr) : option nat :=
  match w_pc x, w_in x with
  | WGo (WAppend m _ _), [] | WGo (WClose m _), [] => Some m
  | WGo _, (_, IMgr a :: _) :: _ => Some a
  | _, _ => None
  end.
(** it has come to its end, or has panicked *)
Definition w_done (x : wthr) : Prop := x = WT (WGo WEnd) [] \/ x = WT WUnw [].

Section props.
Context (main : nat -> wcode).
Notation init := (w_init main).
Record winv (s : wstate) : Prop := {
  n_mu : forall t m, m ∈ w_held (w_th s t) <-> w_mu s m = Some t;
  n_dup : forall t, NoDup (w_held (w_th s t))
}.
Lemma winv_push l l' mu th t m pc st : winv (WS l mu th) -> mu m = None -> st.*1 = m :: w_held (th t) -> winv (WS l' (tset mu m (Some t)) (tset th t (WT pc st))).
Proof.
  intros [H1 H2] Hm E. split; cbn [w_mu w_th] in *; intros u.
  - intros a. destruct (decide (u = t)) as [->|Hu]; [rewrite tset_eq|rewrite tset_ne by exact Hu].
    + unfold w_held at 1. cbn [w_in]. rewrite E, elem_of_cons, H1. destruct (tset_cases mu m (Some t) a) as [[-> ->]|[N ->]]; [tauto|]. split; [intros [->|K]; [congruence|exact K]|auto].
    + rewrite H1. destruct (tset_cases mu m (Some t) a) as [[-> ->]|[N ->]]; [|reflexivity]. rewrite Hm. split; [discriminate|]. congruence.
  - destruct (decide (u = t)) as [->|Hu]; [rewrite tset_eq|rewrite tset_ne by exact Hu; apply H2]. unfold w_held. cbn [w_in]. rewrite E. constructor; [|apply H2]. rewrite H1, Hm. discriminate.
Qed.
Lemma winv_pop l mu th t m pc st : winv (WS l mu th) -> w_held (th t) = m :: st.*1 -> winv (WS l (tset mu m None) (tset th t (WT pc st))).
Proof.
  intros [H1 H2] E. cbn [w_mu w_th] in *. pose proof (H2 t) as ND. rewrite E in ND. apply NoDup_cons in ND as [NI ND].
  assert (Mm : mu m = Some t) by (apply H1; rewrite E; left). split; cbn [w_mu w_th]; intros u.
  - intros a. destruct (decide (u = t)) as [->|Hu]; [rewrite tset_eq|rewrite tset_ne by exact Hu].
    + unfold w_held. cbn [w_in]. destruct (tset_cases mu m None a) as [[-> ->]|[N ->]]; [split; [intros K; destruct (NI K)|discriminate]|]. rewrite <- H1, E, elem_of_cons. tauto.
    + rewrite H1. destruct (tset_cases mu m None a) as [[-> ->]|[N ->]]; [|reflexivity]. split; [congruence|discriminate].
  - destruct (decide (u = t)) as [->|Hu]; [rewrite tset_eq; exact ND|rewrite tset_ne by exact Hu; apply H2].
Qed.
Lemma winv_same l l' mu th t y : winv (WS l mu th) -> w_held y = w_held (th t) -> winv (WS l' mu (tset th t y)).
Proof.
  intros [H1 H2] E. split; cbn [w_mu w_th] in *; intros u; (destruct (decide (u = t)) as [->|Hu]; [rewrite tset_eq, E|rewrite tset_ne by exact Hu]); auto.
Qed.
Lemma winv_step s l s' : winv s -> w_step s l s' -> winv s'.
Proof.
  intros HI HS. destruct HS as [l mu th t m i k H Hm|l mu th t m k H Hm|l mu th t m c r k st H|l mu th t m c r k st H|l mu th t m a r k st H Hm|l mu th t m k st H|l mu th t m r st H].
  - eapply winv_same; [exact HI|rewrite H; reflexivity].
  - eapply winv_push; [exact HI|exact Hm|rewrite H; reflexivity].
  - eapply winv_same; [exact HI|rewrite H; reflexivity].
  - eapply winv_same; [exact HI|rewrite H; reflexivity].
  - eapply winv_push; [exact HI|exact Hm|rewrite H; reflexivity].
  - eapply winv_pop; [exact HI|rewrite H; reflexivity].
  - eapply winv_pop; [exact HI|rewrite H; reflexivity].
Qed.
Lemma winv_reach s : reach init w_step s -> winv s.
Proof.
  revert s. apply reach_invariant; [|apply winv_step]. split; cbn; intros t; [intros m; split; [intros H; inversion H|discriminate]|constructor].
Qed.
(** C199: no two goroutines are inside of Close of the same manager, nor one twice *)
Theorem cnet_exclusive s : reach init w_step s -> (forall m t u, m ∈ w_held (w_th s t) -> m ∈ w_held (w_th s u) -> t = u) /\ forall t, NoDup (w_held (w_th s t)).
Proof.
  intros HR. destruct (winv_reach s HR) as [H1 H2]. split; [|exact H2]. intros m t u Ht Hu. apply H1 in Ht, Hu. congruence.
Qed.
Lemma wants_free s l s' a : w_step s l s' -> w_wants (w_th s l) = Some a -> w_mu s a = None.
Proof.
  intros HS. destruct HS as [l mu th t m i k H Hm|l mu th t m k H Hm|l mu th t m c r k st H|l mu th t m c r k st H|l mu th t m b r k st H Hm|l mu th t m k st H|l mu th t m r st H];
    cbn [w_th w_mu]; rewrite H; cbn; try (intros [= <-]; assumption); destruct k; intros E; first [discriminate E|injection E as <-; assumption].
Qed.
Lemma other_th s l s' t : w_step s l s' -> l <> t -> w_th s' t = w_th s t.
Proof. intros HS N. destruct HS; cbn; apply tset_ne; congruence. Qed.
(** C199: if each goroutine of a set is about to lock a manager that one of the set has
    locked, none of them ever makes a step again *)
Theorem cnet_deadlock (D : nat -> Prop) s tr s' : reach init w_step s -> (forall t, D t -> exists a u, w_wants (w_th s t) = Some a /\ D u /\ a ∈ w_held (w_th s u)) -> steps w_step s tr s' ->
  (forall t, D t -> w_th s' t = w_th s t) /\ forall t, t ∈ tr -> ~ D t.
Proof.
  intros HR HD HS. pose proof (winv_reach s HR) as HI. clear HR. induction HS as [s|s tr s1 l s2 HS IH H1]; [split; [auto|intros t H; inversion H]|].
  destruct (IH HD HI) as [K1 K2]. assert (HI1 : winv s1) by (revert HS; apply (steps_invariant s w_step winv HI winv_step)).
  assert (N : ~ D l). { intros Dl. destruct (HD l Dl) as (a & u & W & Du & Ha). rewrite <- (K1 l Dl) in W. rewrite <- (K1 u Du) in Ha. pose proof (wants_free _ _ _ _ H1 W) as F. apply (n_mu _ HI1) in Ha. congruence. }
  split; [intros t Dt; rewrite (other_th _ _ _ t H1) by congruence; auto|]. intros t Ht. apply elem_of_app in Ht as [Ht|Ht]; [auto|]. apply elem_of_list_singleton in Ht as ->. exact N.
Qed.

(** *** Hierarchies *)
(** each manager is appended only to managers above it *)
Definition low (m : nat) (i : citem) : Prop := match i with ILeaf _ => True | IMgr a => a < m end.
Fixpoint wlow (k : wcode) : Prop := match k with WEnd => True | WAppend m i k => low m i /\ wlow k | WClose _ k => wlow k end.
Fixpoint low_in (st : list (nat * list citem)) : Prop :=
  match st with [] => True | (m, r) :: st => Forall (low m) r /\ match st with [] => True | (n, _) :: _ => m < n end /\ low_in st end.
Definition low_th (x : wthr) : Prop := low_in (w_in x) /\ match w_pc x with WGo k => wlow k | WUnw => True end.
Definition low_inv (s : wstate) : Prop := (forall m, Forall (low m) (w_list s m)) /\ forall t, low_th (w_th s t).
Lemma low_step s l s' : low_inv s -> w_step s l s' -> low_inv s'.
Proof.
  intros [H1 H2] HS. destruct HS as [l mu th t m i k H Hm|l mu th t m k H Hm|l mu th t m c r k st H|l mu th t m c r k st H|l mu th t m b r k st H Hm|l mu th t m k st H|l mu th t m r st H];
    cbn [w_list w_th] in *; pose proof (H2 t) as Ht; rewrite H in Ht; destruct Ht as [L1 L2]; cbn in L1, L2;
    (split; cbn [w_list w_th]; [first [exact H1|idtac]|intros u; (destruct (decide (u = t)) as [->|Hu]; [rewrite tset_eq|rewrite tset_ne by exact Hu; apply H2]); split; cbn]).
  - intros n. destruct (tset_cases l m (l m ++ [i]) n) as [[-> ->]|[_ ->]]; [|apply H1]. apply Forall_app. split; [apply H1|]. constructor; [tauto|constructor].
  - exact I.
  - tauto.
  - split; [apply H1|auto].
  - exact L2.
  - destruct L1 as [F L1]. inversion F; subst. auto.
  - exact L2.
  - destruct L1 as [F L1]. inversion F; subst. auto.
  - exact I.
  - destruct L1 as [F L1]. inversion F; subst. split; [apply H1|]. auto.
  - exact L2.
  - tauto.
  - exact L2.
  - tauto.
  - exact I.
Qed.
Lemma low_reach s : (forall t, wlow (main t)) -> reach init w_step s -> low_inv s.
Proof. intros HM. revert s. apply reach_invariant; [|apply low_step]. split; [constructor|]. intros t. split; [exact I|apply HM]. Qed.
Lemma low_top m r st : low_in ((m, r) :: st) -> forall n, n ∈ m :: st.*1 -> m <= n.
Proof.
  revert m r. induction st as [|[n r'] st IH]; intros m r (_ & H1 & H2) x Hx; apply elem_of_cons in Hx as [->|Hx]; try lia; [inversion Hx|]. specialize (IH n r' H2 x Hx). lia.
Qed.
(** C199: if each manager is appended only to managers above it, somebody can always make a
    step, unless all goroutines have come to their end or panicked *)
Theorem cnet_ordered s t : (forall t, wlow (main t)) -> reach init w_step s -> ~ w_done (w_th s t) -> exists u s', w_step s u s'.
Proof.
  intros HM HR HN. pose proof (winv_reach s HR) as HI. destruct (low_reach s HM HR) as [_ HL].
  assert (K : forall u, ~ w_done (w_th s u) -> (forall a, w_wants (w_th s u) = Some a -> w_mu s a <> None -> exists u s', w_step s u s') -> exists u s', w_step s u s').
  { intros u Hu HW. destruct s as [l mu th]. cbn [w_th w_mu] in *. destruct (th u) as [pc st] eqn:E. destruct st as [|[m [|[c|a] r]] st].
    - destruct pc as [[|m i k|m k]|]; [destruct Hu; left; reflexivity| | |destruct Hu; right; reflexivity].
      + destruct (mu m) eqn:Em; [apply (HW m); [reflexivity|congruence]|]. do 2 eexists. eapply ws_append; eassumption.
      + destruct (mu m) eqn:Em; [apply (HW m); [reflexivity|congruence]|]. do 2 eexists. eapply ws_close; eassumption.
    - destruct pc as [k|]; do 2 eexists; [eapply ws_rel|eapply ws_unw]; eassumption.
    - destruct pc as [k|]; do 2 eexists; [eapply ws_leaf|eapply ws_unw]; eassumption.
    - destruct pc as [k|]; [|do 2 eexists; eapply ws_unw; eassumption]. destruct (mu a) eqn:Em; [apply (HW a); [destruct k; reflexivity|congruence]|]. do 2 eexists. eapply ws_mgr; eassumption. }
  assert (W : forall a, w_mu s a <> None -> exists u s', w_step s u s').
  { intros a. induction a as [a IH] using lt_wf_ind. intros Ha. destruct (w_mu s a) as [u|] eqn:Ea; [|congruence]. apply (n_mu _ HI) in Ea. apply (K u).
    - intros [Q|Q]; rewrite Q in Ea; inversion Ea.
    - intros b Wb Mb. apply (IH b); [|exact Mb]. destruct (HL u) as [L _]. unfold w_held in Ea. unfold w_wants in Wb. destruct (w_th s u) as [pc [|[m [|[c|x] r]] st]]; cbn in *; [inversion Ea|destruct pc as [[]|]; discriminate Wb|destruct pc as [[]|]; discriminate Wb|].
      assert (x = b) by (destruct pc as [[]|]; congruence). subst x. pose proof (low_top m (IMgr b :: r) st L a Ea). destruct L as [F _]. inversion F as [|? ? Q _]; subst. cbn in Q. lia. }
  apply (K t HN). intros a _. apply W.
Qed.
End props.
Print Assumptions cnet_exclusive.
Print Assumptions cnet_deadlock.
Print Assumptions cnet_ordered.

(** two managers, each in the list of the other, and a goroutine that closes each *)
Definition ring_prog (t : nat) : wcode := match t with 0 => WAppend 0 (IMgr 1) (WAppend 1 (IMgr 0) (WClose 0 WEnd)) | 1 => WClose 1 WEnd | _ => WEnd end.
(** C199: false: Close returns or panics as long as no goroutine is about to close a manager
    that it is closing itself *)
Theorem cnet_ring_refuted : exists s, reach (w_init ring_prog) w_step s /\ w_held (w_th s 0) = [0] /\ w_held (w_th s 1) = [1] /\
  forall tr s', steps w_step s tr s' -> forall t, t < 2 -> w_th s' t = w_th s t /\ ~ w_done (w_th s' t) /\ t ∉ tr.
Proof.
  eexists. match goal with |- ?P /\ _ => assert (HR : P) end.
  { eexists. unfold w_init.
    eapply steps_cons; [eapply (ws_append _ _ _ 0); reflexivity|]. eapply steps_cons; [eapply (ws_append _ _ _ 0); reflexivity|].
    eapply steps_cons; [eapply (ws_close _ _ _ 0); reflexivity|]. eapply steps_cons; [eapply (ws_close _ _ _ 1); reflexivity|]. constructor. }
  split; [exact HR|]. split; [reflexivity|]. split; [reflexivity|]. intros tr s' HS t Ht.
  destruct (cnet_deadlock ring_prog (fun t => t < 2) _ tr s' HR) as [K1 K2]; [|exact HS|].
  - intros u Hu. destruct u as [|[|]]; [exists 1, 1|exists 0, 0|lia]; (split; [reflexivity|]; split; [lia|left]).
  - split; [exact (K1 t Ht)|]. split; [rewrite (K1 t Ht); destruct t as [|[|]]; [| |lia]; intros [Q|Q]; discriminate Q|]. intros Q. exact (K2 t Q Ht).
Qed.
Print Assumptions cnet_ring_refuted.
(** a hierarchy: manager 0 in 1, 1 in 2; one goroutine closes 2 and has come down to 0, another
    waits for 1 *)
Definition tower_prog (t : nat) : wcode := match t with 0 => WAppend 0 (ILeaf 5) (WAppend 1 (IMgr 0) (WAppend 2 (IMgr 1) (WClose 2 WEnd))) | 1 => WClose 1 (WAppend 1 (ILeaf 6) WEnd) | _ => WEnd end.
Example cnet_ordered_case : (forall t, wlow (tower_prog t)) /\ exists s, reach (w_init tower_prog) w_step s /\ w_held (w_th s 0) = [0; 1; 2] /\ w_wants (w_th s 1) = Some 1 /\ ~ w_done (w_th s 1).
Proof.
  split; [intros [|[|]]; cbn; repeat split; lia|]. eexists. split; [eexists; unfold w_init|split; [|split]].
  - do 3 (eapply steps_cons; [eapply (ws_append _ _ _ 0); reflexivity|]). eapply steps_cons; [eapply (ws_close _ _ _ 0); reflexivity|]. do 2 (eapply steps_cons; [eapply (ws_mgr _ _ _ 0); reflexivity|]). constructor.
  - reflexivity.
  - reflexivity.
  - intros [Q|Q]; discriminate Q.
Qed.
