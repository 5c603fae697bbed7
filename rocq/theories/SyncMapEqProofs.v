From Verif Require Import Base Conc Lin SyncMapModel SyncMapEqModel.
Ltac cases u t := destruct (decide (u = t)) as [->|]; [rewrite ?tset_eq in *|rewrite ?tset_ne in * by assumption].

Section Proofs.
Context {K V : Type} (eqb : K -> K -> bool) (zero : V).
Context (eqb_sym : forall a b, eqb a b = eqb b a) (eqb_trans : forall a b c, eqb a b = true -> eqb b c = true -> eqb a c = true).
Notation gomap := (list (K * V)).

(** no two entries have keys that are == *)
Definition uniq (m : gomap) : Prop := ForallOrdPairs (fun p q : K * V => eqb p.1 q.1 = false) m.
Lemma gm_get_spec k (m : gomap) : match gm_get eqb k m with
  | Some v => exists k', (k', v) ∈ m /\ eqb k k' = true | None => forall k' v, (k', v) ∈ m -> eqb k k' = false end.
Proof.
  induction m as [|[k1 v1] m IH]; cbn; [intros k' v Hn; inversion Hn|]. destruct (eqb k k1) eqn:E.
  - exists k1. split; [left|exact E].
  - destruct (gm_get eqb k m) as [v|].
    + destruct IH as (k' & Hk & Ek). exists k'. split; [right; exact Hk|exact Ek].
    + intros k' v Hk. apply elem_of_cons in Hk as [Hk|Hk]; [congruence|eapply IH, Hk].
Qed.
Lemma filter_all (k k1 : K) (m : gomap) : eqb k k1 = true -> Forall (fun q : K * V => eqb k1 q.1 = false) m -> filter (fun p : K * V => eqb k p.1 = false) m = m.
Proof.
  intros E F. induction F as [|q m Eq F IH]; [reflexivity|]. rewrite filter_cons_True; [rewrite IH; reflexivity|].
  destruct (eqb k q.1) eqn:E'; [|reflexivity]. rewrite (eqb_trans k1 k q.1) in Eq; [discriminate|rewrite eqb_sym; exact E|exact E'].
Qed.
Lemma gm_set_perm k v (m : gomap) : uniq m -> gm_set eqb k v m ≡ₚ (k, v) :: filter (fun p : K * V => eqb k p.1 = false) m.
Proof.
  induction 1 as [|[k1 v1] m F U IH]; cbn [gm_set]; [reflexivity|]. destruct (eqb k k1) eqn:E.
  - rewrite filter_cons_False by (cbn; congruence). rewrite (filter_all k k1) by assumption. reflexivity.
  - rewrite filter_cons_True by exact E. rewrite IH. apply Permutation_swap.
Qed.
Lemma gm_delete_filter k (m : gomap) : uniq m -> gm_delete eqb k m = filter (fun p : K * V => eqb k p.1 = false) m.
Proof.
  induction 1 as [|[k1 v1] m F U IH]; cbn [gm_delete]; [reflexivity|]. destruct (eqb k k1) eqn:E.
  - rewrite filter_cons_False by (cbn; congruence). rewrite (filter_all k k1) by assumption. reflexivity.
  - rewrite filter_cons_True by exact E. rewrite IH. reflexivity.
Qed.
Lemma uniq_filter (k : K) (m : gomap) : uniq m -> uniq (filter (fun p : K * V => eqb k p.1 = false) m).
Proof.
  induction 1 as [|p m F U IH]; [constructor|]. destruct (decide (eqb k p.1 = false)) as [E|E].
  - rewrite filter_cons_True by exact E. constructor; [|exact IH]. apply Forall_forall. intros q Hq. apply elem_of_list_filter in Hq as [_ Hq].
    rewrite Forall_forall in F. exact (F q Hq).
  - rewrite filter_cons_False by exact E. exact IH.
Qed.
Lemma uniq_perm (m m' : gomap) : m ≡ₚ m' -> uniq m -> uniq m'.
Proof.
  induction 1 as [|p m m' P IH|p q m|m1 m2 m3 P1 IH1 P2 IH2]; intros U; auto.
  - inversion U as [|? ? F U']; subst. constructor; [rewrite <- P; exact F|apply IH, U'].
  - inversion U as [|? ? F U']; subst. inversion U' as [|? ? F' U'']; subst. apply Forall_cons in F as [F1 F2].
    constructor; [constructor; [rewrite eqb_sym; exact F1|exact F']|]. constructor; assumption.
Qed.
Lemma uniq_set k v (m : gomap) : uniq m -> uniq (gm_set eqb k v m).
Proof.
  intros U. eapply uniq_perm; [symmetry; apply gm_set_perm, U|]. constructor; [|apply uniq_filter, U].
  apply Forall_forall. intros q Hq. apply elem_of_list_filter in Hq as [E _]. exact E.
Qed.
Lemma q_write_spec o (m m' : gomap) : uniq m -> q_write eqb o m = Some m' -> eq_spec eqb zero m o RetU m' /\ uniq m'.
Proof.
  intros U E. destruct o; cbn in *; try discriminate; injection E as <-.
  - split; [split; [reflexivity|apply gm_set_perm, U]|apply uniq_set, U].
  - rewrite gm_delete_filter by exact U. split; [split; reflexivity|apply uniq_filter, U].
  - split; [auto|constructor].
Qed.
Notation qpc := (qpc K V).
Notation qstate := (qstate K V).
Notation tr_t := (list (lev (mop K V) (mret K V))).

Definition hr (p : qpc) : Prop :=
  match p with QHold o => is_write o = false | QIter _ _ _ _ => True | QRel o _ => is_write o = false | _ => False end.
Definition hw (p : qpc) : Prop :=
  match p with QHold o => is_write o = true | QWriting _ => True | QRel o _ => is_write o = true | _ => False end.
Definition pcok (s : qstate) (p : qpc) : Prop :=
  match p with
  | QIter o m0 rest dn => m0 = q_map s /\ dn ++ rest ≡ₚ q_map s /\ iter_result o [] <> None
  | QWriting o => is_write o = true /\ q_torn s = true
  | _ => True
  end.
Definition ts (p : qpc) : tstate (mop K V) (mret K V) :=
  match p with
  | QIdle => TIdle
  | QWant o | QHold o | QIter o _ _ _ | QWriting o => TCalled o
  | QRel o r | QRet o r => TDone o r
  end.
Record qinv (tr : tr_t) (s : qstate) : Prop := {
  iv_w : forall t, hw (q_th s t) <-> q_writer s = Some t;
  iv_r : forall t, hr (q_th s t) <-> t ∈ q_readers s;
  iv_x : q_writer s <> None -> q_readers s = [];
  iv_torn : q_torn s = true -> exists t o, q_th s t = QWriting o;
  iv_pc : forall t, pcok s (q_th s t);
  iv_crash : q_crash s = false;
  iv_uniq : uniq (q_map s);
  iv_seq : forall t, tseq t (proj t tr) (ts (q_th s t));
  iv_legal : legal (eq_spec eqb zero) [] tr (q_map s) }.

Lemma seq_none (tr : tr_t) (th : nat -> qpc) t p : (forall u, tseq u (proj u tr) (ts (th u))) -> ts p = ts (th t) ->
  forall u, tseq u (proj u tr) (ts (tset th t p u)).
Proof. intros Hs E u. cases u t; [rewrite E|]; apply Hs. Qed.
Lemma seq_some (tr : tr_t) (th : nat -> qpc) t p e : (forall u, tseq u (proj u tr) (ts (th u))) -> lev_thread e = t ->
  (forall l, tseq t l (ts (th t)) -> tseq t (l ++ [e]) (ts p)) ->
  forall u, tseq u (proj u (tr ++ [e])) (ts (tset th t p u)).
Proof.
  intros Hs Ht He u. rewrite proj_snoc. cases u t.
  - rewrite decide_True by exact Ht. apply He, Hs.
  - rewrite decide_False by congruence. apply Hs.
Qed.
(** while somebody reads, nobody is in the middle of a write *)
Lemma reader_no_torn tr s t : qinv tr s -> hr (q_th s t) -> q_torn s = false.
Proof.
  intros I Hr. destruct (q_torn s) eqn:E; [|reflexivity]. destruct (iv_torn _ _ I E) as (u & o & Eu).
  assert (W : q_writer s = Some u) by (apply (iv_w _ _ I); rewrite Eu; exact Logic.I).
  apply (iv_r _ _ I) in Hr. rewrite (iv_x _ _ I) in Hr by congruence. inversion Hr.
Qed.
Lemma writer_alone tr s t : qinv tr s -> hw (q_th s t) -> q_readers s = [] /\ forall u, u <> t -> ~ hw (q_th s u) /\ ~ hr (q_th s u).
Proof.
  intros I Hw. apply (iv_w _ _ I) in Hw. pose proof (iv_x _ _ I ltac:(congruence)) as Hx. split; [exact Hx|].
  intros u Hu. split.
  - rewrite (iv_w _ _ I). congruence.
  - rewrite (iv_r _ _ I), Hx. apply not_elem_of_nil.
Qed.
Lemma iter_not_write (o : mop K V) l : iter_result o l <> None -> is_write o = false.
Proof. destruct o; cbn; congruence. Qed.
Lemma iter_some (o : mop K V) l r : iter_result o l = Some r -> is_write o = false.
Proof. intros E. apply (iter_not_write o l). congruence. Qed.
Lemma read_not_write o (m : gomap) r : q_read eqb zero o m = Some r -> is_write o = false /\ eq_spec eqb zero m o r m.
Proof.
  destruct o as [k|k| | | | | |]; cbn; try discriminate; intros E; injection E as <-; auto.
  - pose proof (gm_get_spec k m) as G. destruct (gm_get eqb k m) as [v|]; (split; [reflexivity|split; [|reflexivity]]).
    + destruct G as (k' & G1 & G2). left. eauto 10.
    + right. auto.
  - pose proof (gm_get_spec k m) as G. split; [reflexivity|]. split; [|reflexivity]. eexists. split; [reflexivity|].
    destruct (gm_get eqb k m) as [v|].
    + destruct G as (k' & G1 & G2). split; eauto.
    + split; [discriminate|]. intros (k' & v & H1 & H2). rewrite (G k' v H1) in H2. discriminate.
Qed.

Lemma qinv_step tr s e s' : qinv tr s -> q_step eqb zero s e s' -> qinv (tr ++ (match e with Some x => [x] | None => [] end)) s'.
Proof.
  intros I HS. pose proof I as [Iw Ir Ix It Ip Ic Iu Is Il].
  destruct HS as [m tn c w rs th t o E|m tn c rs th t o E Eo|m tn c th t o E Eo|m c w rs th t o r E Er|m c w rs th t o l E Ei El
    |m c w rs th t o p rest dn E|m m0 c w rs th t o rest rest' dn p Hne E|m tn c w rs th t o m0 dn r E Er|m c w rs th t o E Eo
    |m tn c w rs th t o m' E Ew|m c w rs th t o E|m tn c w rs th t o r E Eo|m tn c w rs th t o r E Eo|m tn c w rs th t o r E];
    cbn [q_map q_torn q_crash q_writer q_readers q_th] in *; subst; rewrite ?app_nil_r;
    try (pose proof (Iw t) as Iwt; pose proof (Ir t) as Irt; pose proof (Ip t) as Ipt; rewrite E in Iwt, Irt, Ipt; cbn [hw hr pcok] in Iwt, Irt, Ipt).
  - (* call *) split; cbn [q_map q_torn q_crash q_writer q_readers q_th]; auto.
    + intros u. cases u t; [exact Iwt|apply Iw].
    + intros u. cases u t; [exact Irt|apply Ir].
    + intros Et. destruct (It Et) as (u & o' & Eu). exists u, o'. cases u t; [congruence|exact Eu].
    + intros u. cases u t; [exact Logic.I|apply Ip].
    + apply seq_some; [exact Is|reflexivity|]. rewrite E. intros l Hl. apply tseq_inv, Hl.
    + apply legal_inv, Il.
  - (* rlock *) split; cbn [q_map q_torn q_crash q_writer q_readers q_th]; auto.
    + intros u. cases u t; [cbn; rewrite Eo; split; discriminate|apply Iw].
    + intros u. cases u t; [cbn; split; [left|auto]|]. rewrite Ir. split; [right; assumption|]. intros Hu. apply elem_of_cons in Hu as [Hu|Hu]; [congruence|exact Hu].
    + congruence.
    + intros Et. destruct (It Et) as (u & o' & Eu). exists u, o'. cases u t; [congruence|exact Eu].
    + intros u. cases u t; [exact Logic.I|apply Ip].
    + apply seq_none; [exact Is|rewrite E; reflexivity].
  - (* lock *) split; cbn [q_map q_torn q_crash q_writer q_readers q_th]; auto.
    + intros u. cases u t; [cbn; tauto|]. rewrite Iw. split; congruence.
    + intros u. cases u t; [cbn; rewrite Eo; split; [discriminate|intros Hn; inversion Hn]|apply Ir].
    + intros Et. destruct (It Et) as (u & o' & Eu). exists u, o'. cases u t; [congruence|exact Eu].
    + intros u. cases u t; [exact Logic.I|apply Ip].
    + apply seq_none; [exact Is|rewrite E; reflexivity].
  - (* read *) destruct (read_not_write o m r Er) as [Eo Esp]. rewrite Eo in *.
    split; cbn [q_map q_torn q_crash q_writer q_readers q_th]; auto.
    + intros u. cases u t; [cbn; rewrite Eo; exact Iwt|apply Iw].
    + intros u. cases u t; [cbn; rewrite Eo; exact Irt|apply Ir].
    + discriminate.
    + intros u. cases u t; [exact Logic.I|apply Ip].
    + apply seq_some; [exact Is|reflexivity|]. rewrite E. intros l Hl. apply tseq_lin, Hl.
    + eapply legal_lin; eauto.
  - (* range *) pose proof (iter_not_write o [] Ei) as Eo. rewrite Eo in *.
    split; cbn [q_map q_torn q_crash q_writer q_readers q_th]; auto.
    + intros u. cases u t; [cbn; split; [tauto|intros Hw; apply Iwt in Hw; discriminate]|apply Iw].
    + intros u. cases u t; [cbn; tauto|apply Ir].
    + discriminate.
    + intros u. cases u t; [cbn; auto|apply Ip].
    + apply seq_none; [exact Is|rewrite E; reflexivity].
  - (* next *) split; cbn [q_map q_torn q_crash q_writer q_readers q_th]; auto.
    + intros u. cases u t; [exact Iwt|apply Iw].
    + intros u. cases u t; [exact Irt|apply Ir].
    + discriminate.
    + intros u. cases u t; [|apply Ip]. cbn in *. destruct Ipt as (P1 & P2 & P3). rewrite <- app_assoc. auto.
    + apply seq_none; [exact Is|rewrite E; reflexivity].
  - (* stale: impossible *) exfalso. destruct Ipt as (P1 & _). cbn in P1. congruence.
  - (* range end *) pose proof (iter_some o dn r Er) as Eo. destruct Ipt as (P1 & P2 & _). cbn in P1, P2. rewrite app_nil_r in P2.
    split; cbn [q_map q_torn q_crash q_writer q_readers q_th]; auto.
    + intros u. cases u t; [cbn; rewrite Eo; split; [discriminate|intros Hw; apply Iwt in Hw; destruct Hw]|apply Iw].
    + intros u. cases u t; [cbn; tauto|apply Ir].
    + intros Et. destruct (It Et) as (u & o' & Eu). exists u, o'. cases u t; [congruence|exact Eu].
    + intros u. cases u t; [exact Logic.I|apply Ip].
    + apply seq_some; [exact Is|reflexivity|]. rewrite E. intros l Hl. apply tseq_lin, Hl.
    + eapply legal_lin; [exact Il|]. destruct o; cbn in Er |- *; try discriminate; injection Er as <-; (split; [|reflexivity]);
        eexists; (split; [reflexivity|]); apply fmap_Permutation; exact P2.
  - (* write begin *) destruct (writer_alone tr _ t I ltac:(cbn; rewrite E; exact Eo)) as [HR HA]. cbn in HR, HA. rewrite Eo in *.
    split; cbn [q_map q_torn q_crash q_writer q_readers q_th]; auto.
    + intros u. cases u t; [cbn; tauto|apply Iw].
    + intros u. cases u t; [cbn; split; [tauto|intros Hu; apply Irt in Hu; discriminate]|apply Ir].
    + intros _. exists t, o. apply tset_eq.
    + intros u. cases u t; [cbn; auto|]. specialize (Ip u). destruct (HA u ltac:(assumption)) as [H1 H2].
      destruct (th u); cbn in *; tauto.
    + apply seq_none; [exact Is|rewrite E; reflexivity].
  - (* write end *) destruct (q_write_spec _ _ _ Iu Ew) as [Esp Eu]. destruct (writer_alone tr _ t I ltac:(cbn; rewrite E; exact Logic.I)) as [HR HA]. cbn in HR, HA. destruct Ipt as [Eo _].
    split; cbn [q_map q_torn q_crash q_writer q_readers q_th]; auto.
    + intros u. cases u t; [cbn; tauto|apply Iw].
    + intros u. cases u t; [cbn; rewrite Eo; split; [discriminate|intros Hu; apply Irt in Hu; tauto]|apply Ir].
    + discriminate.
    + intros u. cases u t; [exact Logic.I|]. destruct (HA u ltac:(assumption)) as [H1 H2]. destruct (th u); cbn in *; tauto.
    + apply seq_some; [exact Is|reflexivity|]. rewrite E. intros l Hl. apply tseq_lin, Hl.
    + eapply legal_lin; [exact Il|exact Esp].
  - (* race: impossible *) exfalso. destruct (It eq_refl) as (u & o' & Eu).
    assert (Hu : hw (th u)) by (rewrite Eu; exact Logic.I).
    destruct (writer_alone tr _ u I Hu) as [HR HA]. cbn in HR, HA.
    destruct (decide (t = u)) as [->|Hn].
    + rewrite Eu in E. destruct E as [E|(m0 & p & rest & dn & E)]; discriminate.
    + destruct (HA t Hn) as [H1 H2]. destruct E as [E|(m0 & p & rest & dn & E)]; rewrite E in H1, H2; cbn in *; [destruct (is_write o); tauto|tauto].
  - (* runlock *) rewrite Eo in *. split; cbn [q_map q_torn q_crash q_writer q_readers q_th]; auto.
    + intros u. cases u t; [cbn; split; [tauto|intros Hw; apply Iwt in Hw; discriminate]|apply Iw].
    + intros u. rewrite elem_of_list_difference, elem_of_list_singleton. cases u t; [cbn; tauto|]. rewrite Ir. tauto.
    + intros Hw. apply Ix in Hw. rewrite Hw. reflexivity.
    + intros Et. destruct (It Et) as (u & o' & Eu). exists u, o'. cases u t; [congruence|exact Eu].
    + intros u. cases u t; [exact Logic.I|apply Ip].
    + apply seq_none; [exact Is|rewrite E; reflexivity].
  - (* unlock *) rewrite Eo in *. assert (Ew : w = Some t) by (apply Iwt; reflexivity). subst w.
    split; cbn [q_map q_torn q_crash q_writer q_readers q_th]; auto.
    + intros u. cases u t; [cbn; split; [tauto|discriminate]|]. rewrite Iw. split; congruence.
    + intros u. cases u t; [cbn; split; [tauto|intros Hu; apply Irt in Hu; discriminate]|apply Ir].
    + intros Et. destruct (It Et) as (u & o' & Eu). exists u, o'. cases u t; [congruence|exact Eu].
    + intros u. cases u t; [exact Logic.I|apply Ip].
    + apply seq_none; [exact Is|rewrite E; reflexivity].
  - (* return *) split; cbn [q_map q_torn q_crash q_writer q_readers q_th]; auto.
    + intros u. cases u t; [exact Iwt|apply Iw].
    + intros u. cases u t; [exact Irt|apply Ir].
    + intros Et. destruct (It Et) as (u & o' & Eu). exists u, o'. cases u t; [congruence|exact Eu].
    + intros u. cases u t; [exact Logic.I|apply Ip].
    + apply seq_some; [exact Is|reflexivity|]. rewrite E. intros l Hl. apply tseq_rsp, Hl.
    + apply legal_rsp, Il.
Qed.
Lemma qinv_init : qinv [] q_new.
Proof.
  split; cbn; auto; try discriminate.
  - intros t. split; [tauto|discriminate].
  - intros t. split; [tauto|intros Ht; inversion Ht].
  - constructor.
  - intros t. constructor.
  - constructor.
Qed.
Definition q_events (ls : list (option (lev (mop K V) (mret K V)))) : tr_t := omap id ls.
Lemma qinv_steps ls s : steps (q_step eqb zero) q_new ls s -> qinv (q_events ls) s.
Proof.
  apply (steps_trace_invariant q_new (q_step eqb zero) (fun ls s => qinv (q_events ls) s)); [exact qinv_init|].
  intros ls' s1 l s2 _ IH HS. pose proof (qinv_step _ _ _ _ IH HS) as G. unfold q_events in *. rewrite omap_app. destruct l; exact G.
Qed.

(** some call can move as long as one is in progress *)
Lemma q_progress tr s t : qinv tr s -> q_th s t <> QIdle -> exists e s', q_step eqb zero s e s' /\ q_crash s' = false /\ exists u, q_th s u <> QIdle /\ q_th s' u <> q_th s u.
Proof.
  intros I Ht.
  assert (HH : forall u, hr (q_th s u) \/ hw (q_th s u) -> exists e s', q_step eqb zero s e s' /\ q_crash s' = false /\ exists u, q_th s u <> QIdle /\ q_th s' u <> q_th s u).
  { intros u Hu.
    pose proof (iv_pc _ _ I u) as Ip. pose proof (fun H => reader_no_torn tr s u I H) as NT. pose proof (iv_crash _ _ I) as Ic.
    assert (NW : forall o, q_th s u = QHold o -> is_write o = true -> q_torn s = false).
    { intros o Eo Ew. destruct (q_torn s) eqn:Et; [|reflexivity]. destruct (iv_torn _ _ I Et) as (v & o' & Ev).
      assert (Hwv : q_writer s = Some v) by (apply (iv_w _ _ I); rewrite Ev; exact Logic.I).
      assert (Hwu : q_writer s = Some u) by (apply (iv_w _ _ I); rewrite Eo; exact Ew). congruence. }
    destruct s as [m tn c w rs th]. cbn in *.
    destruct (th u) as [|o|o|o m0 rest dn|o|o r|o r] eqn:E; cbn in *; try tauto.
    - destruct (is_write o) eqn:Eo.
      + rewrite (NW o eq_refl Eo) in *. do 2 eexists. split; [eapply qs_write_begin; eauto|]. split; [exact Ic|]. exists u. cbn. rewrite E, tset_eq. split; discriminate.
      + rewrite (NT eq_refl) in *. destruct (q_read eqb zero o m) as [r|] eqn:Er.
        * do 2 eexists. split; [eapply qs_read; eauto|]. split; [exact Ic|]. exists u. cbn. rewrite E, tset_eq. split; discriminate.
        * do 2 eexists. split; [eapply qs_range; [exact E| |reflexivity]; destruct o; cbn in *; discriminate|]. split; [exact Ic|]. exists u. cbn. rewrite E, tset_eq. split; discriminate.
    - destruct Ip as (-> & P2 & Eo). rewrite (NT Logic.I) in *. destruct rest as [|p rest].
      + destruct (iter_result o dn) as [r|] eqn:Er.
        * do 2 eexists. split; [eapply qs_range_end; eauto|]. split; [exact Ic|]. exists u. cbn. rewrite E, tset_eq. split; discriminate.
        * exfalso. destruct o; cbn in *; congruence.
      + do 2 eexists. split; [eapply qs_next; eauto|]. split; [exact Ic|]. exists u. cbn. rewrite E, tset_eq. split; [discriminate|]. intros X. injection X as X1 X2. apply (f_equal length) in X1. cbn in X1. lia.
    - destruct Ip as [Eo ->]. destruct (q_write eqb o m) as [m'|] eqn:Ew; [|destruct o; discriminate].
      do 2 eexists. split; [eapply qs_write_end; eauto|]. split; [exact Ic|]. exists u. cbn. rewrite E, tset_eq. split; discriminate.
    - destruct (is_write o) eqn:Eo; do 2 eexists; (split; [(eapply qs_unlock; eauto; fail) || (eapply qs_runlock; eauto; fail)|]);
        (split; [exact Ic|]); exists u; cbn; rewrite E, tset_eq; split; discriminate. }
  destruct (q_th s t) as [|o|o|o m0 rest dn|o|o r|o r] eqn:E; try congruence;
    try (apply (HH t); rewrite E; cbn; destruct (is_write o); auto; fail).
  - destruct (q_writer s) as [u|] eqn:Ew; [apply (HH u); right; apply (iv_w _ _ I); exact Ew|].
    destruct (q_readers s) as [|u rs] eqn:Er; [|apply (HH u); left; apply (iv_r _ _ I); rewrite Er; left].
    pose proof (iv_crash _ _ I) as Ic. destruct s as [m tn c w rs th]. cbn in *. subst.
    destruct (is_write o) eqn:Eo; do 2 eexists; (split; [(eapply qs_lock; eauto; fail) || (eapply qs_rlock; eauto; fail)|]);
      (split; [reflexivity|]); exists t; cbn; rewrite E, tset_eq; split; discriminate.
  - pose proof (iv_crash _ _ I) as Ic. destruct s as [m tn c w rs th]. cbn in *. do 2 eexists. split; [eapply qs_return; eauto|].
    split; [exact Ic|]. exists t. cbn. rewrite E, tset_eq. split; discriminate.
Qed.
End Proofs.
