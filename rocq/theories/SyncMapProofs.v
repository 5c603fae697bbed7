From stdpp Require Import gmap.
From Verif Require Import Base Conc Lin SyncMapModel.
Ltac cases u t := destruct (decide (u = t)) as [->|]; [rewrite ?tset_eq in *|rewrite ?tset_ne in * by assumption].

Section Proofs.
Context {K V : Type} `{Countable K} (zero : V).
Notation gomap := (gmap K V).
Notation mpc := (mpc K V).
Notation mstate := (mstate K V).
Notation tr_t := (list (lev (mop K V) (mret K V))).

Definition hr (p : mpc) : Prop :=
  match p with MHold o => is_write o = false | MIter _ _ _ _ => True | MRel o _ => is_write o = false | _ => False end.
Definition hw (p : mpc) : Prop :=
  match p with MHold o => is_write o = true | MWriting _ => True | MRel o _ => is_write o = true | _ => False end.
Definition pcok (s : mstate) (p : mpc) : Prop :=
  match p with
  | MIter o m0 rest dn => m0 = m_map s /\ dn ++ rest ≡ₚ map_to_list (m_map s) /\ iter_result o [] <> None
  | MWriting o => is_write o = true /\ m_torn s = true
  | _ => True
  end.
Definition ts (p : mpc) : tstate (mop K V) (mret K V) :=
  match p with
  | MIdle => TIdle
  | MWant o | MHold o | MIter o _ _ _ | MWriting o => TCalled o
  | MRel o r | MRet o r => TDone o r
  end.
Record minv (tr : tr_t) (s : mstate) : Prop := {
  iv_w : forall t, hw (m_th s t) <-> m_writer s = Some t;
  iv_r : forall t, hr (m_th s t) <-> t ∈ m_readers s;
  iv_x : m_writer s <> None -> m_readers s = [];
  iv_torn : m_torn s = true -> exists t o, m_th s t = MWriting o;
  iv_pc : forall t, pcok s (m_th s t);
  iv_crash : m_crash s = false;
  iv_seq : forall t, tseq t (proj t tr) (ts (m_th s t));
  iv_legal : legal (map_spec zero) ∅ tr (m_map s) }.

Lemma seq_none (tr : tr_t) (th : nat -> mpc) t p : (forall u, tseq u (proj u tr) (ts (th u))) -> ts p = ts (th t) ->
  forall u, tseq u (proj u tr) (ts (tset th t p u)).
Proof. intros Hs E u. cases u t; [rewrite E|]; apply Hs. Qed.
Lemma seq_some (tr : tr_t) (th : nat -> mpc) t p e : (forall u, tseq u (proj u tr) (ts (th u))) -> lev_thread e = t ->
  (forall l, tseq t l (ts (th t)) -> tseq t (l ++ [e]) (ts p)) ->
  forall u, tseq u (proj u (tr ++ [e])) (ts (tset th t p u)).
Proof.
  intros Hs Ht He u. rewrite proj_snoc. cases u t.
  - rewrite decide_True by exact Ht. apply He, Hs.
  - rewrite decide_False by congruence. apply Hs.
Qed.
(** while somebody reads, nobody is in the middle of a write *)
Lemma reader_no_torn tr s t : minv tr s -> hr (m_th s t) -> m_torn s = false.
Proof.
  intros I Hr. destruct (m_torn s) eqn:E; [|reflexivity]. destruct (iv_torn _ _ I E) as (u & o & Eu).
  assert (W : m_writer s = Some u) by (apply (iv_w _ _ I); rewrite Eu; exact Logic.I).
  apply (iv_r _ _ I) in Hr. rewrite (iv_x _ _ I) in Hr by congruence. inversion Hr.
Qed.
Lemma writer_alone tr s t : minv tr s -> hw (m_th s t) -> m_readers s = [] /\ forall u, u <> t -> ~ hw (m_th s u) /\ ~ hr (m_th s u).
Proof.
  intros I Hw. apply (iv_w _ _ I) in Hw. pose proof (iv_x _ _ I ltac:(congruence)) as Hx. split; [exact Hx|].
  intros u Hu. split.
  - rewrite (iv_w _ _ I). congruence.
  - rewrite (iv_r _ _ I), Hx. apply not_elem_of_nil.
Qed.
Lemma iter_not_write (o : mop K V) l : iter_result o l <> None -> is_write o = false.
Proof. destruct o; cbn; congruence. Qed.
Lemma iter_some (o : mop K V) l r : iter_result o l = Some r -> is_write o = false.
Proof. intros E. apply (iter_not_write o l). congruence. Qed.
Lemma read_not_write o (m : gomap) r : read_result zero o m = Some r -> is_write o = false /\ map_spec zero m o r m.
Proof. destruct o; cbn; try discriminate; intros E; injection E as <-; auto. Qed.

Lemma minv_step tr s e s' : minv tr s -> m_step zero s e s' -> minv (tr ++ (match e with Some x => [x] | None => [] end)) s'.
Proof.
  intros I HS. pose proof I as [Iw Ir Ix It Ip Ic Is Il].
  destruct HS as [m tn c w rs th t o E|m tn c rs th t o E Eo|m tn c th t o E Eo|m c w rs th t o r E Er|m c w rs th t o l E Ei El
    |m c w rs th t o p rest dn E|m m0 c w rs th t o rest rest' dn p Hne E|m tn c w rs th t o m0 dn r E Er|m c w rs th t o E Eo
    |m tn c w rs th t o m' E Ew|m c w rs th t o E|m tn c w rs th t o r E Eo|m tn c w rs th t o r E Eo|m tn c w rs th t o r E];
    cbn [m_map m_torn m_crash m_writer m_readers m_th] in *; subst; rewrite ?app_nil_r;
    try (pose proof (Iw t) as Iwt; pose proof (Ir t) as Irt; pose proof (Ip t) as Ipt; rewrite E in Iwt, Irt, Ipt; cbn [hw hr pcok] in Iwt, Irt, Ipt).
  - (* call *) split; cbn [m_map m_torn m_crash m_writer m_readers m_th]; auto.
    + intros u. cases u t; [exact Iwt|apply Iw].
    + intros u. cases u t; [exact Irt|apply Ir].
    + intros Et. destruct (It Et) as (u & o' & Eu). exists u, o'. cases u t; [congruence|exact Eu].
    + intros u. cases u t; [exact Logic.I|apply Ip].
    + apply seq_some; [exact Is|reflexivity|]. rewrite E. intros l Hl. apply tseq_inv, Hl.
    + apply legal_inv, Il.
  - (* rlock *) split; cbn [m_map m_torn m_crash m_writer m_readers m_th]; auto.
    + intros u. cases u t; [cbn; rewrite Eo; split; discriminate|apply Iw].
    + intros u. cases u t; [cbn; split; [left|auto]|]. rewrite Ir. split; [right; assumption|]. intros Hu. apply elem_of_cons in Hu as [Hu|Hu]; [congruence|exact Hu].
    + congruence.
    + intros Et. destruct (It Et) as (u & o' & Eu). exists u, o'. cases u t; [congruence|exact Eu].
    + intros u. cases u t; [exact Logic.I|apply Ip].
    + apply seq_none; [exact Is|rewrite E; reflexivity].
  - (* lock *) split; cbn [m_map m_torn m_crash m_writer m_readers m_th]; auto.
    + intros u. cases u t; [cbn; tauto|]. rewrite Iw. split; congruence.
    + intros u. cases u t; [cbn; rewrite Eo; split; [discriminate|intros Hn; inversion Hn]|apply Ir].
    + intros Et. destruct (It Et) as (u & o' & Eu). exists u, o'. cases u t; [congruence|exact Eu].
    + intros u. cases u t; [exact Logic.I|apply Ip].
    + apply seq_none; [exact Is|rewrite E; reflexivity].
  - (* read *) destruct (read_not_write o m r Er) as [Eo Esp]. rewrite Eo in *.
    split; cbn [m_map m_torn m_crash m_writer m_readers m_th]; auto.
    + intros u. cases u t; [cbn; rewrite Eo; exact Iwt|apply Iw].
    + intros u. cases u t; [cbn; rewrite Eo; exact Irt|apply Ir].
    + discriminate.
    + intros u. cases u t; [exact Logic.I|apply Ip].
    + apply seq_some; [exact Is|reflexivity|]. rewrite E. intros l Hl. apply tseq_lin, Hl.
    + eapply legal_lin; eauto.
  - (* range *) pose proof (iter_not_write o [] Ei) as Eo. rewrite Eo in *.
    split; cbn [m_map m_torn m_crash m_writer m_readers m_th]; auto.
    + intros u. cases u t; [cbn; split; [tauto|intros Hw; apply Iwt in Hw; discriminate]|apply Iw].
    + intros u. cases u t; [cbn; tauto|apply Ir].
    + discriminate.
    + intros u. cases u t; [cbn; auto|apply Ip].
    + apply seq_none; [exact Is|rewrite E; reflexivity].
  - (* next *) split; cbn [m_map m_torn m_crash m_writer m_readers m_th]; auto.
    + intros u. cases u t; [exact Iwt|apply Iw].
    + intros u. cases u t; [exact Irt|apply Ir].
    + discriminate.
    + intros u. cases u t; [|apply Ip]. cbn in *. destruct Ipt as (P1 & P2 & P3). rewrite <- app_assoc. auto.
    + apply seq_none; [exact Is|rewrite E; reflexivity].
  - (* stale: impossible *) exfalso. destruct Ipt as (P1 & _). cbn in P1. congruence.
  - (* range end *) pose proof (iter_some o dn r Er) as Eo. destruct Ipt as (P1 & P2 & _). cbn in P1, P2. rewrite app_nil_r in P2.
    split; cbn [m_map m_torn m_crash m_writer m_readers m_th]; auto.
    + intros u. cases u t; [cbn; rewrite Eo; split; [discriminate|intros Hw; apply Iwt in Hw; destruct Hw]|apply Iw].
    + intros u. cases u t; [cbn; tauto|apply Ir].
    + intros Et. destruct (It Et) as (u & o' & Eu). exists u, o'. cases u t; [congruence|exact Eu].
    + intros u. cases u t; [exact Logic.I|apply Ip].
    + apply seq_some; [exact Is|reflexivity|]. rewrite E. intros l Hl. apply tseq_lin, Hl.
    + eapply legal_lin; [exact Il|]. destruct o; cbn in Er |- *; try discriminate; injection Er as <-; (split; [|reflexivity]);
        eexists; (split; [reflexivity|]); apply fmap_Permutation; exact P2.
  - (* write begin *) destruct (writer_alone tr _ t I ltac:(cbn; rewrite E; exact Eo)) as [HR HA]. cbn in HR, HA. rewrite Eo in *.
    split; cbn [m_map m_torn m_crash m_writer m_readers m_th]; auto.
    + intros u. cases u t; [cbn; tauto|apply Iw].
    + intros u. cases u t; [cbn; split; [tauto|intros Hu; apply Irt in Hu; discriminate]|apply Ir].
    + intros _. exists t, o. apply tset_eq.
    + intros u. cases u t; [cbn; auto|]. specialize (Ip u). destruct (HA u ltac:(assumption)) as [H1 H2].
      destruct (th u); cbn in *; tauto.
    + apply seq_none; [exact Is|rewrite E; reflexivity].
  - (* write end *) destruct (writer_alone tr _ t I ltac:(cbn; rewrite E; exact Logic.I)) as [HR HA]. cbn in HR, HA. destruct Ipt as [Eo _].
    split; cbn [m_map m_torn m_crash m_writer m_readers m_th]; auto.
    + intros u. cases u t; [cbn; tauto|apply Iw].
    + intros u. cases u t; [cbn; rewrite Eo; split; [discriminate|intros Hu; apply Irt in Hu; tauto]|apply Ir].
    + discriminate.
    + intros u. cases u t; [exact Logic.I|]. destruct (HA u ltac:(assumption)) as [H1 H2]. destruct (th u); cbn in *; tauto.
    + apply seq_some; [exact Is|reflexivity|]. rewrite E. intros l Hl. apply tseq_lin, Hl.
    + eapply legal_lin; [exact Il|]. destruct o; cbn in *; try discriminate; injection Ew as <-; auto.
  - (* race: impossible *) exfalso. destruct (It eq_refl) as (u & o' & Eu).
    assert (Hu : hw (th u)) by (rewrite Eu; exact Logic.I).
    destruct (writer_alone tr _ u I Hu) as [HR HA]. cbn in HR, HA.
    destruct (decide (t = u)) as [->|Hn].
    + rewrite Eu in E. destruct E as [E|(m0 & p & rest & dn & E)]; discriminate.
    + destruct (HA t Hn) as [H1 H2]. destruct E as [E|(m0 & p & rest & dn & E)]; rewrite E in H1, H2; cbn in *; [destruct (is_write o); tauto|tauto].
  - (* runlock *) rewrite Eo in *. split; cbn [m_map m_torn m_crash m_writer m_readers m_th]; auto.
    + intros u. cases u t; [cbn; split; [tauto|intros Hw; apply Iwt in Hw; discriminate]|apply Iw].
    + intros u. rewrite elem_of_list_difference, elem_of_list_singleton. cases u t; [cbn; tauto|]. rewrite Ir. tauto.
    + intros Hw. apply Ix in Hw. rewrite Hw. reflexivity.
    + intros Et. destruct (It Et) as (u & o' & Eu). exists u, o'. cases u t; [congruence|exact Eu].
    + intros u. cases u t; [exact Logic.I|apply Ip].
    + apply seq_none; [exact Is|rewrite E; reflexivity].
  - (* unlock *) rewrite Eo in *. assert (Ew : w = Some t) by (apply Iwt; reflexivity). subst w.
    split; cbn [m_map m_torn m_crash m_writer m_readers m_th]; auto.
    + intros u. cases u t; [cbn; split; [tauto|discriminate]|]. rewrite Iw. split; congruence.
    + intros u. cases u t; [cbn; split; [tauto|intros Hu; apply Irt in Hu; discriminate]|apply Ir].
    + intros Et. destruct (It Et) as (u & o' & Eu). exists u, o'. cases u t; [congruence|exact Eu].
    + intros u. cases u t; [exact Logic.I|apply Ip].
    + apply seq_none; [exact Is|rewrite E; reflexivity].
  - (* return *) split; cbn [m_map m_torn m_crash m_writer m_readers m_th]; auto.
    + intros u. cases u t; [exact Iwt|apply Iw].
    + intros u. cases u t; [exact Irt|apply Ir].
    + intros Et. destruct (It Et) as (u & o' & Eu). exists u, o'. cases u t; [congruence|exact Eu].
    + intros u. cases u t; [exact Logic.I|apply Ip].
    + apply seq_some; [exact Is|reflexivity|]. rewrite E. intros l Hl. apply tseq_rsp, Hl.
    + apply legal_rsp, Il.
Qed.
Lemma minv_init : minv [] m_new.
Proof.
  split; cbn; auto; try discriminate.
  - intros t. split; [tauto|discriminate].
  - intros t. split; [tauto|intros Ht; inversion Ht].
  - intros t. constructor.
  - constructor.
Qed.
Definition events (ls : list (option (lev (mop K V) (mret K V)))) : tr_t := omap id ls.
Lemma minv_steps ls s : steps (m_step zero) m_new ls s -> minv (events ls) s.
Proof.
  apply (steps_trace_invariant m_new (m_step zero) (fun ls s => minv (events ls) s)); [exact minv_init|].
  clear. intros ls s l s' _ IH HS. pose proof (minv_step _ _ _ _ IH HS) as G. unfold events in *. rewrite omap_app. destruct l; exact G.
Qed.

(** some call can move as long as one is in progress *)
Lemma m_progress tr s t : minv tr s -> m_th s t <> MIdle -> exists e s', m_step zero s e s' /\ m_crash s' = false /\ exists u, m_th s u <> MIdle /\ m_th s' u <> m_th s u.
Proof.
  intros I Ht.
  assert (HH : forall u, hr (m_th s u) \/ hw (m_th s u) -> exists e s', m_step zero s e s' /\ m_crash s' = false /\ exists u, m_th s u <> MIdle /\ m_th s' u <> m_th s u).
  { intros u Hu.
    pose proof (iv_pc _ _ I u) as Ip. pose proof (fun H => reader_no_torn tr s u I H) as NT. pose proof (iv_crash _ _ I) as Ic.
    assert (NW : forall o, m_th s u = MHold o -> is_write o = true -> m_torn s = false).
    { intros o Eo Ew. destruct (m_torn s) eqn:Et; [|reflexivity]. destruct (iv_torn _ _ I Et) as (v & o' & Ev).
      assert (Hwv : m_writer s = Some v) by (apply (iv_w _ _ I); rewrite Ev; exact Logic.I).
      assert (Hwu : m_writer s = Some u) by (apply (iv_w _ _ I); rewrite Eo; exact Ew). congruence. }
    destruct s as [m tn c w rs th]. cbn in *.
    destruct (th u) as [|o|o|o m0 rest dn|o|o r|o r] eqn:E; cbn in *; try tauto.
    - destruct (is_write o) eqn:Eo.
      + rewrite (NW o eq_refl Eo) in *. do 2 eexists. split; [eapply ms_write_begin; eauto|]. split; [exact Ic|]. exists u. cbn. rewrite E, tset_eq. split; discriminate.
      + rewrite (NT eq_refl) in *. destruct (read_result zero o m) as [r|] eqn:Er.
        * do 2 eexists. split; [eapply ms_read; eauto|]. split; [exact Ic|]. exists u. cbn. rewrite E, tset_eq. split; discriminate.
        * do 2 eexists. split; [eapply ms_range; [exact E| |reflexivity]; destruct o; cbn in *; discriminate|]. split; [exact Ic|]. exists u. cbn. rewrite E, tset_eq. split; discriminate.
    - destruct Ip as (-> & P2 & Eo). rewrite (NT Logic.I) in *. destruct rest as [|p rest].
      + destruct (iter_result o dn) as [r|] eqn:Er.
        * do 2 eexists. split; [eapply ms_range_end; eauto|]. split; [exact Ic|]. exists u. cbn. rewrite E, tset_eq. split; discriminate.
        * exfalso. destruct o; cbn in *; congruence.
      + do 2 eexists. split; [eapply ms_next; eauto|]. split; [exact Ic|]. exists u. cbn. rewrite E, tset_eq. split; [discriminate|]. intros X. injection X as X1 X2. apply (f_equal length) in X1. cbn in X1. lia.
    - destruct Ip as [Eo ->]. destruct (write_result o m) as [m'|] eqn:Ew; [|destruct o; discriminate].
      do 2 eexists. split; [eapply ms_write_end; eauto|]. split; [exact Ic|]. exists u. cbn. rewrite E, tset_eq. split; discriminate.
    - destruct (is_write o) eqn:Eo; do 2 eexists; (split; [(eapply ms_unlock; eauto; fail) || (eapply ms_runlock; eauto; fail)|]);
        (split; [exact Ic|]); exists u; cbn; rewrite E, tset_eq; split; discriminate. }
  destruct (m_th s t) as [|o|o|o m0 rest dn|o|o r|o r] eqn:E; try congruence;
    try (apply (HH t); rewrite E; cbn; destruct (is_write o); auto; fail).
  - destruct (m_writer s) as [u|] eqn:Ew; [apply (HH u); right; apply (iv_w _ _ I); exact Ew|].
    destruct (m_readers s) as [|u rs] eqn:Er; [|apply (HH u); left; apply (iv_r _ _ I); rewrite Er; left].
    pose proof (iv_crash _ _ I) as Ic. destruct s as [m tn c w rs th]. cbn in *. subst.
    destruct (is_write o) eqn:Eo; do 2 eexists; (split; [(eapply ms_lock; eauto; fail) || (eapply ms_rlock; eauto; fail)|]);
      (split; [reflexivity|]); exists t; cbn; rewrite E, tset_eq; split; discriminate.
  - pose proof (iv_crash _ _ I) as Ic. destruct s as [m tn c w rs th]. cbn in *. do 2 eexists. split; [eapply ms_return; eauto|].
    split; [exact Ic|]. exists t. cbn. rewrite E, tset_eq. split; discriminate.
Qed.
End Proofs.
