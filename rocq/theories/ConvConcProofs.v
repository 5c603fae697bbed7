(** Proofs about convx under concurrency. *)
From Verif Require Import Base Conc ConvModel ConvProofs ConvConcModel.

Section proofs.
Context {V : Type} (conv : nat -> V -> code V).
Notation step := (k_step conv).
Implicit Types (s : kstate V) (c : code V) (evs : list (kev V)).

(** *** the calls one at a time, as in the sequential model *)
Definition ev_reg (m : registry_of nat) (e : kev V) : registry_of nat :=
  match e with EvRegister _ T R f => register m T R f | EvUnregister _ T R => unregister m T R | _ => m end.
Definition reg_after evs : registry_of nat := fold_left ev_reg evs no_converters.
Definition ev_ok (m : registry_of nat) (e : kev V) : Prop :=
  match e with
  | EvFind _ T R d f => f = find_conv m T R d
  | EvInto _ T R d v f r => find_conv m T R d = Some f
  | EvExists _ T R b => b = exists_conv m T R
  | _ => True
  end.
Lemma reg_after_snoc evs e : reg_after (evs ++ [e]) = ev_reg (reg_after evs) e.
Proof. unfold reg_after. rewrite fold_left_app. reflexivity. Qed.

(** *** the lock *)
Definition held (x : thr V) : nat := length (t_in x) + match t_pc x with PRead _ | PRel _ => 1 | _ => 0 end.
Definition wr (p : kpc V) : bool := match p with PWait _ | PWrite _ | PTorn _ | PUnlock _ => true | _ => false end.
Definition excl (p : kpc V) : bool := match p with PWrite _ | PTorn _ | PUnlock _ => true | _ => false end.
Definition wf_pc (p : kpc V) : Prop :=
  match p with PRead c => is_read c = true | PWait c | PWrite c | PTorn c => is_write c = true | _ => True end.
Notation occ t rs := (count_occ Nat.eq_dec rs t).
Lemma occ_cons t u rs : occ t (u :: rs) = (if decide (u = t) then 1 else 0) + occ t rs.
Proof. cbn [count_occ]. destruct (Nat.eq_dec u t), (decide (u = t)); lia. Qed.
Lemma occ_drop t u rs : 0 < occ u rs -> occ t (drop_reader u rs) + (if decide (u = t) then 1 else 0) = occ t rs.
Proof.
  induction rs as [|r rs IH]; [cbn; lia|]. rewrite occ_cons. intros H. cbn [drop_reader]. destruct (decide (r = u)) as [->|Hr].
  - rewrite occ_cons. lia.
  - rewrite !occ_cons. specialize (IH ltac:(lia)). lia.
Qed.
Lemma occ_nil_all rs : (forall t, occ t rs = 0) -> rs = [].
Proof. destruct rs as [|r rs]; [reflexivity|]. intros H. specialize (H r). rewrite occ_cons, decide_True in H by reflexivity. lia. Qed.

Record inv s : Prop := Inv_ {
  i_held : forall t, occ t (k_readers s) = held (k_th s t);
  i_pend : forall t, wr (t_pc (k_th s t)) = true <-> k_pend s = Some t;
  i_excl : forall t, excl (t_pc (k_th s t)) = true -> k_readers s = [];
  i_torn : k_torn s = true -> exists t c, t_pc (k_th s t) = PTorn c;
  i_crash : k_crash s = false;
  i_wf : forall t, wf_pc (t_pc (k_th s t));
  i_found : forall t, Forall (fun g => find_conv (k_reg s) (fr_T g) (fr_R g) (fr_dyn g) = Some (fr_f g)) (t_in (k_th s t)) }.

Lemma inv_init main : inv (k_init main).
Proof. constructor; cbn; done. Qed.

Ltac cases u t := match goal with |- context [tset ?f t ?p u] => destruct (tset_cases f t p u) as [[-> ->]|[? ->]] end.

Lemma inv_step s l s' : inv s -> step s l s' -> inv s'.
Proof.
  intros [Hh Hp He Ht Hc Hw Hf] HS.
  assert (NT : forall t, excl (t_pc (k_th s t)) = true -> forall u, t_in (k_th s u) = []).
  { intros t H u. specialize (Hh u). rewrite (He t H) in Hh. cbn in Hh. unfold held in Hh. destruct (t_in (k_th s u)); [reflexivity|cbn in Hh; lia]. }
  destruct HS; cbn [k_reg k_torn k_crash k_pend k_readers k_th] in *;
    try (pose proof (Hh t) as Hht; pose proof (Hp t) as Hpt; pose proof (He t) as Het; pose proof (Hw t) as Hwt; pose proof (Hf t) as Hft;
         match goal with E : _ = Thr _ _ |- _ => rewrite E in Hht, Hpt, Het, Hwt, Hft; cbn [t_pc t_in held wr excl wf_pc length] in Hht, Hpt, Het, Hwt, Hft end).
  - (* rlock *)
    constructor; cbn [k_reg k_torn k_crash k_pend k_readers k_th]; [..|intros u; cases u t; [exact Hft|apply Hf]].
    + intros u. rewrite occ_cons. cases u t; [rewrite decide_True by reflexivity|rewrite decide_False by congruence; apply Hh]. rewrite Hht. unfold held; cbn. lia.
    + intros u. cases u t; [cbn; split; discriminate|apply Hp].
    + intros u. cases u t; [discriminate|]. intros Hx. exfalso. assert (wr (t_pc (th u)) = true) as Hy by (destruct (t_pc (th u)); cbn in *; congruence). apply Hp in Hy. discriminate.
    + intros Hx. destruct (Ht Hx) as (u & c' & Hu). exists u, c'. cases u t; [rewrite H in Hu; discriminate Hu|exact Hu].
    + exact Hc.
    + intros u. cases u t; [assumption|apply Hw].
  - (* exists *)
    constructor; cbn [k_reg k_torn k_crash k_pend k_readers k_th]; [..|intros u; cases u t; [exact Hft|apply Hf]]; try done.
    + intros u. cases u t; [rewrite Hht; unfold held; cbn; lia|apply Hh].
    + intros u. cases u t; [exact Hpt|apply Hp].
    + intros u. cases u t; [exact Het|apply He].
    + intros u. cases u t; [exact I|apply Hw].
  - (* miss *)
    constructor; cbn [k_reg k_torn k_crash k_pend k_readers k_th]; [..|intros u; cases u t; [exact Hft|apply Hf]]; try done.
    + intros u. cases u t; [rewrite Hht; unfold held; cbn; lia|apply Hh].
    + intros u. cases u t; [exact Hpt|apply Hp].
    + intros u. cases u t; [exact Het|apply He].
    + intros u. cases u t; [exact I|apply Hw].
  - (* hit *)
    constructor; cbn [k_reg k_torn k_crash k_pend k_readers k_th]; [..|intros u; cases u t; [constructor; [assumption|exact Hft]|apply Hf]]; try done.
    + intros u. cases u t; [rewrite Hht; unfold held; cbn; lia|apply Hh].
    + intros u. cases u t; [exact Hpt|apply Hp].
    + intros u. cases u t; [exact Het|apply He].
    + intros u. cases u t; [exact I|apply Hw].
  - (* ret *)
    constructor; cbn [k_reg k_torn k_crash k_pend k_readers k_th]; [..|intros u; cases u t; [inversion Hft; assumption|apply Hf]]; try done.
    + intros u. cases u t; [rewrite Hht; unfold held; cbn; lia|apply Hh].
    + intros u. cases u t; [exact Hpt|apply Hp].
    + intros u. cases u t; [exact Het|apply He].
    + intros Hx. destruct (Ht Hx) as (u & c' & Hu). exists u, c'. cases u t; [rewrite H in Hu; discriminate Hu|exact Hu].
    + intros u. cases u t; [exact I|apply Hw].
  - (* panic *)
    constructor; cbn [k_reg k_torn k_crash k_pend k_readers k_th]; [..|intros u; cases u t; [inversion Hft; assumption|apply Hf]]; try done.
    + intros u. cases u t; [rewrite Hht; unfold held; cbn; lia|apply Hh].
    + intros u. cases u t; [exact Hpt|apply Hp].
    + intros u. cases u t; [exact Het|apply He].
    + intros Hx. destruct (Ht Hx) as (u & c' & Hu). exists u, c'. cases u t; [rewrite H in Hu; discriminate Hu|exact Hu].
    + intros u. cases u t; [exact I|apply Hw].
  - (* runlock *)
    assert (0 < occ t rs) as Hpos by (rewrite Hht; unfold held; cbn; lia).
    constructor; cbn [k_reg k_torn k_crash k_pend k_readers k_th]; [..|intros u; cases u t; [exact Hft|apply Hf]]; try done.
    + intros u. pose proof (occ_drop u t rs Hpos) as Ho. cases u t; [rewrite decide_True in Ho by reflexivity; unfold held in *; cbn in *; lia|].
      rewrite decide_False in Ho by congruence. rewrite <- Hh. lia.
    + intros u. cases u t; [exact Hpt|apply Hp].
    + intros u. cases u t; [discriminate|]. intros Hx. rewrite (He u Hx). reflexivity.
    + intros Hx. destruct (Ht Hx) as (u & c' & Hu). exists u, c'. cases u t; [rewrite H in Hu; discriminate Hu|exact Hu].
    + intros u. cases u t; [exact I|apply Hw].
  - (* announce *)
    constructor; cbn [k_reg k_torn k_crash k_pend k_readers k_th]; [..|intros u; cases u t; [exact Hft|apply Hf]]; try done.
    + intros u. cases u t; [rewrite Hht; unfold held; cbn; lia|apply Hh].
    + intros u. cases u t; [cbn; tauto|]. rewrite Hp. split; congruence.
    + intros u. cases u t; [discriminate|apply He].
    + intros Hx. destruct (Ht Hx) as (u & c' & Hu). exists u, c'. cases u t; [rewrite H in Hu; discriminate Hu|exact Hu].
    + intros u. cases u t; [assumption|apply Hw].
  - (* lock *)
    constructor; cbn [k_reg k_torn k_crash k_pend k_readers k_th]; [..|intros u; cases u t; [exact Hft|apply Hf]]; try done.
    + intros u. cases u t; [rewrite Hht; unfold held; cbn; lia|apply Hh].
    + intros u. cases u t; [exact Hpt|apply Hp].
    + intros Hx. destruct (Ht Hx) as (u & c' & Hu). exists u, c'. cases u t; [rewrite H in Hu; discriminate Hu|exact Hu].
    + intros u. cases u t; [assumption|apply Hw].
  - (* write *)
    constructor; cbn [k_reg k_torn k_crash k_pend k_readers k_th]; [..|intros u; cases u t; [exact Hft|apply Hf]]; try done.
    + intros u. cases u t; [rewrite Hht; unfold held; cbn; lia|apply Hh].
    + intros u. cases u t; [exact Hpt|apply Hp].
    + intros u. cases u t; [exact Het|apply He].
    + intros _. exists t, c. rewrite tset_eq. reflexivity.
    + intros u. cases u t; [assumption|apply Hw].
  - (* register *)
    assert (HN := NT t ltac:(rewrite H; reflexivity)).
    constructor; cbn [k_reg k_torn k_crash k_pend k_readers k_th]; try done.
    + intros u. cases u t; [rewrite Hht; unfold held; cbn; lia|apply Hh].
    + intros u. cases u t; [exact Hpt|apply Hp].
    + intros u. cases u t; [exact Het|apply He].
    + intros u. cases u t; [exact I|apply Hw].
    + intros u. cases u t; [cbn; specialize (HN t); rewrite H in HN; cbn in HN; rewrite HN; constructor|rewrite HN; constructor].
  - (* unregister *)
    assert (HN := NT t ltac:(rewrite H; reflexivity)).
    constructor; cbn [k_reg k_torn k_crash k_pend k_readers k_th]; try done.
    + intros u. cases u t; [rewrite Hht; unfold held; cbn; lia|apply Hh].
    + intros u. cases u t; [exact Hpt|apply Hp].
    + intros u. cases u t; [exact Het|apply He].
    + intros u. cases u t; [exact I|apply Hw].
    + intros u. cases u t; [cbn; specialize (HN t); rewrite H in HN; cbn in HN; rewrite HN; constructor|rewrite HN; constructor].
  - (* unlock *)
    assert (p = Some t) as -> by (apply Hpt; reflexivity).
    constructor; cbn [k_reg k_torn k_crash k_pend k_readers k_th]; [..|intros u; cases u t; [exact Hft|apply Hf]]; try done.
    + intros u. cases u t; [rewrite Hht; unfold held; cbn; lia|apply Hh].
    + intros u. cases u t; [cbn; split; discriminate|]. rewrite Hp. split; congruence.
    + intros u. cases u t; [discriminate|apply He].
    + intros Hx. destruct (Ht Hx) as (u & c' & Hu). exists u, c'. cases u t; [rewrite H in Hu; discriminate Hu|exact Hu].
    + intros u. cases u t; [exact I|apply Hw].
  - (* race *)
    exfalso. destruct (Ht eq_refl) as (u & c' & Hu). assert (excl (t_pc (th u)) = true) as Hx by (rewrite Hu; reflexivity).
    assert (p = Some u) as Hpu by (apply Hp; rewrite Hu; reflexivity).
    destruct H as [H|H].
    + specialize (He u Hx). specialize (Hh t). rewrite He, H in Hh. unfold held in Hh; cbn in Hh. lia.
    + assert (p = Some t) by (apply Hp; rewrite H; reflexivity). assert (u = t) as -> by congruence. rewrite H in Hu. discriminate.
Qed.
Lemma inv_reach main s : reach (k_init main) step s -> inv s.
Proof. apply reach_invariant; [apply inv_init|apply inv_step]. Qed.
Lemma inv_steps s ls s' : inv s -> steps step s ls s' -> inv s'.
Proof. intros H. apply (steps_invariant s step inv H inv_step). Qed.

(** *** atomicity *)
Notation events ls := (omap id ls).
Lemma events_snoc (ls : list (option (kev V))) l : events (ls ++ [l]) = events ls ++ match l with Some e => [e] | None => [] end.
Proof. rewrite omap_app. destruct l; reflexivity. Qed.
Lemma step_event s l s' : inv s -> step s l s' ->
  match l with Some e => ev_ok (k_reg s) e /\ k_reg s' = ev_reg (k_reg s) e | None => k_reg s' = k_reg s end.
Proof.
  intros HI HS. destruct HS; cbn [k_reg ev_ok ev_reg]; try done.
  - split; [|reflexivity]. pose proof (i_found _ HI t) as HF. cbn [k_th k_reg] in HF. rewrite H in HF. inversion HF; subst. assumption.
Qed.
Lemma atomic main ls s : steps step (k_init main) ls s ->
  k_reg s = reg_after (events ls) /\ forall pre e post, events ls = pre ++ e :: post -> ev_ok (reg_after pre) e.
Proof.
  intros H. cut (inv s /\ k_reg s = reg_after (events ls) /\ forall pre e post, events ls = pre ++ e :: post -> ev_ok (reg_after pre) e); [tauto|].
  revert ls s H. apply (steps_trace_invariant (k_init main) step (fun ls s => inv s /\ k_reg s = reg_after (events ls) /\ forall pre e post, events ls = pre ++ e :: post -> ev_ok (reg_after pre) e)).
  - split; [apply inv_init|]. split; [reflexivity|]. intros [|] ? ? E; discriminate.
  - intros ls s l s' _ (HI & HR & HE) HS. split; [eapply inv_step; eauto|]. pose proof (step_event _ _ _ HI HS) as HX. rewrite events_snoc. destruct l as [e|].
    + destruct HX as [HX1 HX2]. rewrite HR in HX1, HX2. rewrite reg_after_snoc. split; [exact HX2|].
      intros pre e' post E. destruct post as [|q post] using rev_ind.
      * apply app_inj_2 in E as [E1 E2]; [|reflexivity]. injection E2 as <-. subst pre. exact HX1.
      * clear IHpost. rewrite app_comm_cons, app_assoc in E. apply app_inj_2 in E as [E1 E2]; [|reflexivity]. eapply HE. exact E1.
    + rewrite app_nil_r. rewrite HX. split; [exact HR|exact HE].
Qed.

(** *** programs whose types are all concrete: the latest registration *)
Inductive concrete : code V -> Prop :=
| cc_ret v : concrete (KRet v)
| cc_panic : concrete KPanic
| cc_into T R v k : g_iface T = false -> g_iface R = false -> (forall r, concrete (k r)) -> concrete (KInto T R (Some T) v k)
| cc_exists T R k : g_iface T = false -> g_iface R = false -> (forall r, concrete (k r)) -> concrete (KExists T R k)
| cc_register T R f k : g_iface T = false -> g_iface R = false -> concrete k -> concrete (KRegister T R f k)
| cc_unregister T R k : g_iface T = false -> g_iface R = false -> concrete k -> concrete (KUnregister T R k).
Definition pc_code (p : kpc V) : code V := match p with PRun c | PRead c | PRel c | PWait c | PWrite c | PTorn c | PUnlock c => c end.
Definition concrete_frame (g : frame V) : Prop := g_iface (fr_T g) = false /\ g_iface (fr_R g) = false /\ fr_dyn g = Some (fr_T g) /\ forall r, concrete (fr_k g r).
Definition concrete_thr (x : thr V) : Prop := concrete (pc_code (t_pc x)) /\ Forall concrete_frame (t_in x).
Definition concrete_ev (e : kev V) : Prop :=
  match e with
  | EvFind _ T R d _ | EvInto _ T R d _ _ _ => g_iface T = false /\ g_iface R = false /\ d = Some T
  | EvExists _ T R _ | EvRegister _ T R _ | EvUnregister _ T R => g_iface T = false /\ g_iface R = false
  end.
Lemma concrete_step s l s' : (forall f v, concrete (conv f v)) -> (forall t, concrete_thr (k_th s t)) -> step s l s' ->
  (forall t, concrete_thr (k_th s' t)) /\ match l with Some e => concrete_ev e | None => True end.
Proof.
  intros HC HT HS.
  destruct HS; cbn [k_th concrete_ev] in *;
    try (pose proof (HT t) as Ht; match goal with E : _ = Thr _ _ |- _ => rewrite E in Ht end; destruct Ht as [Ht1 Ht2]; cbn [t_pc t_in pc_code] in Ht1, Ht2);
    (split; [try (intros u; cases u t; [|apply HT])|]).
  all: try done.
  all: try (inversion Ht1; subst; split; cbn [t_pc t_in pc_code]; auto; fail).
  all: try (inversion Ht1; subst; auto; fail).
  all: try (inversion Ht2 as [|? ? (Hf1 & Hf2 & Hf3 & Hf4) Hf5]; subst; cbn [fr_T fr_R fr_dyn fr_k] in *; split; cbn [t_pc t_in pc_code]; auto; constructor; fail).
  all: try (inversion Ht1; subst; split; cbn [t_pc t_in pc_code]; [apply HC|constructor; [unfold concrete_frame; cbn; auto|assumption]]).
  all: try (inversion Ht2 as [|? ? (Hf1 & Hf2 & Hf3 & Hf4) Hf5]; subst; cbn [fr_T fr_R fr_dyn fr_k] in *; auto).
Qed.
(** the converter registered last for the pair *)
Fixpoint latest (T R : gty) (rev_evs : list (kev V)) : option nat :=
  match rev_evs with
  | [] => None
  | EvRegister _ T' R' f :: es => if decide (T' = T /\ R' = R) then Some f else latest T R es
  | EvUnregister _ T' R' :: es => if decide (T' = T /\ R' = R) then None else latest T R es
  | _ :: es => latest T R es
  end.
Lemma look_latest evs T R : Forall concrete_ev evs -> g_iface T = false -> g_iface R = false ->
  look (reg_after evs) (Some T) (Some R) = match latest T R (rev evs) with Some f => Some (Entry T R f) | None => None end.
Proof.
  intros HE HT HR. induction evs as [|e evs IH] using rev_ind; [reflexivity|].
  apply Forall_app in HE as [HE1 HE2]. apply Forall_cons in HE2 as [HE2 _]. specialize (IH HE1).
  rewrite reg_after_snoc, rev_app_distr. cbn [rev app]. destruct e; cbn [ev_reg latest concrete_ev] in *; try exact IH.
  - destruct HE2 as [H1 H2]. rewrite look_register, IH, (key_concrete T0 H1), (key_concrete R0 H2). clear IH.
    destruct (decide (T0 = T /\ R0 = R)) as [[-> ->]|N]; [rewrite decide_True by tauto; reflexivity|].
    rewrite decide_False; [reflexivity|]. intros [E1 E2]. apply N. split; congruence.
  - destruct HE2 as [H1 H2]. rewrite look_unregister, IH, (key_concrete T0 H1), (key_concrete R0 H2). clear IH.
    destruct (decide (T0 = T /\ R0 = R)) as [[-> ->]|N]; [rewrite decide_True by tauto; reflexivity|].
    rewrite decide_False; [reflexivity|]. intros [E1 E2]. apply N. split; congruence.
Qed.
Lemma find_latest evs T R : Forall concrete_ev evs -> g_iface T = false -> g_iface R = false ->
  find_conv (reg_after evs) T R (Some T) = latest T R (rev evs).
Proof.
  intros HE HT HR. rewrite find_look, (key_concrete R HR), (look_latest _ _ _ HE HT HR).
  destruct (latest T R (rev evs)); [|reflexivity]. cbn [e_from e_to e_fn]. rewrite !decide_True by reflexivity. reflexivity.
Qed.
Lemma exists_latest evs T R : Forall concrete_ev evs -> g_iface T = false -> g_iface R = false ->
  exists_conv (reg_after evs) T R = match latest T R (rev evs) with Some _ => true | None => false end.
Proof.
  intros HE HT HR. rewrite exists_look, (key_concrete R HR), (key_concrete T HT), (look_latest _ _ _ HE HT HR). destruct (latest T R (rev evs)); reflexivity.
Qed.
Lemma concrete_steps main ls s : (forall f v, concrete (conv f v)) -> (forall t, concrete (main t)) ->
  steps step (k_init main) ls s -> (forall t, concrete_thr (k_th s t)) /\ Forall concrete_ev (events ls).
Proof.
  intros HC HM. revert ls s. apply (steps_trace_invariant (k_init main) step (fun ls s => (forall t, concrete_thr (k_th s t)) /\ Forall concrete_ev (events ls))).
  - split; [|constructor]. intros t. split; [apply HM|constructor].
  - intros ls s l s' _ [H1 H2] HS. destruct (concrete_step _ _ _ HC H1 HS) as [H3 H4]. split; [exact H3|]. rewrite events_snoc. apply Forall_app. split; [exact H2|].
    destruct l; [constructor; [exact H4|constructor]|constructor].
Qed.

(** *** converters that only compute: the value Into answers *)
Lemma leaf_step g s l s' : (forall f v, conv f v = KRet (g f v)) ->
  (forall t h fs, t_in (k_th s t) = h :: fs -> fs = [] /\ t_pc (k_th s t) = PRun (KRet (g (fr_f h) (fr_v h)))) -> step s l s' ->
  (forall t h fs, t_in (k_th s' t) = h :: fs -> fs = [] /\ t_pc (k_th s' t) = PRun (KRet (g (fr_f h) (fr_v h)))) /\
  match l with Some (EvInto _ _ _ _ v f r) => r = g f v | _ => True end.
Proof.
  intros HC HT HS. destruct HS; cbn [k_th] in *;
    (split; [try (intros u h fs; cases u t; [|apply HT]); cbn [t_in t_pc]; try (pose proof (HT t) as Ht; rewrite H in Ht; cbn [t_in t_pc] in Ht)|]); try done.
  all: try (intros ->; destruct (Ht _ _ eq_refl) as [? ?]; congruence).
  all: try (intros ->; destruct (Ht _ _ eq_refl) as [? [= ->]]; discriminate).
  - intros E. injection E as <- <-. split; [|cbn; rewrite HC; reflexivity]. destruct fr as [|h' fr]; [reflexivity|]. destruct (Ht _ _ eq_refl). discriminate.
  - destruct (HT t _ _ ltac:(rewrite H; reflexivity)) as [_ E]. rewrite H in E. cbn in E. injection E as ->. reflexivity.
Qed.
Lemma leaf_steps g main ls s : (forall f v, conv f v = KRet (g f v)) -> steps step (k_init main) ls s ->
  forall t T R d v f r, EvInto t T R d v f r ∈ events ls -> r = g f v.
Proof.
  intros HC H. cut ((forall t h fs, t_in (k_th s t) = h :: fs -> fs = [] /\ t_pc (k_th s t) = PRun (KRet (g (fr_f h) (fr_v h)))) /\
    forall t T R d v f r, EvInto t T R d v f r ∈ events ls -> r = g f v); [tauto|].
  revert ls s H. apply (steps_trace_invariant (k_init main) step (fun ls s => (forall t h fs, t_in (k_th s t) = h :: fs -> fs = [] /\ t_pc (k_th s t) = PRun (KRet (g (fr_f h) (fr_v h)))) /\
    forall t T R d v f r, EvInto t T R d v f r ∈ events ls -> r = g f v)).
  - split; [discriminate|]. intros * E. cbn in E. inversion E.
  - intros ls s l s' _ [H1 H2] HS. destruct (leaf_step g _ _ _ HC H1 HS) as [H3 H4]. split; [exact H3|]. intros t T R d v f r. rewrite events_snoc, elem_of_app.
    intros [E|E]; [eapply H2; exact E|]. destruct l as [e|]; [|inversion E]. apply elem_of_list_singleton in E. subst e. exact H4.
Qed.

(** *** deadlock *)
Definition is_call (c : code V) : bool := is_read c || is_write c.
(** a writer waits for u, which holds a read lock and is the writer itself, or waits for
    the writer *)
Definition dead (w u : nat) s : Prop :=
  k_pend s = Some w /\ (exists c, t_pc (k_th s w) = PWait c) /\ t_in (k_th s u) <> [] /\ (u = w \/ exists c, t_pc (k_th s u) = PRun c /\ is_call c = true).
Lemma held_reader s u : inv s -> t_in (k_th s u) <> [] -> k_readers s <> [].
Proof. intros HI HN E. pose proof (i_held _ HI u) as Hh. rewrite E in Hh. cbn in Hh. unfold held in Hh. destruct (t_in (k_th s u)); [done|cbn in Hh; lia]. Qed.
Lemma dead_step w u s l s' : inv s -> dead w u s -> step s l s' ->
  dead w u s' /\ k_reg s' = k_reg s /\ k_th s' w = k_th s w /\ k_th s' u = k_th s u /\
  forall v c, t_pc (k_th s v) = PRun c -> is_call c = true -> k_th s' v = k_th s v.
Proof.
  intros HI (HP & (cw & Hw) & Hu & HD) HS. pose proof (held_reader _ _ HI Hu) as HR.
  (* only the goroutines that hold the read lock without waiting can still move *)
  assert (HM : exists t x, k_th s' = tset (k_th s) t x /\ k_pend s' = Some w /\ k_reg s' = k_reg s /\ t <> w /\ (forall c, t_pc (k_th s t) = PRun c -> is_call c = false) \/
                           k_th s' = k_th s /\ k_pend s' = Some w /\ k_reg s' = k_reg s).
  { assert (HX : forall t, excl (t_pc (k_th s t)) = true -> False) by (intros t Hx; apply HR, (i_excl _ HI t Hx)).
    assert (HW : forall t, wr (t_pc (k_th s t)) = true -> t = w) by (intros t Hx; apply (i_pend _ HI) in Hx; congruence).
    destruct HS; cbn [k_th k_pend k_reg k_readers] in *; try discriminate.
    all: try (eexists t, _; left; split; [reflexivity|]; split; [exact HP|]; split; [reflexivity|]; rewrite H; cbn [t_pc];
      split; [intros ->; rewrite H in Hw; discriminate|congruence || (intros ? [= <-]; reflexivity)]).
    - exfalso. apply HR. reflexivity.
    - exfalso. apply (HX t). rewrite H. reflexivity.
    - exfalso. apply (HX t). rewrite H. reflexivity.
    - exfalso. apply (HX t). rewrite H. reflexivity.
    - exists t, (th t). right. auto. }
  destruct HM as (t & x & [(E1 & E2 & E3 & E4 & E5)|(E1 & E2 & E3)]).
  - assert (Hkeep : forall v c, t_pc (k_th s v) = PRun c -> is_call c = true -> k_th s' v = k_th s v).
    { intros v c Hv Hc. rewrite E1. apply tset_ne. intros ->. rewrite (E5 _ Hv) in Hc. discriminate. }
    assert (Ew : k_th s' w = k_th s w) by (rewrite E1; apply tset_ne; congruence).
    assert (Eu : k_th s' u = k_th s u) by (destruct HD as [->|(c & Hc1 & Hc2)]; [exact Ew|eapply Hkeep; eauto]).
    split; [|auto]. split; [exact E2|]. rewrite Ew, Eu. eauto.
  - rewrite E1. split; [|auto]. split; [exact E2|]. rewrite E1. eauto.
Qed.
Lemma dead_forever w u s ls s' : inv s -> dead w u s -> steps step s ls s' ->
  dead w u s' /\ k_reg s' = k_reg s /\ k_th s' w = k_th s w /\ k_th s' u = k_th s u /\
  forall v c, t_pc (k_th s v) = PRun c -> is_call c = true -> k_th s' v = k_th s v.
Proof.
  intros HI HD H. induction H as [|s ls s1 l s2 H IH HS]; [split; [exact HD|]; auto|].
  destruct (IH HI HD) as (D1 & D2 & D3 & D4 & D5). destruct (dead_step w u s1 l s2 (inv_steps _ _ _ HI H) D1 HS) as (F1 & F2 & F3 & F4 & F5).
  split; [exact F1|]. split; [congruence|]. split; [congruence|]. split; [congruence|]. intros v c Hv Hc. rewrite <- (D5 v c Hv Hc). apply (F5 v c); [|exact Hc]. rewrite (D5 v c Hv Hc). exact Hv.
Qed.
(** a converter that calls Register or Unregister never gets past that call *)
Lemma reentrant_write s ls s' t c fr : inv s -> k_th s t = Thr (PRun c) fr -> fr <> [] -> is_write c = true -> steps step s ls s' ->
  k_th s' t = Thr (PRun c) fr \/ k_th s' t = Thr (PWait c) fr.
Proof.
  intros HI HT HF HW H. induction H as [|s ls s1 l s2 H IH HS]; [auto|].
  specialize (IH HI HT). pose proof (inv_steps _ _ _ HI H) as HI1. clear HI HT H.
  assert (HR : k_readers s1 <> []) by (apply (held_reader s1 t HI1); destruct IH as [-> | ->]; exact HF).
  destruct HS; cbn [k_th k_readers] in *; try exact IH;
    (destruct (decide (t = t0)) as [->|Hne]; [|rewrite tset_ne by exact Hne; exact IH]);
    rewrite H in IH; destruct IH as [IH|IH]; try discriminate IH; injection IH as ? ?; subst.
  - destruct c; discriminate.
  - discriminate.
  - discriminate.
  - rewrite tset_eq. auto.
  - done.
Qed.

(** *** no deadlock *)
Definition finished (x : thr V) : Prop := t_in x = [] /\ exists c, t_pc x = PRun c /\ is_call c = false.
Definition only_computes : Prop := forall f v, exists r, conv f v = KRet r \/ conv f v = KPanic.
Definition computing s : Prop := forall t h fs, t_in (k_th s t) = h :: fs -> fs = [] /\ exists c, t_pc (k_th s t) = PRun c /\ is_call c = false.
Lemma computing_step s l s' : only_computes -> computing s -> step s l s' -> computing s'.
Proof.
  intros HC HT HS. unfold computing in *. destruct HS; cbn [k_th] in *; try exact HT;
    (intros u h fs; cases u t; [cbn [t_in t_pc]|apply HT]; pose proof (HT t) as Ht; rewrite H in Ht; cbn [t_in t_pc] in Ht; intros Hu).
  all: try (subst; destruct (Ht _ _ eq_refl) as (_ & c' & E1 & E2); first [discriminate|injection E1 as <-; destruct c; discriminate]).
  - injection Hu as <- <-. split; [|destruct (HC f v) as [r [-> | ->]]; eexists; split; reflexivity].
    destruct fr as [|h fr]; [reflexivity|]. destruct (Ht _ _ eq_refl) as (_ & c' & E1 & _). discriminate.
  - destruct (Ht _ _ eq_refl) as [-> _]. discriminate.
  - destruct (Ht _ _ eq_refl) as [-> _]. discriminate.
Qed.
Lemma progress_computing s t : inv s -> computing s -> ~ finished (k_th s t) -> exists l s', step s l s' /\ k_crash s' = false.
Proof.
  intros HI HC HN. destruct s as [m tn cr p rs th]. assert (cr = false) as -> by exact (i_crash _ HI).
  cbn [k_th] in HN.
  (* a goroutine that holds the read lock can move *)
  assert (HRd : forall u, u ∈ rs -> exists l s', step (KS m tn false p rs th) l s' /\ k_crash s' = false).
  { intros u Hu. assert (tn = false) as ->.
    { destruct tn; [|reflexivity]. exfalso. destruct (i_torn _ HI eq_refl) as (x & c & Hx). assert (rs = []) as -> by (apply (i_excl _ HI x); rewrite Hx; reflexivity). inversion Hu. }
    assert (0 < held (th u)) as Hh.
    { pose proof (i_held _ HI u) as Hh. cbn [k_readers k_th] in Hh. rewrite <- Hh. apply count_occ_In. apply elem_of_list_In. exact Hu. }
    pose proof (i_wf _ HI u) as Hwf. cbn [k_th] in Hwf. destruct (th u) as [q fr] eqn:Eu. destruct fr as [|h fr].
    - unfold held in Hh. cbn in Hh. destruct q as [c|c|c|c|c|c|c]; cbn in Hh; try lia.
      + destruct c; try discriminate Hwf; [destruct (find_conv m T R dyn) eqn:EF|]; eexists _, _; (split; [econstructor; eassumption|reflexivity]).
      + eexists _, _; (split; [eapply ks_runlock; eassumption|reflexivity]).
    - destruct (HC u h fr) as (-> & c & E1 & E2); [cbn; rewrite Eu; reflexivity|]. cbn [k_th] in E1. rewrite Eu in E1. cbn in E1. subst q.
      destruct h. destruct c; try discriminate E2; eexists _, _; (split; [econstructor; eassumption|reflexivity]). }
  assert (HT : p = None -> tn = false).
  { intros ->. destruct tn; [|reflexivity]. exfalso. destruct (i_torn _ HI eq_refl) as (x & c & Hx).
    assert (wr (t_pc (th x)) = true) as Hy by (cbn in Hx; rewrite Hx; reflexivity). apply (i_pend _ HI) in Hy. discriminate Hy. }
  destruct p as [w|].
  - assert (Hw : wr (t_pc (th w)) = true) by (apply (i_pend _ HI); reflexivity).
    pose proof (i_wf _ HI w) as Hwf. cbn [k_th] in Hwf. destruct (th w) as [q fr] eqn:Ew. cbn [t_pc] in *. destruct q as [c|c|c|c|c|c|c]; try discriminate Hw.
    + destruct rs as [|r rs]; [eexists _, _; (split; [eapply ks_lock; eassumption|reflexivity])|]. apply (HRd r). left.
    + assert (tn = false) as ->.
      { destruct tn; [|reflexivity]. exfalso. destruct (i_torn _ HI eq_refl) as (x & c' & Hx). assert (Some w = Some x) as [= <-] by (apply (i_pend _ HI); rewrite Hx; reflexivity).
        cbn in Hx. rewrite Ew in Hx. discriminate. }
      eexists _, _; (split; [eapply ks_write; eassumption|reflexivity]).
    + destruct c; try discriminate Hwf; eexists _, _; (split; [econstructor; eassumption|reflexivity]).
    + eexists _, _; (split; [eapply ks_unlock; eassumption|reflexivity]).
  - specialize (HT eq_refl) as ->.
    destruct (decide (0 < held (th t))) as [Hh|Hh].
    + apply (HRd t). pose proof (i_held _ HI t) as Hh'. cbn [k_readers k_th] in Hh'. rewrite <- Hh' in Hh. apply elem_of_list_In, (count_occ_In Nat.eq_dec). exact Hh.
    + destruct (th t) as [q fr] eqn:Et. unfold held in Hh. cbn in Hh. destruct fr; [|cbn in Hh; lia].
      assert (Hw : wr q = true -> False). { intros Hq. assert (None = Some t) by (apply (i_pend _ HI); cbn; rewrite Et; exact Hq). discriminate. }
      destruct q as [c|c|c|c|c|c|c]; cbn in Hh, Hw; try lia; try (exfalso; apply Hw; reflexivity).
      destruct c; try (exfalso; apply HN; split; [reflexivity|]; eexists; split; reflexivity);
        eexists _, _; (split; [first [eapply ks_rlock; [eassumption|reflexivity] | eapply ks_announce; [eassumption|reflexivity]]|reflexivity]).
Qed.
(** without writers, converters may call Into and Exists *)
Inductive reads_only : code V -> Prop :=
| ro_ret v : reads_only (KRet v)
| ro_panic : reads_only KPanic
| ro_into T R d v k : (forall r, reads_only (k r)) -> reads_only (KInto T R d v k)
| ro_exists T R k : (forall r, reads_only (k r)) -> reads_only (KExists T R k).
Definition reading s : Prop := k_pend s = None /\ forall t, reads_only (pc_code (t_pc (k_th s t))) /\ Forall (fun g => forall r, reads_only (fr_k g r)) (t_in (k_th s t)).
Lemma reading_step s l s' : (forall f v, reads_only (conv f v)) -> inv s -> reading s -> step s l s' -> reading s'.
Proof.
  intros HC HI [HP HR] HS. assert (HW : forall t, wr (t_pc (k_th s t)) = true -> False) by (intros t Hw; apply (i_pend _ HI) in Hw; congruence).
  destruct HS; cbn [k_pend k_th] in *; try (exfalso; apply (HW t); rewrite H; reflexivity);
    try (pose proof (HR t) as [Ht1 Ht2]; rewrite H in Ht1, Ht2; cbn [t_pc t_in pc_code] in Ht1, Ht2);
    try (split; [exact HP || reflexivity|intros u; cbn [k_th]; cases u t; [|apply HR]; cbn [t_pc t_in pc_code]]).
  all: try (inversion Ht1; subst; split; auto; fail).
  all: try (inversion Ht2; subst; cbn [fr_k] in *; split; auto; constructor; fail).
  all: try (inversion Ht1; subst; split; [apply HC|constructor; auto]; fail).
  - inversion Ht1; subst; discriminate.
  - split; [exact HP|exact HR].
Qed.
Lemma progress_reading s t : inv s -> reading s -> ~ finished (k_th s t) -> exists l s', step s l s' /\ k_crash s' = false.
Proof.
  intros HI [HP HR] HN. destruct s as [m tn cr p rs th]. assert (cr = false) as -> by exact (i_crash _ HI). cbn [k_pend k_th] in *. subst p.
  assert (tn = false) as ->.
  { destruct tn; [|reflexivity]. exfalso. destruct (i_torn _ HI eq_refl) as (x & c & Hx).
    assert (wr (t_pc (th x)) = true) as Hy by (cbn in Hx; rewrite Hx; reflexivity). apply (i_pend _ HI) in Hy. discriminate Hy. }
  pose proof (i_wf _ HI t) as Hwf. pose proof (HR t) as [H1 _]. cbn [k_th] in Hwf.
  assert (Hw : wr (t_pc (th t)) = true -> False). { intros Hq. apply (i_pend _ HI) in Hq. discriminate Hq. }
  destruct (th t) as [q fr] eqn:Et. cbn [t_pc pc_code] in *.
  destruct q as [c|c|c|c|c|c|c]; try (exfalso; apply Hw; reflexivity).
  - destruct c; cbn [pc_code] in H1; try (inversion H1; fail).
    + destruct fr as [|[] fr]; [exfalso; apply HN; split; [reflexivity|]; eexists; split; reflexivity|]. eexists _, _; (split; [eapply ks_ret; eassumption|reflexivity]).
    + destruct fr as [|[] fr]; [exfalso; apply HN; split; [reflexivity|]; eexists; split; reflexivity|]. eexists _, _; (split; [eapply ks_panic; eassumption|reflexivity]).
    + eexists _, _; (split; [eapply ks_rlock; [eassumption|reflexivity]|reflexivity]).
    + eexists _, _; (split; [eapply ks_rlock; [eassumption|reflexivity]|reflexivity]).
  - destruct c; try discriminate Hwf; [destruct (find_conv m T R dyn) eqn:EF|]; eexists _, _; (split; [econstructor; eassumption|reflexivity]).
  - eexists _, _; (split; [eapply ks_runlock; eassumption|reflexivity]).
Qed.
End proofs.
