(** CloseManagers inside of CloseManagers. *)
From Verif Require Import Base CloseModel CloseTreeModel.

Scheme mclose_mut := Induction for mclose Sort Prop
  with mloop_mut := Induction for mloop Sort Prop.

(** the closers below a list, in order; a closer or a manager that is there twice counts twice *)
Inductive lv (ls : nat -> list citem) : list citem -> list nat -> Prop :=
| lv_nil : lv ls [] []
| lv_leaf c its l : lv ls its l -> lv ls (ILeaf c :: its) (c :: l)
| lv_mgr m its l1 l2 : lv ls (ls m) l1 -> lv ls its l2 -> lv ls (IMgr m :: its) (l1 ++ l2).
(** the errors inside of an error *)
Fixpoint inside (e : err) : list nat := match e with EAtom n => [n] | EList l => flat_map inside l | EWrap e => inside e end.
Definition inside_opt (e : option err) : list nat := match e with Some e => inside e | None => [] end.
Definition is_mgr (i : citem) : bool := match i with IMgr _ => true | _ => false end.

Section props.
Context (ls : nat -> list citem) (oc : list (nat * option err) -> nat -> cout).
Notation close := (mclose ls oc).
Notation loop := (mloop ls oc).

(** C198: how Close ends, and what it has called, is determined *)
Theorem mtree_fun : forall held m log l1 o1, close held m log l1 o1 -> forall l2 o2, close held m log l2 o2 -> l1 = l2 /\ o1 = o2.
Proof.
  apply (mclose_mut ls oc (fun held m log l1 o1 _ => forall l2 o2, close held m log l2 o2 -> l1 = l2 /\ o1 = o2)
    (fun held its errs log l1 o1 _ => forall l2 o2, loop held its errs log l2 o2 -> l1 = l2 /\ o1 = o2)).
  - intros held m log Hm l2 o2 H. inversion H; subst; [auto|contradiction].
  - intros held m log log' o Hm HL IH l2 o2 H. inversion H; subst; [contradiction|auto].
  - intros held errs log l2 o2 H. inversion H; subst. auto.
  - intros held c its errs log log' o e E HL IH l2 o2 H. inversion H; subst; [|congruence]. assert (e = e0) by congruence. subst. auto.
  - intros held c its errs log p E l2 o2 H. inversion H; subst; [congruence|]. split; congruence.
  - intros held m its errs log log1 log' o e HC IH1 HL IH2 l2 o2 H. inversion H; subst; match goal with Q : mclose _ _ _ _ _ _ _ |- _ => destruct (IH1 _ _ Q) as [E1 E2] end; try discriminate E2. injection E2 as <-. subst. auto.
  - intros held m its errs log log1 p HC IH1 l2 o2 H. inversion H; subst; match goal with Q : mclose _ _ _ _ _ _ _ |- _ => destruct (IH1 _ _ Q) as [E1 E2] end; try discriminate E2. auto.
  - intros held m its errs log log1 HC IH1 l2 o2 H. inversion H; subst; match goal with Q : mclose _ _ _ _ _ _ _ |- _ => destruct (IH1 _ _ Q) as [E1 E2] end; try discriminate E2. auto.
Qed.

(** what is called, and what comes back, when the loop returns *)
Lemma mtree_loop : forall held its errs log log' o, loop held its errs log log' o ->
  exists new, log' = log ++ new /\ forall e, o = MORet e -> lv ls its new.*1 /\ exists es, e = EList (errs ++ es) /\
    flat_map inside es = flat_map inside_opt new.*2 /\ ((forall c x, (c, Some x) ∉ new) -> length es = length (filter (fun i => is_mgr i = true) its)).
Proof.
  apply (mloop_mut ls oc (fun held m log log' o _ => exists new, log' = log ++ new /\ forall e, o = MORet e -> lv ls (ls m) new.*1 /\ inside e = flat_map inside_opt new.*2)
    (fun held its errs log log' o _ => exists new, log' = log ++ new /\ forall e, o = MORet e -> lv ls its new.*1 /\ exists es, e = EList (errs ++ es) /\
    flat_map inside es = flat_map inside_opt new.*2 /\ ((forall c x, (c, Some x) ∉ new) -> length es = length (filter (fun i => is_mgr i = true) its)))).
  - intros held m log Hm. exists []. split; [rewrite app_nil_r; reflexivity|discriminate].
  - intros held m log log' o Hm HL (new & -> & IH). exists new. split; [reflexivity|]. intros e E. destruct (IH e E) as (V & es & -> & F & _). split; [exact V|exact F].
  - intros held errs log. exists []. split; [rewrite app_nil_r; reflexivity|]. intros e [= <-]. split; [constructor|]. exists []. rewrite app_nil_r. repeat split.
  - intros held c its errs log log' o e E HL (new & -> & IH). exists ((c, e) :: new). split; [rewrite <- app_assoc; reflexivity|]. intros x Ex. destruct (IH x Ex) as (V & es & -> & F & G). split; [constructor; exact V|].
    exists (option_list e ++ es). rewrite app_assoc. split; [reflexivity|]. split.
    + cbn. rewrite <- F. destruct e; cbn; [reflexivity|reflexivity].
    + intros N. rewrite app_length. destruct e as [y|]; [destruct (N c y); left|]. cbn. apply G. intros c' x' H. apply (N c' x'). right. exact H.
  - intros held c its errs log p E. exists [(c, None)]. split; [reflexivity|discriminate].
  - intros held m its errs log log1 log' o e HC (n1 & -> & IH1) HL (n2 & -> & IH2). exists (n1 ++ n2). split; [rewrite app_assoc; reflexivity|]. intros x Ex. destruct (IH1 e eq_refl) as [V1 F1]. destruct (IH2 x Ex) as (V2 & es & -> & F2 & G). rewrite !fmap_app. split; [constructor; assumption|].
    exists (e :: es). rewrite <- app_assoc. split; [reflexivity|]. split; [cbn; rewrite flat_map_app, F1, F2; reflexivity|].
    intros N. cbn. rewrite G; [reflexivity|]. intros c x' H. apply (N c x'). apply elem_of_app. right. exact H.
  - intros held m its errs log log1 p HC (new & -> & _). exists new. split; [reflexivity|discriminate].
  - intros held m its errs log log1 HC (new & -> & _). exists new. split; [reflexivity|discriminate].
Qed.
(** C198: when Close of a manager returns, it has called the closers below it, in order,
    those of the managers inside where these stand; the errors inside of what it returns are
    exactly theirs, in order; and if there were none, it returns as many errors as there are
    managers in its list *)
Theorem mtree_returns held m log log' e : close held m log log' (MORet e) ->
  exists new errs, log' = log ++ new /\ e = EList errs /\ lv ls (ls m) new.*1 /\ inside e = flat_map inside_opt new.*2 /\
    ((forall c x, (c, Some x) ∉ new) -> length errs = length (filter (fun i => is_mgr i = true) (ls m))).
Proof.
  intros H. inversion H as [|? ? ? ? ? Hm HL]; subst. destruct (mtree_loop _ _ _ _ _ _ HL) as (new & -> & K). destruct (K e eq_refl) as (V & es & -> & F & G). exists new, es. auto.
Qed.

(** calls that returned what they say *)
Inductive honest : list (nat * option err) -> list (nat * option err) -> Prop :=
| ho_nil log : honest log []
| ho_cons log c e new : oc log c = CRet e -> honest (log ++ [(c, e)]) new -> honest log ((c, e) :: new).
Lemma honest_app log a b : honest log a -> honest (log ++ a) b -> honest log (a ++ b).
Proof.
  intros H. revert b. induction H as [log|log c e new E H IH]; intros b Hb; [rewrite app_nil_r in Hb; exact Hb|]. cbn. constructor; [exact E|]. apply IH. rewrite <- app_assoc. exact Hb.
Qed.
Definition told (log log' : list (nat * option err)) (o : mout) : Prop :=
  match o with
  | MOPan p => exists new c, log' = log ++ new ++ [(c, None)] /\ honest log new /\ oc (log ++ new) c = CPan p
  | _ => exists new, log' = log ++ new /\ honest log new
  end.
Lemma told_after log new log' o : honest log new -> told (log ++ new) log' o -> told log log' o.
Proof.
  intros H. destruct o as [e|p|]; cbn; [intros (n & -> & K)|intros (n & c & -> & K & E)|intros (n & -> & K)].
  - exists (new ++ n). rewrite app_assoc. split; [reflexivity|]. apply honest_app; assumption.
  - exists (new ++ n), c. rewrite <- !app_assoc. split; [reflexivity|]. split; [apply honest_app; assumption|]. rewrite app_assoc. exact E.
  - exists (new ++ n). rewrite app_assoc. split; [reflexivity|]. apply honest_app; assumption.
Qed.
(** C198: each closer that was called returned what is said, and Close goes on after it; or
    it panicked, then it was the last that was called, and Close of every manager around it
    panics with the same value *)
Theorem mtree_calls : forall held m log log' o, close held m log log' o -> told log log' o.
Proof.
  apply (mclose_mut ls oc (fun held m log log' o _ => told log log' o) (fun held its errs log log' o _ => told log log' o)).
  - intros held m log Hm. exists []. rewrite app_nil_r. split; [reflexivity|constructor].
  - auto.
  - intros held errs log. exists []. rewrite app_nil_r. split; [reflexivity|constructor].
  - intros held c its errs log log' o e E HL IH. apply (told_after log [(c, e)]); [|exact IH]. constructor; [exact E|constructor].
  - intros held c its errs log p E. exists [], c. cbn. rewrite app_nil_r. split; [reflexivity|]. split; [constructor|exact E].
  - intros held m its errs log log1 log' o e HC (new & -> & H) HL IH. exact (told_after log new log' o H IH).
  - auto.
  - auto.
Qed.

(** the errors of the loop, when there are none *)
Lemma loop_errs : forall held its errs log log' o, loop held its errs log log' o -> forall new es, log' = log ++ new -> o = MORet (EList (errs ++ es)) ->
  (es = [] <-> (forall a, IMgr a ∉ its) /\ forall c x, (c, Some x) ∉ new).
Proof.
  intros held its errs log log' o H. induction H as [held errs log|held c its errs log log' o e E HL IH|held c its errs log p E|held m its errs log log1 log' o e HC HL IH|held m its errs log log1 p HC|held m its errs log log1 HC]; intros new es En Eo; try discriminate Eo.
  - assert (Hes : es = []) by (injection Eo as Eo; destruct es; [reflexivity|]; apply (f_equal length) in Eo; rewrite app_length in Eo; cbn in Eo; lia).
    assert (Hnew : new = []) by (destruct new; [reflexivity|]; apply (f_equal length) in En; rewrite app_length in En; cbn in En; lia).
    subst. split; [|reflexivity]. intros _. split; [intros a H; inversion H|intros c x H; inversion H].
  - destruct (mtree_loop _ _ _ _ _ _ HL) as (n2 & E2 & K). rewrite E2 in En. rewrite <- app_assoc in En. apply app_inv_head in En. subst new. destruct (K _ Eo) as (_ & es2 & E3 & _). injection E3 as E3. rewrite <- app_assoc in E3. apply app_inv_head in E3. subst es.
    specialize (IH n2 es2 E2). rewrite <- app_assoc in IH. specialize (IH Eo). destruct e as [y|]; cbn.
    + split; [discriminate|]. intros [_ N]. destruct (N c y). left.
    + rewrite IH. split; intros [N1 N2]; (split; [intros a H; apply (N1 a)|intros c' x H; apply (N2 c' x)]); try (right; exact H); apply elem_of_cons in H as [H|H]; [discriminate H|exact H|discriminate H|exact H].
  - destruct (mtree_loop _ _ _ _ _ _ HL) as (n2 & E2 & K). destruct (K _ Eo) as (_ & es2 & E3 & _). injection E3 as E3. rewrite <- app_assoc in E3. apply app_inv_head in E3. subst es. cbn. split; [discriminate|]. intros [N _]. destruct (N m). left.
Qed.
(** C198: usingx.Close with managers among its closers: what is called, which errors come
    back, and that the result is nil exactly if no closer failed and none of them is a
    manager *)
Theorem mtree_using its log log' r : uclose ls oc its log log' r ->
  exists new, log' = log ++ new /\ lv ls its new.*1 /\ flat_map inside (default [] r) = flat_map inside_opt new.*2 /\
    (r = None <-> (forall a, IMgr a ∉ its) /\ forall c x, (c, Some x) ∉ new).
Proof.
  intros (errs & H & ->). destruct (mtree_loop _ _ _ _ _ _ H) as (new & E & K). destruct (K _ eq_refl) as (V & es & E3 & F & _). injection E3 as ->. exists new. split; [exact E|]. split; [exact V|].
  rewrite <- (loop_errs _ _ _ _ _ _ H new es E eq_refl). destruct (decide (es = [])) as [->|N]; cbn; (split; [exact F|]); split; congruence.
Qed.

(** *** When it returns *)
(** manager a is in the list of manager b *)
Definition sub (a b : nat) : Prop := IMgr a ∈ ls b.
Lemma returns_acc : forall held m log log' o, close held m log log' o -> forall e, o = MORet e -> Acc sub m.
Proof.
  apply (mclose_mut ls oc (fun held m log log' o _ => forall e, o = MORet e -> Acc sub m) (fun held its errs log log' o _ => forall e, o = MORet e -> forall a, IMgr a ∈ its -> Acc sub a)); try discriminate.
  - intros held m log log' o Hm HL IH e E. constructor. exact (IH e E).
  - intros held errs log e _ a H. inversion H.
  - intros held c its errs log log' o e E HL IH x Ex a H. apply elem_of_cons in H as [H|H]; [discriminate H|eauto].
  - intros held m its errs log log1 log' o e HC IH1 HL IH2 x Ex a H. apply elem_of_cons in H as [[= ->]|H]; eauto.
Qed.
Lemma acc_no_circle m : Acc sub m -> ~ tc (flip sub) m m.
Proof.
  induction 1 as [m _ IH]. intros H. assert (K : exists y, sub y m /\ rtc (flip sub) y m) by (inversion H as [? ? Q|? y ? Q1 Q2]; subst; [exists m; split; [exact Q|apply rtc_refl]|exists y; split; [exact Q1|apply tc_rtc; exact Q2]]).
  destruct K as (y & Hy & Hr). apply (IH y Hy). eapply tc_rtc_l; [exact Hr|]. apply tc_once. exact Hy.
Qed.
Context (HP : forall log c p, oc log c <> CPan p).
Lemma acc_returns m : Acc sub m -> forall held log, (forall h, h ∈ held -> ~ rtc (flip sub) m h) -> exists log' e, close held m log log' (MORet e).
Proof using HP.
  intros HA. induction HA as [m HA IH]. intros held log HH. pose proof (acc_no_circle m (Acc_intro m HA)) as NC.
  enough (K : forall its errs log, (forall a, IMgr a ∈ its -> sub a m) -> exists log' e, loop (m :: held) its errs log log' (MORet e)).
  { destruct (K (ls m) [] log) as (log' & e & HL); [auto|]. exists log', e. constructor; [|exact HL]. intros Hm. apply (HH m Hm). apply rtc_refl. }
  clear log. induction its as [|[c|a] its IHl]; intros errs log HS.
  - exists log, (EList errs). constructor.
  - destruct (oc log c) as [e|p] eqn:E; [|destruct (HP log c p E)]. destruct (IHl (errs ++ option_list e) (log ++ [(c, e)])) as (log' & x & HL); [intros a Ha; apply HS; right; exact Ha|]. exists log', x. econstructor; eassumption.
  - assert (Ha : sub a m) by (apply HS; left). destruct (IH a Ha (m :: held) log) as (log1 & e & HC).
    { intros h Hh Hr. apply elem_of_cons in Hh as [->|Hh]; [apply NC; eapply tc_rtc_r; [apply tc_once; exact Ha|exact Hr]|]. apply (HH h Hh). eapply rtc_l; [exact Ha|exact Hr]. }
    destruct (IHl (errs ++ [e]) log1) as (log' & x & HL); [intros b Hb; apply HS; right; exact Hb|]. exists log', x. econstructor; eassumption.
Qed.
(** C198: if no closer panics, Close of a manager returns exactly if the managers below it
    are well-founded, that is, if there is no way down without end *)
Theorem mtree_returns_iff m log : (exists log' e, close [] m log log' (MORet e)) <-> Acc sub m.
Proof using HP.
  split; [intros (log' & e & H); eapply returns_acc; [exact H|reflexivity]|]. intros HA. apply acc_returns; [exact HA|]. intros h Hh. inversion Hh.
Qed.
Lemma filter_less (L held : list nat) m : m ∈ L -> m ∉ held -> length (filter (fun x => x ∉ m :: held) L) < length (filter (fun x => x ∉ held) L).
Proof.
  assert (M : forall l, length (filter (fun x => x ∉ m :: held) l) <= length (filter (fun x => x ∉ held) l)).
  { induction l as [|x l IHl]; [cbn; lia|]. rewrite !filter_cons. destruct (decide (x ∉ m :: held)) as [H1|H1], (decide (x ∉ held)) as [H2|H2]; cbn; try lia. exfalso. apply H2. intros Hx. apply H1. right. exact Hx. }
  intros Hm Hh. induction L as [|x L IHl]; [inversion Hm|]. rewrite !filter_cons. apply elem_of_cons in Hm as [<-|Hm].
  - rewrite decide_False by (intros Q; apply Q; left). rewrite decide_True by exact Hh. cbn. specialize (M L). lia.
  - specialize (IHl Hm). destruct (decide (x ∉ m :: held)) as [H1|H1], (decide (x ∉ held)) as [H2|H2]; cbn; try lia. exfalso. apply H2. intros Hx. apply H1. right. exact Hx.
Qed.
Lemma mtree_total (L : list nat) : (forall a b, sub a b -> a ∈ L) -> forall m held log, m ∈ L -> exists log' o, close held m log log' o.
Proof using HP.
  intros HL m held. remember (length (filter (fun x => x ∉ held) L)) as n eqn:En. revert m held En. induction n as [n IH] using lt_wf_ind. intros m held -> log Hm.
  destruct (decide (m ∈ held)) as [Hh|Hh]; [exists log, MOHang; constructor; exact Hh|].
  enough (K : forall its errs log, (forall a, IMgr a ∈ its -> a ∈ L) -> exists log' o, loop (m :: held) its errs log log' o).
  { destruct (K (ls m) [] log) as (log' & o & Q); [intros a Ha; exact (HL a m Ha)|]. exists log', o. constructor; assumption. }
  clear log. induction its as [|[c|a] its IHl]; intros errs log HS.
  - eexists _, _. constructor.
  - destruct (oc log c) as [e|p] eqn:E; [|destruct (HP log c p E)]. destruct (IHl (errs ++ option_list e) (log ++ [(c, e)])) as (log' & x & Q); [intros a Ha; apply HS; right; exact Ha|]. exists log', x. econstructor; eassumption.
  - destruct (IH _ (filter_less L held m Hm Hh) a (m :: held) eq_refl log ltac:(apply HS; left)) as (log1 & o & HC). destruct o as [e|p|].
    + destruct (IHl (errs ++ [e]) log1) as (log' & x & Q); [intros b Hb; apply HS; right; exact Hb|]. exists log', x. eapply ml_mgr; eassumption.
    + exists log1, (MOPan p). eapply ml_mgr_pan; eassumption.
    + exists log1, MOHang. eapply ml_mgr_hang; eassumption.
Qed.
Lemma no_pan : forall held m log log' o, close held m log log' o -> forall p, o <> MOPan p.
Proof using HP.
  apply (mclose_mut ls oc (fun held m log log' o _ => forall p, o <> MOPan p) (fun held its errs log log' o _ => forall p, o <> MOPan p)); try congruence.
  - intros held c its errs log p E. destruct (HP log c p E).
Qed.
(** C198: so with finitely many managers, if somewhere below a manager there is one that is
    below itself, Close waits for ever *)
Theorem mtree_circle (L : list nat) m a log : (forall x y, sub x y -> x ∈ L) -> rtc (flip sub) m a -> tc (flip sub) a a -> exists log', close [] m log log' MOHang.
Proof using HP.
  intros HL HR HT. destruct (mtree_total (m :: L) ltac:(intros x y H; right; exact (HL x y H)) m [] log ltac:(left)) as (log' & o & H). exists log'. destruct o as [e|p|]; [|destruct (no_pan _ _ _ _ _ H p eq_refl)|exact H].
  exfalso. pose proof (returns_acc _ _ _ _ _ H e eq_refl) as HA. assert (Acc sub a) as Ha.
  { clear -HR HA. induction HR as [x|x y z H1 H2 IH]; [exact HA|]. apply IH. apply (Acc_inv HA). exact H1. }
  exact (acc_no_circle a Ha HT).
Qed.
End props.
Print Assumptions mtree_fun.
Print Assumptions mtree_returns.
Print Assumptions mtree_calls.
Print Assumptions mtree_using.
Print Assumptions mtree_returns_iff.
Print Assumptions mtree_circle.

(** manager 1 has closer 10, manager 0 and closer 11; manager 0 has closer 20 *)
Definition fam (m : nat) : list citem := match m with 0 => [ILeaf 20] | 1 => [ILeaf 10; IMgr 0; ILeaf 11] | 2 => [IMgr 3] | 3 => [ILeaf 30; IMgr 2] | _ => [] end.
(** C198: false: if every closer returns nil, AsErrs of what Close returns is empty *)
Theorem mtree_no_errors_refuted : exists ls m log' e errs, mclose ls (fun _ _ => CRet None) [] m [] log' (MORet e) /\ AsErrs (Some e) = Some errs /\ errs <> [] /\ inside e = [].
Proof.
  exists fam, 1, [(10, None); (20, None); (11, None)], (EList [EList []]), [EList []]. split; [|repeat split; discriminate].
  constructor; [apply not_elem_of_nil|]. cbn. eapply ml_leaf; [reflexivity|]. eapply ml_mgr.
  - constructor; [intros H; apply elem_of_list_singleton in H; discriminate H|]. cbn. eapply ml_leaf; [reflexivity|]. constructor.
  - cbn. eapply ml_leaf; [reflexivity|]. constructor.
Qed.
Print Assumptions mtree_no_errors_refuted.
(** the hypotheses of mtree_returns_iff and mtree_circle *)
Example mtree_circle_case : Acc (sub fam) 1 /\ (forall x y, sub fam x y -> x ∈ [0; 2; 3]) /\ rtc (flip (sub fam)) 2 3 /\ tc (flip (sub fam)) 3 3.
Proof.
  split; [|split; [|split]].
  - constructor. intros y H. unfold sub, fam in H. apply elem_of_cons in H as [H|H]; [discriminate H|]. apply elem_of_cons in H as [[= ->]|H]; [|apply elem_of_list_singleton in H; discriminate H].
    constructor. intros z H. apply elem_of_list_singleton in H. discriminate H.
  - intros x y H. unfold sub, fam in H. destruct y as [|[|[|[|]]]]; repeat (apply elem_of_cons in H as [H|H]; [first [discriminate H|injection H as ->; set_solver]|]); inversion H.
  - eapply rtc_l; [|apply rtc_refl]. left.
  - apply tc_l with 2; [right; left|]. apply tc_once. left.
Qed.
(** closer 20, in the manager inside, panics: closer 11 is not called *)
Example mtree_calls_case : mclose fam (fun _ c => if decide (c = 20) then CPan 5 else CRet (Some (EAtom c))) [] 1 [] [(10, Some (EAtom 10)); (20, None)] (MOPan 5).
Proof.
  constructor; [apply not_elem_of_nil|]. cbn. eapply ml_leaf; [reflexivity|]. eapply ml_mgr_pan. constructor; [intros H; apply elem_of_list_singleton in H; discriminate H|]. cbn. apply (ml_leaf_pan fam _ [0; 1] 20 [] [] [(10, Some (EAtom 10))] 5). reflexivity.
Qed.
(** usingx.Close of manager 1 alone, all closers return nil: the result is not nil *)
Example mtree_using_case : uclose fam (fun _ _ => CRet None) [IMgr 1] [] [(10, None); (20, None); (11, None)] (Some [EList [EList []]]).
Proof.
  exists [EList [EList []]]. split; [|reflexivity]. eapply ml_mgr; [|constructor].
  constructor; [apply not_elem_of_nil|]. cbn. eapply ml_leaf; [reflexivity|]. eapply ml_mgr.
  - constructor; [intros H; apply elem_of_list_singleton in H; discriminate H|]. cbn. eapply ml_leaf; [reflexivity|]. constructor.
  - cbn. eapply ml_leaf; [reflexivity|]. constructor.
Qed.
