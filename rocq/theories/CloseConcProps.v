(** CloseManager under concurrency (C109, C110). *)
From Verif Require Import Base Conc CloseConcModel.

Section props.
Context {E : Type} (closer : nat -> qcode E) (main : nat -> qcode E).
Notation step := (q_step closer).
Notation init := (q_init main).
Notation events ls := (omap id ls).
Implicit Types (s : qstate E) (evs : list (qev E)).

(** the closers handed to Append so far, in order *)
Definition appended evs : list nat := omap (fun e => match e with QvAppend _ c => Some c | _ => None end) evs.
(** what Close calls, and what it gets *)
Definition closings (t : nat) (cs : list nat) (es : list (option E)) : list (qev E) := zip_with (QvClosed t) cs es.

(** *** the mutex *)
Definition qok (m : option nat) (t : nat) (x : qthr E) : Prop :=
  match q_in x with
  | [] => match q_pc x with QRun _ => m <> Some t | _ => m = Some t end
  | [g] => m = Some t /\ (exists c, q_pc x = QRun c) /\ q_rest g <> []
  | _ => False
  end.
Definition qinv s : Prop := forall t, qok (q_mutex s) t (q_th s t).
Lemma qok_other m m' t u x : u <> t -> m = None \/ m = Some t -> m' = None \/ m' = Some t -> qok m u x -> qok m' u x.
Proof.
  intros Hu Hm Hm'. assert (m <> Some u) as HN by (destruct Hm; congruence). assert (m' <> Some u) as HN' by (destruct Hm'; congruence).
  unfold qok. destruct (q_in x) as [|g [|]]; [destruct (q_pc x); tauto|tauto|tauto].
Qed.
Lemma qinv_init : qinv init.
Proof. intros t. cbn. discriminate. Qed.
Lemma qinv_step s l s' : qinv s -> step s l s' -> qinv s'.
Proof.
  intros HI HS. unfold qinv in *.
  destruct HS; cbn [q_mutex q_th] in *; intros u; pose proof (HI t) as Ht; rewrite H in Ht; unfold qok in Ht; cbn [q_in q_pc] in Ht;
    (destruct (decide (u = t)) as [->|Hu]; [rewrite tset_eq; unfold qok; cbn [q_in q_pc]|rewrite tset_ne by exact Hu; try apply HI]).
  all: try (destruct fr as [|g [|]]; [|destruct Ht as (Ht & (c' & Hc) & Hr); try discriminate|contradiction Ht]).
  all: try (split; [exact Ht|split; [eexists; reflexivity|discriminate]]).
  all: try reflexivity; try exact Ht; try discriminate.
  all: try (apply (qok_other None (Some t) t u _ Hu); auto; fail).
  all: try (subst m; apply (qok_other (Some t) None t u _ Hu); auto; fail).
  all: try contradiction Ht.
  all: try (destruct Ht; assumption).
  all: destruct fr; [apply Ht|contradiction Ht].
Qed.
Lemma qinv_reach s : reach init step s -> qinv s.
Proof. apply reach_invariant; [apply qinv_init|apply qinv_step]. Qed.
Lemma qinv_steps s ls s' : qinv s -> steps step s ls s' -> qinv s'.
Proof. intros H. apply (steps_invariant s step qinv H qinv_step). Qed.

(** *** what is on the way *)
Definition in_close (x : qthr E) (rest : list nat) (errs : list E) : Prop :=
  (exists k, x = QThr (QLoop rest errs k) []) \/ (exists c k, x = QThr (QRun c) [QFr rest errs k]).
Definition link evs s : Prop :=
  q_list s = appended evs /\
  forall t rest errs, in_close (q_th s t) rest errs ->
    exists pre dn es, evs = pre ++ QvBegin t :: closings t dn es /\ length es = length dn /\ appended pre = dn ++ rest /\ errs = concat (option_list <$> es).
Lemma appended_app evs evs' : appended (evs ++ evs') = appended evs ++ appended evs'.
Proof. apply omap_app. Qed.
Lemma in_close_holds s t rest errs : qinv s -> in_close (q_th s t) rest errs -> q_mutex s = Some t.
Proof. intros HI HC. specialize (HI t). unfold qok in HI. destruct HC as [[k E1]|(c & k & E1)]; rewrite E1 in HI; cbn in HI; tauto. Qed.
Lemma link_step evs s l s' : qinv s -> link evs s -> step s l s' -> link (evs ++ option_list l) s'.
Proof.
  intros HI [HL HC] HS.
  assert (HO : forall t, (exists c fr, q_th s t = QThr (QRun c) fr) /\ q_mutex s = None \/ q_mutex s = Some t -> forall u rest errs, in_close (q_th s u) rest errs -> u = t).
  { intros t Ht u rest errs Hu. apply (in_close_holds _ _ _ _ HI) in Hu. destruct Ht as [[_ Ht]|Ht]; congruence. }
  assert (HM : forall t x, q_th s t = x -> (match q_pc x with QRun _ => q_in x <> [] | _ => True end) -> q_mutex s = Some t).
  { intros t x Hx Hp. specialize (HI t). rewrite Hx in HI. unfold qok in HI. destruct (q_in x) as [|g [|]]; [destruct (q_pc x); tauto|tauto|tauto]. }
  destruct HS; cbn [q_list q_th q_mutex option_list] in *; pose proof (HI t) as Ht; cbn [q_mutex q_th] in Ht; rewrite H in Ht; unfold qok in Ht; cbn [q_in q_pc] in Ht;
    (split; [try rewrite app_nil_r; rewrite ?appended_app, HL; cbn; rewrite ?app_nil_r; reflexivity|]);
    intros u rest' errs' Hin; cbn [q_th] in Hin;
    (destruct (decide (u = t)) as [->|Hu]; [rewrite tset_eq in Hin|rewrite tset_ne in Hin by exact Hu]).
  all: try (exfalso; apply Hu; eapply (HO t); [|exact Hin]; first [left; split; [eauto|reflexivity]|right; eapply HM; [exact H|cbn; first [exact I|discriminate]]]; fail).
  all: try (exfalso; destruct Hin as [[? Hin]|(? & ? & Hin)]; discriminate Hin).
  - (* begin *) exists evs, [], []. destruct Hin as [[? Hin]|(? & ? & Hin)]; [|discriminate]. injection Hin as ? ? ? ?; subst rest' errs'. cbn. auto.
  - (* next *) rewrite app_nil_r. destruct Hin as [[? Hin]|(? & ? & Hin)]; [discriminate|]. injection Hin as ? ? ? ? ?; subst rest' errs' fr. apply HC. left. eexists. exact H.
  - (* ret *) destruct Hin as [[? Hin]|(? & ? & Hin)]; [|discriminate]. injection Hin as ? ? ? ?; subst rest' errs' fr.
    destruct (HC t (c :: rest) errs) as (pre & dn & es & Z1 & Z2 & Z3 & Z4); [right; eauto|].
    exists pre, (dn ++ [c]), (es ++ [e]). split; [|split; [|split]].
    + rewrite Z1, <- app_assoc. cbn [app]. f_equal. f_equal. unfold closings. rewrite zip_with_app by (symmetry; exact Z2). reflexivity.
    + rewrite !app_length. cbn. lia.
    + rewrite <- app_assoc. exact Z3.
    + rewrite fmap_app, concat_app, <- Z4. cbn. rewrite app_nil_r. reflexivity.
  - (* unlock *) exfalso. destruct Hin as [[? Hin]|(? & ? & Hin)]; [discriminate|]. injection Hin as ? ?; subst fr. destruct Ht as (_ & (? & F) & _). discriminate F.
Qed.
Lemma events_snoc (ls : list (option (qev E))) l : events (ls ++ [l]) = events ls ++ option_list l.
Proof. rewrite omap_app. destruct l; reflexivity. Qed.
Lemma link_steps ls s : steps step init ls s -> qinv s /\ link (events ls) s.
Proof.
  revert ls s. apply (steps_trace_invariant init step (fun ls s => qinv s /\ link (events ls) s)).
  - split; [apply qinv_init|]. split; [reflexivity|]. intros t rest errs [[k Hc]|(c & k & Hc)]; discriminate Hc.
  - intros ls s l s' _ [H1 H2] HS. split; [eapply qinv_step; eauto|]. rewrite events_snoc. eapply link_step; eauto.
Qed.

(** C109: each Close that returns has called, one after the other and in the order in which
    they were appended, exactly the closers whose Append got the mutex before it, while no
    other goroutine appended or closed anything, and returns exactly the errors they returned,
    in that order *)
Theorem close_conc_all ls s pre t errs post : steps step init ls s -> events ls = pre ++ QvEnd t errs :: post ->
  exists pre' es, pre = pre' ++ QvBegin t :: closings t (appended pre') es /\ length es = length (appended pre') /\ errs = concat (option_list <$> es).
Proof.
  intros HS. revert ls s HS pre post.
  apply (steps_trace_invariant init step (fun ls s => forall pre post, events ls = pre ++ QvEnd t errs :: post ->
    exists pre' es, pre = pre' ++ QvBegin t :: closings t (appended pre') es /\ length es = length (appended pre') /\ errs = concat (option_list <$> es))).
  - intros [|] post Hx; discriminate Hx.
  - intros ls s l s' HS IH HT pre post Hx. rewrite events_snoc in Hx. destruct l as [e|]; [|cbn [option_list] in Hx; rewrite app_nil_r in Hx; exact (IH _ _ Hx)]. cbn [option_list] in Hx.
    destruct post as [|q post] using rev_ind.
    + apply app_inj_2 in Hx as [Hx1 Hx2]; [|reflexivity]. injection Hx2 as ->. subst pre. destruct (link_steps _ _ HS) as [_ [_ HC]].
      inversion HT; subst. cbn [q_th] in HC. destruct fr as [|g fr].
      * destruct (HC t [] errs) as (pre & dn & es & K1 & K2 & K3 & K4); [left; eauto|]. rewrite app_nil_r in K3. exists pre, es. rewrite K3. auto.
      * exfalso. destruct (link_steps _ _ HS) as [HI _]. specialize (HI t). cbn [q_th] in HI. match goal with H : th t = _ |- _ => rewrite H in HI end. unfold qok in HI. cbn in HI. destruct fr; [|exact HI]. destruct HI as (_ & (c & F) & _). discriminate.
    + clear IHpost. rewrite app_comm_cons, app_assoc in Hx. apply app_inj_2 in Hx as [Hx1 Hx2]; [|reflexivity]. exact (IH _ _ Hx1).
Qed.
(** nothing that was appended is lost *)
Theorem close_conc_list ls s : steps step init ls s -> q_list s = appended (events ls).
Proof. intros HS. apply (link_steps ls s HS). Qed.
(** a Close that panics has called a prefix of them *)
Theorem close_conc_panic ls s pre t post : steps step init ls s -> events ls = pre ++ QvPanic t :: post ->
  exists pre' dn rest es, pre = pre' ++ QvBegin t :: closings t dn es /\ length es = length dn /\ appended pre' = dn ++ rest /\ rest <> [].
Proof.
  intros HS. revert ls s HS pre post.
  apply (steps_trace_invariant init step (fun ls s => forall pre post, events ls = pre ++ QvPanic t :: post ->
    exists pre' dn rest es, pre = pre' ++ QvBegin t :: closings t dn es /\ length es = length dn /\ appended pre' = dn ++ rest /\ rest <> [])).
  - intros [|] post Hx; discriminate Hx.
  - intros ls s l s' HS IH HT pre post Hx. rewrite events_snoc in Hx. destruct l as [e|]; [|cbn [option_list] in Hx; rewrite app_nil_r in Hx; exact (IH _ _ Hx)]. cbn [option_list] in Hx.
    destruct post as [|q post] using rev_ind.
    + apply app_inj_2 in Hx as [Hx1 Hx2]; [|reflexivity]. injection Hx2 as ->. subst pre. destruct (link_steps _ _ HS) as [HI [_ HC]].
      inversion HT; subst. cbn [q_th] in HC. specialize (HI t). cbn [q_th] in HI. match goal with H : th t = _ |- _ => rewrite H in HI end. unfold qok in HI. cbn in HI. destruct fr; [|contradiction HI]. destruct g as [rest errs k].
      destruct (HC t rest errs) as (pre & dn & es & K1 & K2 & K3 & K4); [right; eauto|]. exists pre, dn, rest, es. destruct HI as (_ & _ & HI). auto.
    + clear IHpost. rewrite app_comm_cons, app_assoc in Hx. apply app_inj_2 in Hx as [Hx1 Hx2]; [|reflexivity]. exact (IH _ _ Hx1).
Qed.

(** *** closers that call the manager *)
Definition q_call (c : qcode E) : bool := match c with QAppend _ _ | QClose _ => true | _ => false end.
(** C110: a closer that calls Append or Close of the manager that is closing it never gets
    past that call; nothing is ever appended or closed again, and whoever calls the manager
    waits for ever *)
Theorem close_reentrant_hangs s ls s' t c fr : reach init step s -> q_th s t = QThr (QRun c) fr -> fr <> [] -> q_call c = true -> steps step s ls s' ->
  events ls = [] /\ q_list s' = q_list s /\ q_th s' t = QThr (QRun c) fr /\ forall u c' fr', q_th s u = QThr (QRun c') fr' -> q_call c' = true -> q_th s' u = QThr (QRun c') fr'.
Proof.
  intros HR HT HF HC HS. pose proof (qinv_reach s HR) as HI. clear HR. induction HS as [|s ls s1 l s2 HS IH H1]; [auto|].
  specialize (IH HT HI). pose proof (qinv_steps _ _ _ HI HS) as HI1. destruct IH as (E1 & E2 & E3 & E4).
  assert (HM : q_mutex s1 = Some t). { specialize (HI1 t). rewrite E3 in HI1. unfold qok in HI1. cbn in HI1. destruct fr as [|g [|]]; [done|tauto|tauto]. }
  (* the only goroutine that could move holds the mutex and is inside a closer *)
  assert (HX : l = None /\ q_list s2 = q_list s1 /\ forall u c' fr', q_th s1 u = QThr (QRun c') fr' -> q_call c' = true -> q_th s2 u = q_th s1 u).
  { assert (HU : forall u, (match q_pc (q_th s1 u) with QRun c' => q_in (q_th s1 u) <> [] | _ => True end) -> u = t).
    { intros u Hu. specialize (HI1 u). unfold qok in HI1. cut (q_mutex s1 = Some u); [congruence|]. destruct (q_in (q_th s1 u)) as [|g [|]]; [destruct (q_pc (q_th s1 u)); tauto|tauto|contradiction]. }
    destruct H1; cbn [q_mutex q_th q_list] in *; try discriminate HM; exfalso;
      (assert (t0 = t) as -> by (apply HU; rewrite H; cbn; first [exact I|discriminate])); rewrite E3 in H; first [discriminate H|injection H as -> ->; discriminate HC]. }
  destruct HX as (-> & X2 & X3). rewrite events_snoc, E1. split; [reflexivity|]. split; [congruence|]. split; [rewrite (X3 t _ _ E3 HC); exact E3|].
  intros u c' fr' Hu Hc. pose proof (E4 u c' fr' Hu Hc) as Hu1. rewrite (X3 u _ _ Hu1 Hc). exact Hu1.
Qed.
(** no deadlock as long as closers do not call the manager *)
Theorem close_no_deadlock_partial s t : (forall c, q_call (closer c) = false) -> reach init step s ->
  ~ (q_in (q_th s t) = [] /\ exists c, q_pc (q_th s t) = QRun c /\ q_call c = false) -> exists l s', step s l s'.
Proof.
  intros HC HR HN.
  assert (HQ : qinv s /\ forall u c fr, q_th s u = QThr (QRun c) fr -> fr <> [] -> q_call c = false).
  { clear HN t. revert s HR. apply (reach_invariant init step (fun s => qinv s /\ forall u c fr, q_th s u = QThr (QRun c) fr -> fr <> [] -> q_call c = false)).
    - split; [apply qinv_init|]. intros u c fr [= _ <-]. done.
    - intros s l s' [HI HQ] HS. split; [eapply qinv_step; eauto|]. destruct HS; cbn [q_th] in *; intros u c' fr'; (destruct (decide (u = t)) as [->|Hu]; [rewrite tset_eq; intros Hx Hf|rewrite tset_ne by exact Hu; apply HQ]);
        try discriminate Hx; injection Hx as ? ?; subst; [apply HC|].
      exfalso. specialize (HI t). cbn [q_th] in HI. rewrite H in HI. unfold qok in HI. cbn in HI. destruct fr' as [|g [|]]; [done| |exact HI]. destruct HI as (_ & (? & F) & _). discriminate F. }
  destruct HQ as [HI HQ]. destruct s as [l m th]. cbn [q_th] in *.
  assert (HG : forall u, m = Some u -> exists e s', step (QS l m th) e s').
  { intros u ->. pose proof (HI u) as Hu. cbn [q_th q_mutex] in Hu. destruct (th u) as [p fr] eqn:Eu. unfold qok in Hu. cbn [q_in q_pc] in Hu. destruct fr as [|[rest errs k] [|]].
    - destruct p as [c|c k|[|c rest] errs k|c]; [done|eexists _, _; eapply qs_append; exact Eu|eexists _, _; eapply qs_end; exact Eu|eexists _, _; eapply qs_next; exact Eu|eexists _, _; eapply qs_unlock; exact Eu].
    - destruct Hu as (_ & (c & ->) & Hr). cbn in Hr. destruct rest as [|x rest]; [done|]. pose proof (HQ u c _ Eu ltac:(discriminate)) as Hc.
      destruct c; try discriminate Hc; [eexists _, _; eapply qs_ret; exact Eu|eexists _, _; eapply qs_panic; exact Eu].
    - contradiction. }
  destruct m as [u|]; [apply (HG u eq_refl)|]. pose proof (HI t) as Ht. cbn [q_th q_mutex] in Ht. destruct (th t) as [p fr] eqn:Et. unfold qok in Ht. cbn [q_in q_pc] in Ht.
  destruct fr as [|g [|]]; [|destruct Ht; discriminate|contradiction].
  destruct p as [c| | |]; try discriminate Ht. destruct c.
  - exfalso. apply HN. split; [reflexivity|]. eexists. split; reflexivity.
  - exfalso. apply HN. split; [reflexivity|]. eexists. split; reflexivity.
  - eexists _, _. eapply qs_lock_append. exact Et.
  - eexists _, _. eapply qs_lock_close. exact Et.
Qed.

(** what a goroutine does in between is its own code, given the answers of the events: [q_goes_on
    t x evs y] says that a goroutine t which is at x is, after the events evs, at y.  It is in its
    own code, inside of the closers that it runs, or in the loop of Close *)
Inductive qpos := Own (c : qcode E) (fr : list (nat * (list E -> qcode E))) | Closing (k : list E -> qcode E) (fr : list (nat * (list E -> qcode E))).
Inductive q_goes_on (t : nat) (x : qpos) : list (qev E) -> qpos -> Prop :=
| qgo_nil : q_goes_on t x [] x
| qgo_append evs c k fr : q_goes_on t x evs (Own (QAppend c k) fr) -> q_goes_on t x (evs ++ [QvAppend t c]) (Own k fr)
| qgo_begin evs k fr : q_goes_on t x evs (Own (QClose k) fr) -> q_goes_on t x (evs ++ [QvBegin t]) (Closing k fr)
| qgo_call evs c k fr : q_goes_on t x evs (Closing k fr) -> q_goes_on t x evs (Own (closer c) ((c, k) :: fr))
| qgo_closed evs c e k fr : q_goes_on t x evs (Own (QRet e) ((c, k) :: fr)) -> q_goes_on t x (evs ++ [QvClosed t c e]) (Closing k fr)
| qgo_panic evs g fr : q_goes_on t x evs (Own QPanic (g :: fr)) -> q_goes_on t x (evs ++ [QvPanic t]) (Own QPanic fr)
| qgo_end evs k errs fr : q_goes_on t x evs (Closing k fr) -> q_goes_on t x (evs ++ [QvEnd t errs]) (Own (k errs) fr).
Definition qev_of (e : qev E) : nat := match e with QvAppend t _ | QvBegin t | QvClosed t _ _ | QvPanic t | QvEnd t _ => t end.
Definition q_own (t : nat) evs : list (qev E) := filter (fun e => qev_of e = t) evs.
Definition qat (x : qthr E) : qpos :=
  let fr := (fun g => (default 0 (head (q_rest g)), q_k g)) <$> q_in x in
  match q_pc x with QRun c | QRel c => Own c fr | QPut c k => Own (QAppend c k) fr | QLoop _ _ k => Closing k fr end.

(** C109: the errors in the event are what the caller of Close gets, the closer in the event is
    the one that ran, and Append adds what it was given: each goroutine is where its own code is
    after its own events *)
Theorem close_conc_answers ls s t : steps step init ls s -> q_goes_on t (Own (main t) []) (q_own t (events ls)) (qat (q_th s t)).
Proof.
  revert ls s. apply (steps_trace_invariant init step (fun ls s => q_goes_on t (Own (main t) []) (q_own t (events ls)) (qat (q_th s t)))).
  - apply qgo_nil.
  - intros ls s l s' _ IH HS. rewrite omap_app. unfold q_own in *. rewrite filter_app.
    destruct HS; cbn [q_th] in *; cbn -[tset]; rewrite ?filter_cons, ?filter_nil; cbn [qev_of];
      (destruct (decide (t0 = t)) as [->|Hne];
        [rewrite ?tset_eq; rewrite H in IH; cbn in IH; unfold qat; cbn | rewrite ?tset_ne by congruence; try rewrite app_nil_r; exact IH]).
    all: try (rewrite app_nil_r; exact IH).
    all: first [eapply qgo_append; exact IH|eapply qgo_begin; exact IH|rewrite app_nil_r; eapply (qgo_call _ _ _ c); exact IH|eapply qgo_closed; exact IH|eapply qgo_panic; exact IH|eapply qgo_end; exact IH].
Qed.
End props.
Print Assumptions close_conc_all.
Print Assumptions close_conc_answers.
Print Assumptions close_conc_list.
Print Assumptions close_conc_panic.
Print Assumptions close_reentrant_hangs.
Print Assumptions close_no_deadlock_partial.

(** two goroutines; closer 0 fails with error 7, closer 1 appends to the manager *)
Definition qcloser (c : nat) : qcode nat := match c with 0 => QRet (Some 7) | _ => QAppend 0 (QRet None) end.
Definition qmain (t : nat) : qcode nat :=
  match t with 0 => QAppend 0 (QAppend 0 (QClose (fun errs => QRet (head errs)))) | 1 => QAppend 1 (QClose (fun _ => QRet None)) | _ => QRet None end.
Ltac app_ t := eapply steps_cons; [eapply (qs_lock_append _ _ _ t); reflexivity|]; eapply steps_cons; [eapply (qs_append _ _ _ _ t); reflexivity|]; eapply steps_cons; [eapply (qs_unlock _ _ _ _ t); reflexivity|].
Ltac closing_ t := eapply steps_cons; [eapply (qs_next _ _ _ _ t); reflexivity|]; eapply steps_cons; [eapply (qs_ret _ _ _ _ t); reflexivity|].
Example close_conc_case : exists ls s, steps (q_step qcloser) (q_init qmain) ls s /\ omap id ls = [QvAppend 0 0; QvAppend 0 0; QvBegin 0; QvClosed 0 0 (Some 7); QvClosed 0 0 (Some 7); QvEnd 0 [7; 7]; QvAppend 1 1].
Proof.
  eexists _, _. split.
  - unfold q_init. app_ 0. app_ 0. eapply steps_cons; [eapply (qs_lock_close _ _ _ 0); reflexivity|]. closing_ 0. closing_ 0. eapply steps_cons; [eapply (qs_end _ _ _ _ 0); reflexivity|].
    eapply steps_cons; [eapply (qs_unlock _ _ _ _ 0); reflexivity|]. app_ 1. apply steps_nil.
  - reflexivity.
Qed.
(** the hypotheses of close_reentrant_hangs are met, and another goroutine is stuck with it *)
Example close_reentrant_case : exists s fr, reach (q_init qmain) (q_step qcloser) s /\ q_th s 1 = QThr (QRun (QAppend 0 (QRet None))) fr /\ fr <> [] /\ exists k, q_th s 0 = QThr (QRun (QClose k)) [].
Proof.
  eexists _, _. split; [|split; [|split]].
  - eexists. unfold q_init. app_ 1. app_ 0. app_ 0. eapply steps_cons; [eapply (qs_lock_close _ _ _ 1); reflexivity|]. eapply steps_cons; [eapply (qs_next _ _ _ _ 1); reflexivity|]. apply steps_nil.
  - reflexivity.
  - discriminate.
  - eexists. reflexivity.
Qed.
