(** Properties of iox/usingx (C63), iox/managerx/closex (C64, C65, C91) and
    osx/closex (C86), whatever each Close does. *)
From Verif Require Import Base Conc CloseModel CloseProofs.

(** C63: if no Close panics, the body runs first, then every closer is closed once,
    in order; the errors are returned in order (None: nil), or the panic (or exit)
    of the body goes on. *)
Theorem using_closes_all_partial oc cs body log :
  (forall i c, cs !! i = Some c -> returns (out_at oc (log ++ [EvBody]) cs i c)) ->
  using_close oc cs body log =
    (log ++ [EvBody] ++ map EvClose cs,
     match body with
     | BRet => URet (match errs_from oc (log ++ [EvBody]) cs with [] => None | es => Some es end)
     | BPan p => UPan p
     | BExit => UExit
     end).
Proof.
  intros H. unfold using_close. rewrite close_loop_all by exact H. rewrite <- app_assoc. f_equal.
  destruct body; try reflexivity. cbn [app]. destruct (errs_from _ _ _); reflexivity.
Qed.
Print Assumptions using_closes_all_partial.
(** What happens otherwise: the closers after the first one whose Close panics are
    not closed, and its panic goes on, whatever the body did. *)
Theorem using_close_panics oc cs1 c cs2 body log p :
  (forall i c', cs1 !! i = Some c' -> returns (out_at oc (log ++ [EvBody]) cs1 i c')) ->
  oc (log ++ [EvBody] ++ map EvClose cs1) c = CPan p ->
  using_close oc (cs1 ++ c :: cs2) body log = (log ++ [EvBody] ++ map EvClose (cs1 ++ [c]), UPan p).
Proof.
  intros H P. unfold using_close. rewrite (close_loop_panic oc cs1 c cs2 p); [rewrite <- app_assoc; reflexivity|exact H|].
  rewrite <- app_assoc. exact P.
Qed.
Print Assumptions using_close_panics.
(** so the claim fails for closers that panic *)
Definition second_panics : list ev -> nat -> cout := fun _ c => if decide (c = 1) then CPan 0 else CRet None.
Theorem using_closes_all_refuted : exists oc cs body log, EvClose 2 ∉ (using_close oc cs body log).1 /\ 2 ∈ cs.
Proof. exists second_panics, [0; 1; 2], BRet, []. vm_compute. split; [|right; right; left]. intros H. repeat (inversion H as [|? ? ? H']; clear H; subst; try rename H' into H). Qed.
Print Assumptions using_closes_all_refuted.
Definition odd_fails : list ev -> nat -> cout := fun _ c => if Nat.even c then CRet None else CRet (Some (EAtom c)).
Example using_ex : using_close odd_fails [0; 1; 3] BRet [] = ([EvBody; EvClose 0; EvClose 1; EvClose 3], URet (Some [EAtom 1; EAtom 3])).
Proof. vm_compute. reflexivity. Qed.
Example using_hyp_ex : forall i c, [0; 1; 3] !! i = Some c -> returns (out_at odd_fails ([] ++ [EvBody]) [0; 1; 3] i c).
Proof. intros i c _. unfold out_at, odd_fails. destruct (Nat.even c); exact I. Qed.

(** C64: over any history of Append and Close, the manager holds what was appended,
    in order; each Close calls Close once on everything appended so far, in that order,
    unless one panics; and AsErrs gives the errors in order. *)
Definition appended (os : list mop) : list nat := omap (fun o => match o with OpAppend c => Some c | OpClose => None end) os.
Theorem manager_holds oc os log : (ideal_state (mgr_step oc) ([], log) os).1 = appended os.
Proof.
  assert (G : forall os s, (ideal_state (mgr_step oc) s os).1 = s.1 ++ appended os); [|apply (G os ([], log))].
  clear. induction os as [|o os IH]; intros s; [cbn; rewrite app_nil_r; reflexivity|].
  unfold ideal_state in *. cbn [ideal_run]. destruct (mgr_step oc s o) as [s' r] eqn:E. specialize (IH s').
  destruct (ideal_run (mgr_step oc) s' os) as [rs e]. cbn in IH |- *. rewrite IH.
  destruct o; cbn in E.
  - injection E as <- <-. unfold mgr_append. cbn. rewrite <- app_assoc. reflexivity.
  - destruct (mgr_close oc s.1 s.2) as [l' r']. injection E as <- <-. reflexivity.
Qed.
Print Assumptions manager_holds.
(** with any number of managers, each holds what was appended to it; the functions of the
    package act on Default, the manager 0 *)
Definition appended_to (m : nat) (os : list gop) : list nat :=
  omap (fun o => match o with GOn m' (OpAppend c) => if decide (m' = m) then Some c else None | GPkg (OpAppend c) => if decide (m = 0) then Some c else None | _ => None end) os.
Definition made (os : list gop) : nat := length (omap (fun o => match o with GNew => Some tt | _ => None end) os).
Lemma made_app os os' : made (os ++ os') = made os + made os'.
Proof. unfold made. rewrite omap_app, app_length. reflexivity. Qed.
Lemma appended_to_app m os os' : appended_to m (os ++ os') = appended_to m os ++ appended_to m os'.
Proof. apply omap_app. Qed.
(** only managers that have been made are used *)
Definition uses_made (os : list gop) : Prop := forall pre m o post, os = pre ++ GOn m o :: post -> m <= made pre.
Lemma uses_made_snoc os o : uses_made (os ++ [o]) -> uses_made os.
Proof. intros H pre m' o' post ->. apply (H pre m' o' (post ++ [o])). rewrite <- app_assoc. reflexivity. Qed.
Lemma fresh_manager os m : uses_made os -> made os < m -> appended_to m os = [].
Proof.
  induction os as [|o os IH] using rev_ind; intros H L; [reflexivity|]. rewrite made_app in L. rewrite appended_to_app, IH by (eauto using uses_made_snoc || lia). cbn.
  destruct o as [|m' [c|]|[c|]]; try reflexivity.
  - pose proof (H os m' (OpAppend c) [] eq_refl). cbn. rewrite decide_False by lia. reflexivity.
  - cbn. rewrite decide_False by lia. reflexivity.
Qed.
Theorem managers_hold oc os log m : uses_made os ->
  (ideal_state (g_step oc) (g_init log) os).1 !! m = if decide (m <= made os) then Some (appended_to m os) else None.
Proof.
  revert m. induction os as [|o os IH] using rev_ind; intros m H.
  - cbn. destruct m; reflexivity.
  - pose proof (uses_made_snoc os o H) as H'.
    rewrite ideal_state_app. set (s := ideal_state (g_step oc) (g_init log) os) in *. assert (IHm := fun m => IH m H'). clear IH.
    rewrite made_app, appended_to_app. assert (LE : length s.1 = S (made os)).
    { apply Nat.le_antisymm.
      - apply lookup_ge_None. rewrite IHm. rewrite decide_False by lia. reflexivity.
      - apply lookup_lt_is_Some. rewrite IHm. rewrite decide_True by lia. eauto. }
    assert (ON : forall m' o, m' <= made os -> (g_on oc s m' o).1.1 !! m =
      if decide (m <= made os) then Some (appended_to m os ++ match o with OpAppend c => if decide (m' = m) then [c] else [] | OpClose => [] end) else None).
    { intros m' o' Hm'. pose proof (IHm m') as I'. rewrite decide_True in I' by exact Hm'. unfold g_on. rewrite I'. destruct o' as [c|]; cbn [mgr_step fst snd].
      - destruct (decide (m' = m)) as [->|N]; [rewrite list_lookup_insert by lia; rewrite decide_True by exact Hm'; reflexivity|rewrite list_lookup_insert_ne by exact N; rewrite IHm, app_nil_r; reflexivity].
      - destruct (mgr_close oc _ s.2) as [log' r]. cbn [fst]. rewrite app_nil_r. destruct (decide (m' = m)) as [->|N]; [rewrite list_lookup_insert by lia; rewrite decide_True by exact Hm'; reflexivity|rewrite list_lookup_insert_ne by exact N; rewrite IHm; reflexivity]. }
    unfold ideal_state. cbn [ideal_run]. replace (ideal_run (g_step oc) (g_step oc s o).1 []) with (@nil gret, (g_step oc s o).1) by reflexivity. destruct (g_step oc s o) as [s' r] eqn:G. cbn [fst snd].
    assert (SE : s' = (g_step oc s o).1) by (rewrite G; reflexivity). clear G. subst s'. destruct o as [|m' o|o]; cbn [g_step].
    + cbn [fst]. rewrite app_nil_r. change (made [GNew]) with 1. destruct (decide (m <= made os)) as [L|L].
      * rewrite lookup_app_l by lia. rewrite IHm. rewrite !decide_True by lia. reflexivity.
      * destruct (decide (m = S (made os))) as [->|N].
        { rewrite list_lookup_middle by congruence. rewrite decide_True by lia. f_equal. symmetry. apply fresh_manager; [exact H'|lia]. }
        { rewrite lookup_ge_None_2 by (rewrite app_length; cbn; lia). rewrite decide_False by lia. reflexivity. }
    + change (made [GOn m' o]) with 0. rewrite Nat.add_0_r. rewrite ON by (apply (H os m' o []); reflexivity).
      destruct o; cbn; [destruct (decide (m' = m)); reflexivity|reflexivity].
    + change (made [GPkg o]) with 0. rewrite Nat.add_0_r. rewrite ON by lia.
      destruct o; cbn; [destruct (decide (0 = m)), (decide (m = 0)); try lia; reflexivity|reflexivity].
Qed.
Print Assumptions managers_hold.
(** what a call on a manager does and answers is what it does alone, with the same log; the
    functions of the package are the methods of Default *)
Theorem managers_answer oc s m l o : s.1 !! m = Some l ->
  g_step oc s (GOn m o) = ((<[m := (mgr_step oc (l, s.2) o).1.1]> s.1, (mgr_step oc (l, s.2) o).1.2), GRet (mgr_step oc (l, s.2) o).2) /\
  g_step oc s (GPkg o) = g_step oc s (GOn 0 o).
Proof. intros H. split; [|reflexivity]. cbn. unfold g_on. rewrite H. destruct (mgr_step oc (l, s.2) o) as [[l' log'] r]. reflexivity. Qed.
Print Assumptions managers_answer.
Example managers_ex : ideal_results (g_step odd_fails) (g_init []) [GPkg (OpAppend 1); GNew; GOn 1 (OpAppend 2); GOn 0 (OpAppend 3); GPkg OpClose; GOn 1 OpClose] =
  [GRet MUnit; GMade 1; GRet MUnit; GRet MUnit; GRet (MErr (Some (EList [EAtom 1; EAtom 3]))); GRet (MErr (Some (EList [])))].
Proof. reflexivity. Qed.
Example uses_made_ex : uses_made [GPkg (OpAppend 1); GNew; GOn 1 (OpAppend 2); GOn 0 (OpAppend 3)].
Proof.
  intros pre m o post H. do 4 (destruct pre as [|? pre]; [cbn in H; first [discriminate H|injection H as ? ? ?; subst; cbn; lia]|injection H as ? H; subst]).
  destruct pre; discriminate H.
Qed.
Theorem manager_closes_all oc s log : (forall i c, s !! i = Some c -> returns (out_at oc log s i c)) ->
  mgr_step oc (s, log) OpClose = ((s, log ++ map EvClose s), MErr (Some (EList (errs_from oc log s)))) /\
  AsErrs (Some (EList (errs_from oc log s))) = Some (errs_from oc log s).
Proof.
  intros H. split; [|reflexivity]. unfold mgr_step, mgr_close. cbn [fst snd]. rewrite close_loop_all by exact H. reflexivity.
Qed.
Print Assumptions manager_closes_all.
(** a panicking closer: those after it are not closed; the manager stays usable *)
Theorem manager_close_panics oc s1 c s2 log p : (forall i c', s1 !! i = Some c' -> returns (out_at oc log s1 i c')) ->
  oc (log ++ map EvClose s1) c = CPan p ->
  mgr_step oc (s1 ++ c :: s2, log) OpClose = ((s1 ++ c :: s2, log ++ map EvClose (s1 ++ [c])), MPan p).
Proof.
  intros H P. unfold mgr_step, mgr_close. cbn [fst snd]. rewrite (close_loop_panic oc s1 c s2 p log [] H P). reflexivity.
Qed.
Print Assumptions manager_close_panics.
Example manager_ex : ideal_run (mgr_step odd_fails) ([], []) [OpAppend 1; OpAppend 2; OpClose; OpAppend 3; OpClose] =
  ([MUnit; MUnit; MErr (Some (EList [EAtom 1])); MUnit; MErr (Some (EList [EAtom 1; EAtom 3]))],
   ([1; 2; 3], [EvClose 1; EvClose 2; EvClose 1; EvClose 2; EvClose 3])).
Proof. vm_compute. reflexivity. Qed.
Example manager_panic_ex : mgr_step second_panics ([0; 1; 2], []) OpClose = (([0; 1; 2], [EvClose 0; EvClose 1]), MPan 0).
Proof. vm_compute. reflexivity. Qed.

(** C65: Close never returns a nil error: with no failures it returns an empty
    ErrorList, which is not nil as an error *)
Theorem manager_close_never_nil oc s log : (mgr_close oc s log).2 <> inl None.
Proof. unfold mgr_close. destruct (close_loop oc log s []) as [[l e] [p|]]; discriminate. Qed.
Print Assumptions manager_close_never_nil.
Theorem manager_close_nil_refuted : exists oc s log, (forall i c, out_at oc log s i c = CRet None) /\ (mgr_close oc s log).2 = inl (Some (EList [])).
Proof. exists (fun _ _ => CRet None), [0; 1], []. split; reflexivity. Qed.
Print Assumptions manager_close_nil_refuted.
(** AsErrs finds the outermost list of errors, however often it was wrapped, and
    nothing else *)
Theorem as_errs_spec e l : AsErrs e = Some l <-> exists n, e = Some (Nat.iter n EWrap (EList l)).
Proof.
  split.
  - destruct e as [e|]; [|discriminate]. cbn. induction e as [a|l' |e IH]; cbn; intros H; [discriminate| |].
    + injection H as ->. exists O. reflexivity.
    + destruct (IH H) as [n E]. exists (S n). injection E as ->. reflexivity.
  - intros [n ->]. cbn. induction n as [|n IH]; [reflexivity|]. exact IH.
Qed.
Print Assumptions as_errs_spec.
Example as_errs_ex : AsErrs (Some (EWrap (EWrap (EList [EAtom 1; EWrap (EAtom 2)])))) = Some [EAtom 1; EWrap (EAtom 2)].
Proof. reflexivity. Qed.
(** so success has to be read off AsErrs: the list is empty exactly when every Close
    returned nil *)
Theorem manager_success_partial oc s log : (forall i c, s !! i = Some c -> returns (out_at oc log s i c)) ->
  exists e, (mgr_close oc s log).2 = inl (Some e) /\
    (AsErrs (Some e) = Some [] <-> forall i c, s !! i = Some c -> out_at oc log s i c = CRet None).
Proof.
  intros H. unfold mgr_close. rewrite close_loop_all by exact H. eexists. split; [reflexivity|]. cbn [app AsErrs as_errs].
  revert log H. induction s as [|c s IH]; intros log H; [split; [intros _ i c E; discriminate|reflexivity]|].
  pose proof (H 0 c eq_refl) as H0. unfold out_at in H0. cbn in H0. rewrite app_nil_r in H0.
  rewrite errs_from_cons. specialize (IH (log ++ [EvClose c])).
  assert (H' : forall i c', s !! i = Some c' -> returns (out_at oc (log ++ [EvClose c]) s i c')).
  { intros i c' E. specialize (H (S i) c' E). rewrite out_at_cons in H. exact H. }
  specialize (IH H'). split.
  - intros E. destruct (oc log c) as [[e|]|] eqn:Oc; [discriminate| |destruct H0]. intros [|i] c' Ei.
    + injection Ei as <-. unfold out_at. cbn. rewrite app_nil_r. exact Oc.
    + rewrite out_at_cons. apply IH; [exact E|exact Ei].
  - intros A. pose proof (A 0 c eq_refl) as A0. unfold out_at in A0. cbn in A0. rewrite app_nil_r in A0. rewrite A0. cbn [err_of app].
    apply IH. intros i c' E. specialize (A (S i) c' E). rewrite out_at_cons in A. exact A.
Qed.
Print Assumptions manager_success_partial.
Example success_hyp_ex : AsErrs (match (mgr_close odd_fails [0; 2] []).2 with inl e => e | inr _ => None end) = Some [].
Proof. vm_compute. reflexivity. Qed.

(** C91: ErrorList.Error is, for each error in order, "error - " and its type on one
    line and its message on the next *)
Theorem error_list_string typ msg l :
  error_list typ msg [] l = concat (map (fun e => [101; 114; 114; 111; 114; 32; 45; 32]%Z ++ typ e ++ [10%Z] ++ msg e ++ [10%Z]) l).
Proof.
  induction l as [|e l IH]; [reflexivity|]. cbn [error_list map concat]. rewrite error_list_app, IH. rewrite <- !app_assoc. reflexivity.
Qed.
Print Assumptions error_list_string.
Example error_list_ex : error_list (fun _ => [84%Z]) (fun _ => [109%Z]) [] [EAtom 0; EAtom 1] =
  [101; 114; 114; 111; 114; 32; 45; 32; 84; 10; 109; 10; 101; 114; 114; 111; 114; 32; 45; 32; 84; 10; 109; 10]%Z.
Proof. reflexivity. Qed.

(** C86: the channel is closed only after the handler has returned, and as long as
    only one signal arrives nothing is closed twice ... *)
Theorem kill_closed_after_handler s : reach k_init k_step s -> k_closed s = true -> 1 <= k_ran s.
Proof. intros R C. destruct (kinv_reach s R) as [I _]. destruct (k_pc s); try destruct I as [[? ?]|[? ?]]; try lia; try congruence. Qed.
Print Assumptions kill_closed_after_handler.
Theorem kill_survives_partial s : reach k_init k_step s -> k_sent s <= 1 -> k_pc s <> KCrash.
Proof. intros R H E. destruct (kinv_reach s R) as [I C]. rewrite E in I, C. destruct I. destruct (k_buf s); lia. Qed.
Print Assumptions kill_survives_partial.
(** ... but a second signal that arrives after the first has been taken crashes the process. *)
Theorem kill_survives_refuted : exists s, reach k_init k_step s /\ k_sent s = 2 /\ k_pc s = KCrash.
Proof.
  exists (KS false KCrash true 2 2). split; [|split; reflexivity].
  assert (R : reach k_init k_step (KS false KRecv true 1 1)).
  { eapply reach_snoc; [eapply reach_snoc; [eapply reach_snoc; [eapply reach_snoc; [eapply reach_snoc; [apply reach_refl|]|]|]|]|];
      [apply ks_signal|apply ks_recv|apply ks_log|apply ks_run|apply ks_close]. }
  eapply reach_snoc; [eapply reach_snoc; [eapply reach_snoc; [eapply reach_snoc; [eapply reach_snoc; [exact R|]|]|]|]|];
    [apply ks_signal|apply ks_recv|apply ks_log|apply ks_run|apply ks_crash].
Qed.
Print Assumptions kill_survives_refuted.
(** the handler never runs more than twice, nor more often than signals arrived *)
Theorem kill_handler_runs s : reach k_init k_step s -> k_ran s <= 2 /\ k_ran s <= k_sent s.
Proof. intros R. destruct (kinv_reach s R) as [I C]. split; [|lia]. destruct (k_pc s); try destruct I as [[? ?]|[? ?]]; lia. Qed.
Print Assumptions kill_handler_runs.
Example kill_ex : reach k_init k_step (KS false KRecv true 1 1).
Proof.
  eapply reach_snoc; [eapply reach_snoc; [eapply reach_snoc; [eapply reach_snoc; [eapply reach_snoc; [apply reach_refl|]|]|]|]|];
    [apply ks_signal|apply ks_recv|apply ks_log|apply ks_run|apply ks_close].
Qed.
