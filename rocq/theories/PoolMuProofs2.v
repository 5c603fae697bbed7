From Verif Require Import Base Conc PoolModel PoolProofs PoolProofs2 PoolProofs3 PoolMuModel PoolMuProofs.
Local Open Scope Z.

Lemma seen_all_app l1 l2 : seen_all (l1 ++ l2) = seen_all l1 ++ seen_all l2.
Proof. unfold seen_all. rewrite map_app, concat_app. reflexivity. Qed.
Lemma fseen_all_app l1 l2 : fseen_all (l1 ++ l2) = fseen_all l1 ++ fseen_all l2.
Proof. unfold fseen_all. rewrite map_app, concat_app. reflexivity. Qed.
Lemma seen_elem l tr : l <> LPTau -> l ∈ tr <-> l ∈ seen_all tr.
Proof.
  intros N. induction tr as [|m tr IH]; [reflexivity|]. change (seen_all (m :: tr)) with (seen m ++ seen_all tr). rewrite elem_of_cons, elem_of_app, IH.
  destruct m; cbn [seen]; rewrite ?elem_of_list_singleton, ?elem_of_nil; try tauto.
Qed.
Lemma seen_begins t tr : begins t tr = begins t (seen_all tr).
Proof.
  unfold begins. induction tr as [|m tr IH]; [reflexivity|]. change (seen_all (m :: tr)) with (seen m ++ seen_all tr).
  rewrite filter_cons, filter_app, app_length, <- IH. destruct m; cbn [seen]; rewrite ?filter_cons, ?filter_nil; repeat case_decide; try discriminate; try reflexivity.
Qed.
Lemma seen_ends t tr : ends t tr = ends t (seen_all tr).
Proof.
  unfold ends. induction tr as [|m tr IH]; [reflexivity|]. change (seen_all (m :: tr)) with (seen m ++ seen_all tr).
  rewrite filter_cons, filter_app, app_length, <- IH. destruct m; cbn [seen]; rewrite ?filter_cons, ?filter_nil; repeat case_decide; try discriminate; try reflexivity.
Qed.

Section sim.
Context (idle : Z).
Lemma steps_pinv a tr a' : pinv a -> steps (p_step idle) a tr a' -> pinv a'.
Proof. intros A H. induction H; [exact A|]. eapply pinv_step; [apply IHsteps; exact A|eassumption]. Qed.
Lemma sim_trace f a tr f' : Rel f a -> pinv a -> steps (f_step idle) f tr f' -> exists tr' a', steps (p_step idle) a tr' a' /\ seen_all tr' = fseen_all tr /\ Rel f' a'.
Proof.
  intros R A H. induction H as [|f ls f1 l f2 H IH H'].
  - exists [], a. split; [constructor|]. split; [reflexivity|exact R].
  - destruct (IH R) as (tr1 & a1 & S1 & E1 & R1).
    destruct (sim_step idle f1 a1 l f2 R1 (steps_pinv _ _ _ A S1) H') as (tr2 & a2 & S2 & E2 & R2).
    exists (tr1 ++ tr2), a2. split; [eapply steps_app; eassumption|]. split; [|exact R2].
    rewrite seen_all_app, fseen_all_app, E1, E2. unfold fseen_all. cbn. rewrite app_nil_r. reflexivity.
Qed.

(** *** every atomic step can be made step by step *)
Inductive rpath (t : nat) : pstate -> rpos -> pstate -> rpos -> Prop :=
| rp_nil s q : rpath t s q s q
| rp_cons s q s1 q1 s2 q2 : r_step t s q s1 q1 -> rpath t s1 q1 s2 q2 -> rpath t s q s2 q2.
Inductive gpath (g : nat) : pstate -> gpos -> pstate -> gpos -> Prop :=
| gp_nil s q : gpath g s q s q
| gp_cons s q s1 q1 s2 q2 : g_step g s q s1 q1 -> gpath g s1 q1 s2 q2 -> gpath g s q s2 q2.
Inductive cpath : pstate -> cpos -> pstate -> cpos -> Prop :=
| cp_nil s q : cpath s q s q
| cp_cons s q s1 q1 s2 q2 : c_step idle s q s1 q1 -> cpath s1 q1 s2 q2 -> cpath s q s2 q2.
Notation tau := (FL LPTau).
Lemma rpath_steps t s q s' q' mu fr fg fc fw : rpath t s q s' q' -> fr t = q ->
  exists tr fr', steps (f_step idle) (FS s mu fr fg fc fw) tr (FS s' mu fr' fg fc fw) /\ fseen_all tr = [] /\ fr' t = q' /\ forall u, u <> t -> fr' u = fr u.
Proof.
  intros H. revert fr. induction H as [s q|s q s1 q1 s2 q2 H _ IH]; intros fr E.
  - exists [], fr. split; [constructor|auto].
  - destruct (IH (tset fr t q1) (tset_eq _ _ _)) as (tr & fr' & S & E1 & E2 & E3).
    exists (tau :: tr), fr'. split; [eapply steps_cons; [|exact S]; apply fs_run; rewrite E; exact H|]. split; [exact E1|]. split; [exact E2|].
    intros u N. rewrite E3 by exact N. apply tset_ne, N.
Qed.
Lemma gpath_steps g s q s' q' mu fr fg fc fw : gpath g s q s' q' -> fg g = q ->
  exists tr fg', steps (f_step idle) (FS s mu fr fg fc fw) tr (FS s' mu fr fg' fc fw) /\ fseen_all tr = [] /\ fg' g = q' /\ forall u, u <> g -> fg' u = fg u.
Proof.
  intros H. revert fg. induction H as [s q|s q s1 q1 s2 q2 H _ IH]; intros fg E.
  - exists [], fg. split; [constructor|auto].
  - destruct (IH (tset fg g q1) (tset_eq _ _ _)) as (tr & fg' & S & E1 & E2 & E3).
    exists (tau :: tr), fg'. split; [eapply steps_cons; [|exact S]; apply fs_gor; rewrite E; exact H|]. split; [exact E1|]. split; [exact E2|].
    intros u N. rewrite E3 by exact N. apply tset_ne, N.
Qed.
Lemma cpath_steps s q s' q' mu fr fg fw : cpath s q s' q' ->
  exists tr, steps (f_step idle) (FS s mu fr fg q fw) tr (FS s' mu fr fg q' fw) /\ fseen_all tr = [].
Proof.
  intros H. induction H as [s q|s q s1 q1 s2 q2 H _ IH].
  - exists []. split; [constructor|auto].
  - destruct IH as (tr & S & E). exists (tau :: tr). split; [eapply steps_cons; [|exact S]; apply fs_col; exact H|exact E].
Qed.
Lemma cpath_app s q s1 q1 s2 q2 : cpath s q s1 q1 -> cpath s1 q1 s2 q2 -> cpath s q s2 q2.
Proof. intros H1 H2. induction H1; [exact H2|]. eapply cp_cons; eauto. Qed.
Lemma probe_path s now n l r : (r - l <= n)%nat -> (l <= r)%nat -> cpath s (CProbe now l r) s (CBuf (probed s now l r)).
Proof.
  revert l r. induction n as [|n IH]; intros l r H H'.
  - unfold probed. replace (r - l)%nat with 0%nat by lia. cbn. eapply cp_cons; [apply cs_probed; lia|constructor].
  - destruct (decide (l < r)%nat) as [L|L].
    + pose proof (Nat.div_lt_upper_bound (l + r) 2 r ltac:(lia) ltac:(lia)) as B. pose proof (Nat.div_le_lower_bound (l + r) 2 l ltac:(lia) ltac:(lia)) as B'.
      eapply cp_cons; [apply (cs_probe idle s now l r _ L eq_refl)|].
      unfold probed. replace (r - l)%nat with (S (r - l - 1)) by lia. cbn [bsearch]. rewrite decide_True by assumption. fold (tts s).
      destruct (nth (Nat.div (l + r) 2) (tts s) 0 <? now) eqn:E.
      * rewrite (bsearch_fuel _ (r - S (Nat.div (l + r) 2))) by lia. apply IH; lia.
      * rewrite (bsearch_fuel _ (Nat.div (l + r) 2 - l)) by lia. apply IH; lia.
    + unfold probed. replace (r - l)%nat with 0%nat by lia. cbn. eapply cp_cons; [apply cs_probed; lia|constructor].
Qed.
(* closing: only p_closed changes *)
Lemma close_path ws : forall s, closable (p_obj s) (p_closed s) ws ->
  exists cl, cpath s (CAll ws) (set_closed cl s) (CAll []) /\ forall c, cl c = close_all (p_obj s) ws (p_closed s) c.
Proof.
  induction ws as [|w ws IH]; intros s K.
  - exists (p_closed s). split; [destruct s; constructor|]. intros c. rewrite close_all_nil. reflexivity.
  - destruct (closable_cons _ _ _ _ K) as (c & E1 & E2 & E3).
    destruct (IH (set_closed (tset (p_closed s) c true) s) E3) as (cl & P & Q). exists cl. split; [|intros x; rewrite (close_all_cons _ _ _ _ _ _ E1); apply Q].
    eapply cp_cons; [apply cs_close; eassumption|]. exact P.
Qed.

Record idle_rel (f : fstate) (a : pstate) : Prop := {
  i_mu : f_mu f = None;
  i_run : forall t, f_run f t = ROut;
  i_gor : forall g, f_gor f g = GOut;
  i_col : f_col f = COut;
  i_rel : RelP PNone (f_s f) a }.
Definition realised (f : fstate) (a' : pstate) (l : list plab) : Prop :=
  exists tr f', steps (f_step idle) f tr f' /\ fseen_all tr = l /\ idle_rel f' a'.

Lemma real_1 s fr fg fw a' l s' : (forall t, fr t = ROut) -> (forall g, fg g = GOut) ->
  f_step idle (FS s None fr fg COut fw) (FL l) (FS s' None fr fg COut fw) -> RelP PNone s' a' -> realised (FS s None fr fg COut fw) a' (seen l).
Proof.
  intros E1 E2 H R. exists [FL l], (FS s' None fr fg COut fw). split; [eapply (steps_cons _ _ _ _ []); [exact H|constructor]|].
  split; [unfold fseen_all; cbn; apply app_nil_r|]. constructor; cbn; auto.
Qed.
Lemma real_run s fr fg fw a' t s' q l s2 : (forall t, fr t = ROut) -> (forall g, fg g = GOut) -> p_job s t = JLock ->
  rpath t s RChk s' q ->
  (forall fr', fr' t = q -> f_step idle (FS s' (Some (HRun t)) fr' fg COut fw) (FL l) (FS s2 None (tset fr' t ROut) fg COut fw)) ->
  RelP PNone s2 a' -> realised (FS s None fr fg COut fw) a' (seen l).
Proof.
  intros E1 E2 J P U R. destruct (rpath_steps t s RChk s' q (Some (HRun t)) (tset fr t RChk) fg COut fw P (tset_eq _ _ _)) as (tr & fr' & S & F1 & F2 & F3).
  exists (tau :: tr ++ [FL l]), (FS s2 None (tset fr' t ROut) fg COut fw). split; [|split].
  - eapply steps_cons; [apply fs_run_lock; [exact J|apply E1]|]. eapply steps_snoc; [exact S|]. apply U. exact F2.
  - unfold fseen_all in *. cbn. rewrite map_app, concat_app, F1. cbn. apply app_nil_r.
  - constructor; cbn; auto. intros u. destruct (decide (u = t)) as [->|]; [apply tset_eq|]. rewrite tset_ne, F3, tset_ne by assumption. apply E1.
Qed.
Lemma real_gor s fr fg fw a' g s' q0 q s2 : (forall t, fr t = ROut) -> (forall g, fg g = GOut) ->
  f_step idle (FS s None fr fg COut fw) tau (FS s (Some (HGor g)) fr (tset fg g q0) COut fw) ->
  gpath g s q0 s' q ->
  (forall fg', fg' g = q -> f_step idle (FS s' (Some (HGor g)) fr fg' COut fw) tau (FS s2 None fr (tset fg' g GOut) COut fw)) ->
  RelP PNone s2 a' -> realised (FS s None fr fg COut fw) a' [].
Proof.
  intros E1 E2 J P U R. destruct (gpath_steps g s q0 s' q (Some (HGor g)) fr (tset fg g q0) COut fw P (tset_eq _ _ _)) as (tr & fg' & S & F1 & F2 & F3).
  exists (tau :: tr ++ [tau]), (FS s2 None fr (tset fg' g GOut) COut fw). split; [|split].
  - eapply steps_cons; [exact J|]. eapply steps_snoc; [exact S|]. apply U. exact F2.
  - unfold fseen_all in *. cbn. rewrite map_app, concat_app, F1. reflexivity.
  - constructor; cbn; auto. intros u. destruct (decide (u = g)) as [->|]; [apply tset_eq|]. rewrite tset_ne, F3, tset_ne by assumption. apply E2.
Qed.
Lemma real_col s fr fg fw a' tr0 s' q0 q s2 : (forall t, fr t = ROut) -> (forall g, fg g = GOut) ->
  steps (f_step idle) (FS s None fr fg COut fw) tr0 (FS s (Some HCol) fr fg q0 fw) -> fseen_all tr0 = [] ->
  cpath s q0 s' q -> f_step idle (FS s' (Some HCol) fr fg q fw) tau (FS s2 None fr fg COut fw) ->
  RelP PNone s2 a' -> realised (FS s None fr fg COut fw) a' [].
Proof.
  intros E1 E2 J E P U R. destruct (cpath_steps s q0 s' q (Some HCol) fr fg fw P) as (tr & S & F1).
  exists (tr0 ++ tr ++ [tau]), (FS s2 None fr fg COut fw). split; [|split].
  - eapply steps_app; [exact J|]. eapply steps_snoc; [exact S|]. exact U.
  - rewrite !fseen_all_app, E, F1. reflexivity.
  - constructor; cbn; auto.
Qed.

Ltac idn R := constructor; cbn; try apply R; try exact I; try assumption; try reflexivity;
  try (intros; apply tset_ext; apply R).
Lemma real_step f a l a' : idle_rel f a -> pinv a -> p_step idle a l a' -> realised f a' (seen l).
Proof.
  intros [M Fr Fg Fc R] A H. destruct f as [s mu fr fg fc fw]. cbn in M, Fr, Fg, Fc, R. subst mu fc.
  pose proof (e_workers _ _ _ R) as W. pose proof (e_dobby _ _ _ R) as D. pose proof (e_col _ _ _ R) as C. pose proof (e_ng _ _ _ R) as NG. cbn in W, D, C, NG. rewrite Nat.add_0_r in NG. rewrite Z.sub_0_r in W.
  assert (forall c, p_closed a c = p_closed s c) as Cl. { intros c. rewrite (e_closed _ _ _ R). apply close_all_nil. }
  assert (forall g, p_gor s g = p_gor a g) as G. { intros g. symmetry. apply R. }
  assert (forall t, p_job s t = p_job a t) as J. { intros t. symmetry. apply R. }
  assert (forall w, p_obj s w = p_obj a w) as O. { intros w. symmetry. apply R. }
  assert (forall c, p_buf s c = p_buf a c) as B. { intros c. symmetry. apply R. }
  assert (forall u, p_st s u = p_st a u) as St. { intros u. symmetry. apply R. }
  destruct (e_prn _ _ _ R) as [PN PP]. pose proof (e_max _ _ _ R) as Mx.
  destruct H.
  - eapply real_1; try assumption; [apply fs_out, (os_clock s x); rewrite <- (e_clock _ _ _ R); assumption|idn R].
  - eapply real_1; try assumption; [apply fs_out, (os_call s t); congruence|idn R].
  - eapply real_run; try assumption; [rewrite J; eassumption| | |].
    + eapply rp_cons; [apply rs_stop; congruence|constructor].
    + intros fr' E. apply fs_run_false. exact E.
    + idn R.
  - eapply (real_run s fr fg fw _ t _ _ LPTau); try assumption; [rewrite J; eassumption| | |].
    + eapply rp_cons; [apply rs_chk; congruence|]. eapply rp_cons; [apply rs_some; rewrite <- D, H1; intros E; destruct d; discriminate|].
      eapply rp_cons; [apply (rs_take t s d w); congruence|]. eapply rp_cons; [apply (rs_shrink t s d w w); congruence|]. constructor.
    + intros fr' E. apply fs_run_send. exact E.
    + idn R.
  - eapply (real_run s fr fg fw _ t _ _ LPTau); try assumption; [rewrite J; eassumption| | |].
    + eapply rp_cons; [apply rs_chk; congruence|]. eapply rp_cons; [apply rs_none; congruence|]. eapply rp_cons; [apply rs_cap; lia|].
      eapply rp_cons; [apply rs_inc|]. eapply rp_cons; [apply rs_new|]. eapply rp_cons; [apply rs_make|]. eapply rp_cons; [apply rs_go|]. constructor.
    + intros fr' E. apply fs_run_send. exact E.
    + idn R; try lia.
      * split; [lia|exact PP].
      * intros w. rewrite PN, (e_nch _ _ _ R). apply tset_ext, R.
      * rewrite (e_nch _ _ _ R). reflexivity.
      * intros g. rewrite PN, NG. apply tset_ext. symmetry. apply G.
      * intros u. rewrite PN. apply tset_ext. symmetry. apply J.
  - eapply (real_run s fr fg fw _ t _ _ LPTau); try assumption; [rewrite J; eassumption| | |].
    + eapply rp_cons; [apply rs_chk; congruence|]. eapply rp_cons; [apply rs_none; congruence|]. eapply rp_cons; [apply rs_cap; lia|].
      eapply rp_cons; [apply rs_inc|]. eapply rp_cons; [apply (rs_recycled t _ p1 w p2); cbn; congruence|]. eapply rp_cons; [apply rs_make|]. eapply rp_cons; [apply rs_go|]. constructor.
    + intros fr' E. apply fs_run_send. exact E.
    + idn R; try lia.
      * split; [lia|reflexivity].
      * intros v. rewrite (e_nch _ _ _ R). apply tset_ext, R.
      * rewrite (e_nch _ _ _ R). reflexivity.
      * intros g. rewrite NG. apply tset_ext. symmetry. apply G.
  - eapply (real_run s fr fg fw _ t _ _ (LRet t false)); try assumption; [rewrite J; eassumption| | |].
    + eapply rp_cons; [apply rs_chk; congruence|]. eapply rp_cons; [apply rs_none; congruence|]. eapply rp_cons; [apply rs_full; lia|]. constructor.
    + intros fr' E. apply fs_run_false. exact E.
    + idn R.
  - eapply real_1; try assumption; [apply fs_out, (os_send s t w c); [rewrite J|rewrite O|rewrite <- Cl|rewrite B]; assumption|idn R].
  - eapply real_1; try assumption; [apply fs_out, (os_send_closed s t w c); [rewrite J|rewrite O|rewrite <- Cl]; assumption|idn R].
  - eapply real_1; try assumption; [apply fs_out, (os_start s g w c); [rewrite G|rewrite O]; assumption|idn R].
  - eapply real_1; try assumption; [apply fs_out, (os_start_nil s g w); [rewrite G|rewrite O]; assumption|idn R].
  - eapply real_1; try assumption; [apply fs_out, (os_recv s g w c t); [rewrite G|rewrite B]; assumption|idn R].
    intros u. rewrite (e_started _ _ _ R). apply tset_ext, R.
  - eapply real_1; try assumption; [apply fs_out, (os_range_end s g w c); [rewrite G|rewrite B|rewrite <- Cl]; assumption|idn R].
  - eapply real_1; try assumption; [apply fs_out, (os_handled s g w c t); rewrite G; assumption|idn R].
  - eapply real_1; try assumption; [apply fs_out, (os_tt s g w c); rewrite G; assumption|idn R].
    intros u. rewrite (e_clock _ _ _ R). apply tset_ext, R.
  - eapply (real_gor s fr fg fw _ g); try assumption.
    + apply (fs_free_lock idle s fr fg COut fw g w c); [rewrite G; assumption|apply Fg].
    + eapply gp_cons; [apply gs_chk; congruence|]. eapply gp_cons; [apply (gs_app g s w c); rewrite G; assumption|]. constructor.
    + intros fg' E. apply (fs_free_keep idle _ _ _ _ _ _ g w c); [exact E|cbn; rewrite G; assumption].
    + idn R; congruence.
  - eapply (real_gor s fr fg fw _ g); try assumption.
    + apply (fs_free_lock idle s fr fg COut fw g w c); [rewrite G; assumption|apply Fg].
    + eapply gp_cons; [apply gs_stop; congruence|]. eapply gp_cons; [apply gs_dec|]. constructor.
    + intros fg' E. apply fs_gor_end. left. exact E.
    + idn R. lia.
  - eapply (real_gor s fr fg fw _ g); try assumption.
    + apply (fs_exit_lock idle s fr fg COut fw g); [rewrite G; assumption|apply Fg].
    + eapply gp_cons; [apply gs_exit|]. constructor.
    + intros fg' E. apply fs_gor_end. right. exact E.
    + idn R. lia.
  - (* tick *)
    assert (map (p_tt s0) (p_dobby s0) = tts s) as T. { unfold tts. rewrite D. apply map_ext. apply R. }
    rewrite T, (e_clock _ _ _ R) in H1.
    assert (length (tts s) = length (p_dobby s)) as L by (unfold tts; apply map_length).
    pose proof (bsearch_range (length (tts s)) (tts s) (p_clock s - idle) 0 (length (tts s)) ltac:(lia)) as Rg.
    fold (collect_count (tts s) (p_clock s - idle)) in Rg. rewrite <- H1, L in Rg.
    assert (steps (f_step idle) (FS s None fr fg COut fw) [tau; tau] (FS s (Some HCol) fr fg CChk fw)) as Lk.
    { eapply steps_cons; [apply fs_tick; congruence|]. eapply steps_cons; [apply fs_tick_lock|constructor]. }
    destruct (decide (p_dobby s = [])) as [Z0|Z0].
    + assert (n = 0%nat) as -> by (rewrite Z0 in Rg; cbn in Rg; lia).
      eapply (real_col s fr fg fw); try assumption; [exact Lk|reflexivity| |apply (fs_col_unlock idle _ _ _ _ _ [])|].
      * eapply cp_cons; [apply cs_chk; congruence|]. eapply cp_cons; [apply cs_now|]. rewrite decide_True by exact Z0. constructor.
      * idn R.
    + eapply (real_col s fr fg fw); try assumption; [exact Lk|reflexivity| |apply fs_col_unlock|].
      * eapply cp_cons; [apply cs_chk; congruence|]. eapply cp_cons; [apply cs_now|]. rewrite decide_False by exact Z0.
        eapply cpath_app; [apply (probe_path s (p_clock s - idle) (length (p_dobby s))); lia|].
        replace (probed s (p_clock s - idle) 0 (length (p_dobby s))) with n by (rewrite H1; unfold probed, collect_count; rewrite L, Nat.sub_0_r; reflexivity).
        eapply cp_cons; [apply cs_buf|]. eapply cp_cons; [apply cs_copy|]. eapply cp_cons; [apply cs_trunc|]. constructor.
      * idn R.
        -- rewrite D, app_length, !drop_length, take_app_alt; [reflexivity|]. rewrite drop_length. lia.
        -- rewrite D. reflexivity.
  - exfalso. apply (a_max _ A) in H0. congruence.
  - exfalso. apply (a_max _ A) in H0. congruence.
  - eapply real_1; try assumption; [apply fs_out_col, (oc_close s w ws c); [congruence|rewrite O|rewrite <- Cl]; assumption|idn R].
    intros x. rewrite close_all_nil. apply tset_ext, Cl.
  - eapply real_1; try assumption; [apply fs_out_col, (oc_close_panic s w ws); [congruence|intros c; rewrite O, <- Cl; auto]|idn R].
  - eapply real_1; try assumption; [apply fs_out_col, (oc_nil s w ws); congruence|idn R].
  - eapply real_1; try assumption; [apply fs_out_col, (oc_put s w ws); congruence|idn R]. split; congruence.
  - eapply real_1; try assumption; [apply fs_out_col, (oc_drained s); congruence|idn R].
  - eapply real_1; try assumption; [apply fs_out_col, (oc_meet s u); [congruence|rewrite St; assumption]|idn R].
  - assert (closable (p_obj s) (p_closed s) (p_dobby s)) as K.
    { destruct H0 as [K1 K2]. rewrite <- D. split; [exact K1|]. intros w Hw. destruct (K2 w Hw) as (c & F1 & F2 & F3). exists c.
      rewrite O, <- Cl. split; [exact F1|]. split; [exact F2|]. intros w' H' E. rewrite O in E. exact (F3 w' H' E). }
    destruct (close_path (p_dobby s) (set_max (-1) s) K) as (cl & P & Q).
    eapply (real_col s fr fg fw _ [tau]); try assumption; [eapply (steps_cons _ _ _ _ []); [apply fs_stop_lock; congruence|constructor]|reflexivity| |apply fs_col_end|].
    + eapply cp_cons; [apply cs_max|]. exact P.
    + idn R. intros c. rewrite close_all_nil, Q. unfold close_all. rewrite Cl, D. f_equal. cbn. clear - O. induction (p_dobby s) as [|w ws IH]; [reflexivity|]. cbn. rewrite IH, O. reflexivity.
  - exfalso. apply H0. apply dobby_closable; [exact A|]. intros E. apply (a_max _ A) in E. congruence.
  - eapply real_1; try assumption; [apply fs_out, (os_stop_call s u); rewrite St; assumption|idn R]. intros v. rewrite (e_stop _ _ _ R). apply tset_ext, R.
  - eapply real_1; try assumption; [apply fs_out, (os_stop_again s u); rewrite St; assumption|idn R]. intros v. rewrite (e_stop _ _ _ R). apply tset_ext, R.
  - eapply real_1; try assumption; [apply fs_out, (os_stop_nil s u); rewrite St; assumption|idn R].
Qed.
Lemma real_trace f a tr a' : idle_rel f a -> pinv a -> steps (p_step idle) a tr a' -> realised f a' (seen_all tr).
Proof.
  intros R A H. induction H as [|a ls a1 l a2 H IH H'].
  - exists [], f. split; [constructor|]. split; [reflexivity|exact R].
  - destruct (IH R A) as (tr1 & f1 & S1 & E1 & R1). destruct (real_step f1 a1 l a2 R1 (steps_pinv _ _ _ A H) H') as (tr2 & f2 & S2 & E2 & R2).
    exists (tr1 ++ tr2), f2. split; [eapply steps_app; eassumption|]. split; [|exact R2]. rewrite fseen_all_app, seen_all_app, E1, E2. unfold seen_all. cbn. rewrite app_nil_r. reflexivity.
Qed.
End sim.

(** *** whoever holds the mutex lets it go *)
Definition to_go (p : pos) (s : pstate) : nat :=
  match p with
  | PNone => 0
  | PRun _ q => match q with ROut => 0 | RChk => 9 | RLen => 8 | RTake => 3 | RShrink _ => 2 | RCap => 7 | RInc => 6 | RGet => 5 | RMake _ => 4 | RGo _ => 3 | RSend _ => 1 | RFalse => 1 end
  | PGor _ q => match q with GOut => 0 | FChk => 3 | FDec | FApp | XDec => 2 | FStop | FKeep | XUnl => 1 end
  | PCol q => match q with COut | CTick => 0 | CChk => length (p_dobby s) + 20 | CNow => length (p_dobby s) + 19 | CProbe _ l r => (r - l) + 10
      | CBuf _ => 9 | CCopy _ _ => 4 | CTrunc _ _ => 3 | CUnl _ => 2 | CSMax => length (p_dobby s) + 3 | CAll ws => length ws + 1 end
  | PWork _ q => match q with WRead => 2 | WUnl _ => 1 | _ => 0 end
  end.
Definition hm (f : fstate) : nat := to_go (fpos f) (f_s f).
Section progress.
Context (idle : Z).
Lemma r_left t s q s' q' : r_step t s q s' q' -> (to_go (PRun t q') s' < to_go (PRun t q) s)%nat.
Proof. intros H. destruct H; cbn; lia. Qed.
Lemma g_left t s q s' q' : g_step t s q s' q' -> (to_go (PGor t q') s' < to_go (PGor t q) s)%nat.
Proof. intros H. destruct H; cbn; lia. Qed.
Lemma c_left s q s' q' : c_step idle s q s' q' -> (to_go (PCol q') s' < to_go (PCol q) s)%nat.
Proof.
  intros H. destruct H; cbn [to_go]; try lia; cbn; try lia.
  - case_decide; cbn; lia.
  - pose proof (Nat.div_lt_upper_bound (l + r) 2 r ltac:(lia) ltac:(lia)) as B. pose proof (Nat.div_le_lower_bound (l + r) 2 l ltac:(lia) ltac:(lia)) as B'.
    destruct (_ <? _); subst m; cbn [to_go]; lia.
Qed.
Lemma left_dobby p s s' : p_dobby s' = p_dobby s -> to_go p s' = to_go p s.
Proof. intros E. destruct p as [|t []|g []|[]|u []]; cbn; rewrite ?E; reflexivity. Qed.
Lemma o_step_dobby s l s' : o_step s l s' -> p_dobby s' = p_dobby s.
Proof. intros H. destruct H; reflexivity. Qed.
Lemma oc_step_dobby s l s' : oc_step s l s' -> p_dobby s' = p_dobby s.
Proof. intros H. destruct H; reflexivity. Qed.

Lemma holder_step f a l f' h : Rel f a -> pinv a -> f_step idle f l f' -> f_mu f = Some h ->
  (f_mu f' = Some h /\ fpos f' = fpos f /\ hm f' = hm f) \/ (f_mu f' = Some h /\ hm f' < hm f)%nat \/ f_mu f' = None.
Proof.
  intros [X R] A H M. unfold hm. destruct H; cbn in M |- *; try discriminate; try (right; right; reflexivity).
  - left. split; [exact M|]. split; [reflexivity|]. unfold fpos. cbn. rewrite M. apply left_dobby. eapply o_step_dobby; eassumption.
  - left. split; [exact M|]. split; [reflexivity|]. unfold fpos. cbn. rewrite M. apply left_dobby. eapply oc_step_dobby; eassumption.
  - right. left. split; [exact M|]. destruct (r_step_pos _ _ _ _ _ H) as (N1 & _). destruct (x_run _ X t) as [E|E]; cbn in E; [tauto|]. rewrite E. unfold fpos. cbn [f_mu f_run]. rewrite tset_eq.
    apply r_left. exact H.
  - right. left. split; [exact M|]. destruct (g_step_pos _ _ _ _ _ H) as (N1 & _). destruct (x_gor _ X g) as [E|E]; cbn in E; [tauto|]. rewrite E. unfold fpos. cbn [f_mu f_gor]. rewrite tset_eq.
    apply g_left. exact H.
  - left. split; [exact M|]. assert (mu <> Some HCol) as N. { intros ->. apply (e_facts _ _ _ R). } unfold fpos. cbn. destruct mu as [[]|]; auto; congruence.
  - right. left. split; [exact M|]. destruct (c_step_pos idle _ _ _ _ H) as (N1 & N2 & _). destruct (x_col _ X) as [E|E]; cbn in E; [tauto|]. rewrite E. unfold fpos. cbn [f_mu f_col].
    apply c_left. exact H.
  - left. split; [exact M|]. assert (mu <> Some (HWork u)) as N. { intros ->. pose proof (e_facts _ _ _ R) as F. cbn in F. rewrite H in F. exact F. }
    unfold fpos. cbn [f_mu f_run f_gor f_col f_wk f_s]. destruct mu as [[]|]; auto. rewrite tset_ne by congruence. auto.
  - right. left. split; [exact M|]. destruct (x_wk _ X u) as [E|E]; cbn in E; [destruct E; congruence|]. rewrite E. unfold fpos. cbn [f_mu f_wk]. rewrite tset_eq, H. cbn. lia.
Qed.
Lemma holder_moves f a h : Rel f a -> pinv a -> f_mu f = Some h -> exists l f', f_step idle f l f' /\ (f_mu f' = Some h /\ (hm f' < hm f)%nat \/ f_mu f' = None).
Proof.
  intros [X R] A M. assert (exists l f', f_step idle f l f' /\ (f_mu f' = None \/ f_mu f' = Some h /\ fpos f' <> fpos f)) as (l & f' & H & D).
  { destruct f as [s mu fr fg fc fw]. cbn in M. subst mu. pose proof (e_facts _ _ _ R) as F. unfold fpos in *. cbn [f_mu f_run f_gor f_col f_wk f_s] in *.
    destruct h as [t|g| |u]; cbn in F.
    - assert (forall s' q', r_step t s (fr t) s' q' -> q' <> fr t -> exists l f', f_step idle (FS s (Some (HRun t)) fr fg fc fw) l f' /\
        (f_mu f' = None \/ f_mu f' = Some (HRun t) /\ match f_mu f' with None => PNone | Some (HRun t) => PRun t (f_run f' t) | Some (HGor g) => PGor g (f_gor f' g) | Some HCol => PCol (f_col f') | Some (HWork u) => PWork u (f_wk f' u) end <> PRun t (fr t))) as K.
      { intros s' q' H N. eexists _, _. split; [eapply fs_run; exact H|]. right. cbn [f_mu f_run]. rewrite tset_eq. split; [reflexivity|congruence]. }
      destruct F as [J F]. destruct (fr t) as [| | | | | | | | | | |] eqn:E.
      + destruct F.
      + destruct (decide (p_max s = -1)); [eapply K; [apply rs_stop; assumption|discriminate]|eapply K; [apply rs_chk; assumption|discriminate]].
      + destruct (decide (p_dobby s = [])); [eapply K; [apply rs_none; assumption|discriminate]|eapply K; [apply rs_some; assumption|discriminate]].
      + destruct F as [_ F]. destruct (exists_last F) as (d & w & Ed). eapply K; [eapply rs_take; exact Ed|discriminate].
      + destruct F as (_ & d & Ed). eapply K; [eapply rs_shrink; exact Ed|discriminate].
      + destruct (decide (p_workers s < p_max s)); [eapply K; [apply rs_cap; assumption|discriminate]|eapply K; [apply rs_full; lia|discriminate]].
      + eapply K; [apply rs_inc|discriminate].
      + eapply K; [apply rs_new|discriminate].
      + eapply K; [apply rs_make|discriminate].
      + eapply K; [apply rs_go|discriminate].
      + eexists _, _. split; [eapply fs_run_send; exact E|]. left. reflexivity.
      + eexists _, _. split; [eapply fs_run_false; exact E|]. left. reflexivity.
    - assert (forall s' q', g_step g s (fg g) s' q' -> q' <> fg g -> exists l f', f_step idle (FS s (Some (HGor g)) fr fg fc fw) l f' /\
        (f_mu f' = None \/ f_mu f' = Some (HGor g) /\ match f_mu f' with None => PNone | Some (HRun t) => PRun t (f_run f' t) | Some (HGor g) => PGor g (f_gor f' g) | Some HCol => PCol (f_col f') | Some (HWork u) => PWork u (f_wk f' u) end <> PGor g (fg g))) as K.
      { intros s' q' H N. eexists _, _. split; [eapply fs_gor; exact H|]. right. cbn [f_mu f_gor]. rewrite tset_eq. split; [reflexivity|congruence]. }
      destruct (fg g) as [| | | | | | |] eqn:E.
      + destruct F.
      + destruct (decide (p_max s = -1)); [eapply K; [apply gs_stop; assumption|discriminate]|eapply K; [apply gs_chk; assumption|discriminate]].
      + eapply K; [apply gs_dec|discriminate].
      + eexists _, _. split; [eapply fs_gor_end; left; exact E|]. left. reflexivity.
      + destruct F as (_ & w & c & F). eapply K; [eapply gs_app; exact F|discriminate].
      + destruct F as (w & c & F). eexists _, _. split; [eapply fs_free_keep; [exact E|exact F]|]. left. reflexivity.
      + eapply K; [apply gs_exit|discriminate].
      + eexists _, _. split; [eapply fs_gor_end; right; exact E|]. left. reflexivity.
    - assert (forall s' q', c_step idle s fc s' q' -> q' <> fc -> exists l f', f_step idle (FS s (Some HCol) fr fg fc fw) l f' /\
        (f_mu f' = None \/ f_mu f' = Some HCol /\ match f_mu f' with None => PNone | Some (HRun t) => PRun t (f_run f' t) | Some (HGor g) => PGor g (f_gor f' g) | Some HCol => PCol (f_col f') | Some (HWork u) => PWork u (f_wk f' u) end <> PCol fc)) as K.
      { intros s' q' H N. eexists _, _. split; [eapply fs_col; exact H|]. right. cbn [f_mu f_col]. split; [reflexivity|congruence]. }
      destruct fc as [| | | |now l r|l|l buf|l buf|buf| |ws].
      + destruct F.
      + destruct F.
      + destruct (decide (p_max s = -1)); [eapply K; [apply cs_stopped; assumption|discriminate]|eapply K; [apply cs_chk; assumption|discriminate]].
      + eapply K; [apply cs_now|case_decide; discriminate].
      + destruct (decide (l < r)%nat) as [L|L]; [|eapply K; [apply cs_probed; exact L|discriminate]].
        pose proof (c_left _ _ _ _ (cs_probe idle s now l r _ L eq_refl)) as Dec.
        eapply K; [apply (cs_probe idle s now l r _ L eq_refl)|]. intros E. rewrite E in Dec. lia.
      + eapply K; [apply cs_buf|discriminate].
      + eapply K; [apply cs_copy|discriminate].
      + eapply K; [apply cs_trunc|discriminate].
      + eexists _, _. split; [eapply fs_col_unlock|]. left. reflexivity.
      + eapply K; [apply cs_max|discriminate].
      + destruct ws as [|w ws]; [eexists _, _; split; [eapply fs_col_end|]; left; reflexivity|].
        destruct F as [_ F]. destruct (closable_cons _ _ _ _ F) as (c & E1 & E2 & _). eapply K; [apply cs_close; eassumption|]. intros E. injection E as E. assert (length ws = length (w :: ws)) by congruence. cbn in *. lia.
    - destruct (fw u) as [| | |n] eqn:E; [destruct F|destruct F| |].
      + eexists _, _. split; [eapply fs_wk_read; exact E|]. right. cbn [f_mu f_wk]. rewrite tset_eq. split; [reflexivity|congruence].
      + eexists _, _. split; [eapply fs_wk_ret; exact E|]. left. reflexivity. }
  exists l, f'. split; [exact H|]. destruct D as [D|[D1 D2]]; [right; exact D|].
  destruct (holder_step f a l f' h (conj X R) A H M) as [(_ & E & _)|[E|E]]; [tauto|left; exact E|right; exact E].
Qed.
End progress.
