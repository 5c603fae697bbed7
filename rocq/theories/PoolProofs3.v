From Coq Require Import Sorting.Sorted.
From Verif Require Import Base Conc PoolModel PoolProofs PoolProofs2.
Local Open Scope Z.

(** *** results of Run *)
Lemma returned maxw n tts clock idle tr s t b : steps (p_step idle) (p_init maxw n tts clock) tr s ->
  LRet t b ∈ tr <-> p_job s t = JRet b.
Proof.
  revert tr s. apply steps_trace_invariant; [cbn; split; [intros H; inversion H|discriminate]|].
  intros tr s l s' _ IH H. rewrite elem_of_app, elem_of_list_singleton, IH.
  destruct H; cbn; ts; split; intros; repeat match goal with H : _ \/ _ |- _ => destruct H end; try congruence; try tauto.
  all: try (left; congruence). all: try (right; congruence).
Qed.

(** *** the bound on workers *)
Lemma bound_reach maxw n tts clock idle s : 0 < maxw -> reach (p_init maxw n tts clock) (p_step idle) s ->
  (p_max s = maxw \/ p_max s = -1) /\ p_workers s <= Z.max maxw (Z.of_nat n).
Proof.
  intros Hm. revert s. apply reach_invariant; [cbn; lia|]. intros s l s' [I1 I2] H.
  destruct H; cbn in *; lia.
Qed.
Definition handling (p : gpc) : Z := match p with GHandle _ _ _ => 1 | _ => 0 end.
Lemma handling_live f n : total handling f n <= total live f n.
Proof. induction n as [|n IH]; cbn [total]; [lia|]. assert (handling (f n) <= live (f n)) by (destruct (f n); cbn; lia). lia. Qed.
Lemma total_nonneg {A} (m : A -> Z) f n : (forall p, 0 <= m p) -> 0 <= total m f n.
Proof. intros H. induction n as [|n IH]; cbn [total]; [lia|]. specialize (H (f n)). lia. Qed.
Lemma total_zero {A} (m : A -> Z) f n : (forall i, (i < n)%nat -> m (f i) = 0) -> total m f n = 0.
Proof. induction n as [|n IH]; intros H; cbn [total]; [reflexivity|]. rewrite H, IH by (intros; auto with arith). reflexivity. Qed.

(** *** stopping *)
Lemma stopped_stays idle s tr s' : p_max s = -1 -> steps (p_step idle) s tr s' -> p_max s' = -1.
Proof. intros H R. revert tr s' R. apply steps_invariant; [exact H|]. intros s1 l s2 I1 HS. destruct HS; cbn in *; try exact I1; reflexivity. Qed.
Lemma stopped_refuses idle s tr s' t : p_max s = -1 -> p_job s t = JIdle \/ p_job s t = JLock -> steps (p_step idle) s tr s' ->
  LRet t true ∉ tr /\ (p_job s' t = JIdle \/ p_job s' t = JLock \/ p_job s' t = JRet false).
Proof.
  intros H H0 R. revert tr s' R. apply steps_trace_invariant; [split; [intros Q; inversion Q|tauto]|].
  intros tr s1 l s2 R [I1 I2] HS. pose proof (stopped_stays _ _ _ _ H R) as M. rewrite elem_of_app, elem_of_list_singleton.
  destruct HS; cbn in *; try congruence; split; try (intros [Q|Q]; [tauto|congruence]).
  all: try exact I2. all: ts; try tauto; try congruence; auto.
  all: try (intros [Q|Q]; [tauto|injection Q as ->]; intuition congruence).
  all: destruct I2 as [I2|[I2|I2]]; congruence.
Qed.

(** no worker goroutine and no call of Run in progress can move *)
Definition quiet (idle : Z) (s : pstate) : Prop := forall l s', p_step idle s l s' ->
  (forall g, p_gor s' g = p_gor s g) /\ (forall t, l <> LCall t -> p_job s' t = p_job s t).
Lemma send_ready s t w : pinv s -> p_job s t = JSend w -> exists c, p_obj s w = Some c /\ p_closed s c = false /\ p_buf s c = None.
Proof.
  intros A H. apply (a_run s A) in H. destruct (a_open s A w ltac:(rewrite H; reflexivity)) as (c & E1 & E2).
  exists c. split; [exact E1|]. split; [exact E2|]. destruct (p_buf s c) as [t'|] eqn:B; [|reflexivity].
  destruct (a_buf s A c t' B) as (w' & F1 & F2). rewrite (a_inj s A _ _ _ F1 E1) in F2. congruence.
Qed.
Ltac unquiet Q st := let X := fresh in pose proof st as X; apply Q in X; cbn in X; destruct X as [X _].
Lemma quiet_gor idle s g w c t : quiet idle s -> p_gor s g <> GHandle w c t /\ p_gor s g <> GFree w c /\ p_gor s g <> GExit /\ p_gor s g <> GLock w c.
Proof.
  intros Q. repeat split; intros E.
  - unquiet Q (ps_handled idle s g w c t E). specialize (H g). rewrite tset_eq in H. congruence.
  - unquiet Q (ps_tt idle s g w c E). specialize (H g). rewrite tset_eq in H. congruence.
  - unquiet Q (ps_exit idle s g E). specialize (H g). rewrite tset_eq in H. congruence.
  - destruct (decide (p_max s = -1)) as [M|M].
    + unquiet Q (ps_free_stop idle s g w c E M). specialize (H g). rewrite tset_eq in H. congruence.
    + unquiet Q (ps_free idle s g w c E M). specialize (H g). rewrite tset_eq in H. congruence.
Qed.
Lemma quiet_start idle s g w : quiet idle s -> p_gor s g <> GStart w.
Proof.
  intros Q E. destruct (p_obj s w) as [c|] eqn:O.
  - unquiet Q (ps_start idle s g w c E O). specialize (H g). rewrite tset_eq in H. congruence.
  - unquiet Q (ps_start_nil idle s g w E O). specialize (H g). rewrite tset_eq in H. congruence.
Qed.
Lemma quiet_recv idle s g w c : quiet idle s -> p_gor s g = GRecv w c -> p_buf s c = None /\ p_closed s c = false.
Proof.
  intros Q E. destruct (p_buf s c) as [t|] eqn:B.
  - unquiet Q (ps_recv idle s g w c t E B). specialize (H g). rewrite tset_eq in H. congruence.
  - split; [reflexivity|]. destruct (p_closed s c) eqn:C; [|reflexivity].
    unquiet Q (ps_range_end idle s g w c E B C). specialize (H g). rewrite tset_eq in H. congruence.
Qed.
Lemma quiet_job idle s t : pinv s -> quiet idle s -> p_job s t = JIdle \/ exists b, p_job s t = JRet b.
Proof.
  intros A Q. destruct (p_job s t) eqn:E; eauto.
  - exfalso. destruct (decide (p_max s = -1)) as [M|M].
    + pose proof (ps_stopped idle s t E M) as X. apply Q in X as [_ X]. specialize (X t ltac:(discriminate)). cbn in X. rewrite tset_eq in X. congruence.
    + assert (D : p_dobby s = [] \/ exists d w, p_dobby s = d ++ [w]).
      { destruct (p_dobby s) as [|w d _] using rev_ind; [left; reflexivity|right; eauto]. }
      assert (X : exists s' p, p_step idle s LPTau s' /\ p_job s' t = p /\ p <> JLock \/ p_step idle s (LRet t false) s' /\ p_job s' t = p /\ p <> JLock).
      { destruct D as [D|(d & w & D)].
        - destruct (decide (p_workers s < p_max s)) as [L|L].
          + eexists _, _. left. split; [apply (ps_new idle s t); assumption|]. split; [cbn; apply tset_eq|discriminate].
          + eexists _, _. right. split; [apply (ps_full idle s t); try assumption; lia|]. split; [cbn; apply tset_eq|discriminate].
        - eexists _, _. left. split; [apply (ps_pop idle s t d w); assumption|]. split; [cbn; apply tset_eq|discriminate]. }
      destruct X as (s' & p & [(X & X1 & X2)|(X & X1 & X2)]); apply Q in X as [_ X]; specialize (X t ltac:(discriminate)); congruence.
  - exfalso. destruct (send_ready s t w A E) as (c & O & C & B).
    pose proof (ps_send idle s t w c E O C B) as X. apply Q in X as [_ X]. specialize (X t ltac:(discriminate)). cbn in X. rewrite tset_eq in X. congruence.
  - destruct (a_jpanic s A t E).
Qed.
Lemma quiet_handled maxw n tts clock idle tr s t : 0 < maxw -> steps (p_step idle) (p_init maxw n tts clock) tr s -> quiet idle s ->
  p_job s t = JRet true -> begins t tr = 1%nat /\ ends t tr = 1%nat.
Proof.
  intros Hm R Q J. assert (R' : reach (p_init maxw n tts clock) (p_step idle) s) by (exists tr; exact R).
  pose proof (pinv_reach idle maxw n tts clock s Hm R') as A. pose proof (binv_reach idle maxw n tts clock s Hm R') as B.
  pose proof (dinv_reach idle maxw n tts clock s Hm R') as D.
  rewrite (begins_started idle maxw n tts clock tr s t R).
  destruct (ends_started idle maxw n tts clock tr s t Hm R) as [_ E2].
  assert (S1 : p_started s t = 1%nat).
  { destruct (b_ok s B t J) as [S1|[c Bc]]; [exact S1|exfalso].
    destruct (a_buf s A c t Bc) as (w & O & Ow). destruct (D w ltac:(rewrite Ow; reflexivity)) as (g & [G|(c' & O' & G)]).
    - exact (quiet_start idle s g w Q G).
    - destruct (quiet_recv idle s g w c' Q G). congruence. }
  split; [exact S1|]. rewrite E2; [exact S1|]. intros g w c. apply (quiet_gor idle s g w c t Q).
Qed.
Lemma quiet_empty maxw tts clock idle s : 0 < maxw -> reach (p_init maxw 0 tts clock) (p_step idle) s -> quiet idle s -> p_max s = -1 ->
  p_workers s = 0.
Proof.
  intros Hm R Q M. pose proof (pinv_reach idle maxw 0 tts clock s Hm R) as A. pose proof (einv_reach idle maxw tts clock s Hm R) as E.
  rewrite (cinv_reach idle maxw 0 tts clock s Hm R). apply total_zero. intros g _.
  destruct (p_gor s g) eqn:G; try reflexivity; exfalso.
  - exact (quiet_start idle s g w Q G).
  - exact (e_nil s E g w G).
  - destruct (quiet_recv idle s g w c Q G) as [B C]. pose proof (e_open s E g w c G C) as O.
    destruct (p_own s w) eqn:Ow; try discriminate.
    + exact (a_dobby_stop s A M w Ow).
    + apply (a_run s A) in Ow. destruct (quiet_job idle s t A Q) as [J|[b J]]; congruence.
    + destruct (a_queued s A w Ow) as (c' & t & O' & B'). destruct (a_recv s A g w c G) as [_ [O2|O2]]; congruence.
    + apply (a_col s A) in Ow. rewrite (proj1 (a_max s A) M) in Ow. inversion Ow.
  - destruct (quiet_gor idle s g w c t Q); tauto.
  - destruct (quiet_gor idle s g w c 0%nat Q); tauto.
  - destruct (quiet_gor idle s g w c 0%nat Q); tauto.
  - destruct (quiet_gor idle s g 0%nat 0%nat 0%nat Q); tauto.
Qed.

(** once stopped, the workers run down: every step one of them takes lowers this *)
Definition rank (p : gpc) : Z :=
  match p with GStart _ => 6 | GRecv _ _ => 5 | GHandle _ _ _ => 4 | GFree _ _ => 3 | GLock _ _ => 2 | GExit => 1 | _ => 0 end.
Definition ranks (s : pstate) : Z := total rank (p_gor s) (p_ng s).
Lemma ranks_nonneg s : 0 <= ranks s.
Proof. apply total_nonneg. intros []; cbn; lia. Qed.
Lemma stopped_runs_down idle s l s' : pinv s -> p_max s = -1 -> p_step idle s l s' ->
  (forall g, p_gor s' g = p_gor s g) /\ ranks s' = ranks s \/ ranks s' < ranks s.
Proof.
  intros A M H. unfold ranks. destruct H; cbn; try (left; split; [reflexivity|reflexivity]); try congruence; right.
  all: match goal with H : p_gor _ ?g = _ |- _ => rewrite total_tset by (apply gor_lt; [exact A|congruence]); rewrite H; cbn; lia end.
Qed.

(** *** the idle collection *)
Lemma bsearch_spec now tts : forall fuel l r, (r - l <= fuel)%nat -> (l <= r <= length tts)%nat ->
  (forall i, (i < l)%nat -> i = pred l -> nth i tts 0 < now) -> (r = length tts \/ now <= nth r tts 0) ->
  let k := bsearch fuel tts now l r in
  (l <= k <= r)%nat /\ (forall i, (i < k)%nat -> i = pred k -> nth i tts 0 < now) /\ (k = length tts \/ now <= nth k tts 0).
Proof.
  induction fuel as [|fuel IH]; intros l r Hf Hlr Hl Hr; cbn [bsearch].
  - assert (l = r) as -> by lia. split; [lia|]. split; [exact Hl|exact Hr].
  - case_decide as C; [|assert (l = r) as -> by lia; split; [lia|split; [exact Hl|exact Hr]]].
    assert (Hm : (l <= Nat.div (l + r) 2 < r)%nat).
    { split; [apply Nat.div_le_lower_bound; lia|apply Nat.div_lt_upper_bound; lia]. }
    destruct (Z.ltb_spec (nth (Nat.div (l + r) 2) tts 0) now) as [L|L].
    + destruct (IH (S (Nat.div (l + r) 2)) r) as (K1 & K2 & K3); [lia|lia| |exact Hr|].
      * intros i _ ->. cbn. exact L.
      * split; [lia|]. split; assumption.
    + destruct (IH l (Nat.div (l + r) 2)) as (K1 & K2 & K3); [lia|lia|exact Hl|right; lia|]. split; [lia|]. split; assumption.
Qed.
Lemma collect_sorted tts now : StronglySorted Z.le tts ->
  forall i, (i < length tts)%nat -> (i < collect_count tts now)%nat <-> nth i tts 0 < now.
Proof.
  intros S i Hi. unfold collect_count.
  destruct (bsearch_spec now tts (length tts) 0 (length tts)) as (K1 & K2 & K3); try lia.
  set (k := bsearch _ _ _ _ _) in *.
  assert (mono : forall i j, (i <= j)%nat -> (j < length tts)%nat -> nth i tts 0 <= nth j tts 0).
  { clear -S. induction S as [|x l _ IH F]; intros i j Hij Hj; cbn in *; [lia|]. destruct i as [|i], j as [|j]; try lia.
    - rewrite Forall_forall in F. apply F. apply elem_of_list_In, nth_In. lia.
    - apply IH; lia. }
  split.
  - intros H. pose proof (K2 (pred k) ltac:(lia) eq_refl). pose proof (mono i (pred k) ltac:(lia) ltac:(lia)). lia.
  - intros H. destruct (decide (i < k)%nat) as [|N]; [assumption|exfalso].
    destruct K3 as [K3|K3]; [lia|]. pose proof (mono k i ltac:(lia) ltac:(lia)). lia.
Qed.
Lemma collect_le tts now : (collect_count tts now <= length tts)%nat.
Proof. unfold collect_count. destruct (bsearch_spec now tts (length tts) 0 (length tts)) as (K1 & _); try lia. Qed.

(** a channel is only closed when nothing is in it, its worker is not in use and
    nobody is about to send on it *)
Lemma closes_idle idle s l s' c : pinv s -> p_step idle s l s' -> p_closed s c = false -> p_closed s' c = true ->
  exists w, p_obj s w = Some c /\ (p_own s w = OCol \/ p_own s w = ODobby).
Proof.
  intros A H C C'. destruct H; cbn in C'; try congruence.
  - apply close_all_true in C' as [C'|(w & Hw & O)]; [congruence|]. exfalso.
    apply (a_max s A) in H0. congruence.
  - destruct (decide (c = c0)) as [->|N]; [|rewrite tset_ne in C' by exact N; congruence].
    exists w. split; [assumption|]. left. apply (a_col s A). rewrite H. left.
  - apply close_all_true in C' as [C'|(w & Hw & O)]; [congruence|]. exists w. split; [exact O|]. right.
    apply (a_dobby s A); [rewrite (a_max s A); congruence|exact Hw].
Qed.
Lemma idle_unused s w c : pinv s -> p_obj s w = Some c -> p_own s w = OCol \/ p_own s w = ODobby ->
  p_buf s c = None /\ (forall g c', busy (p_gor s g) <> Some (w, c')) /\ (forall t, p_job s t <> JSend w).
Proof.
  intros A O H. split; [|split].
  - destruct (p_buf s c) as [t|] eqn:B; [|reflexivity]. destruct (a_buf s A c t B) as (w' & O' & Q).
    rewrite (a_inj s A _ _ _ O' O) in Q. destruct H; congruence.
  - intros g c' B. pose proof (proj2 (a_work s A w g) (ex_intro _ c' B)). destruct H; congruence.
  - intros t J. apply (a_run s A) in J. destruct H; congruence.
Qed.

(** *** schedules that can be computed *)
Inductive move := MClock (x : Z) | MCall (t : nat) | MRun (t : nat) | MGor (g : nat) | MTick | MCol | MMeet (u : nat) | MStop (u : nat).
Definition exec (idle : Z) (s : pstate) (m : move) : option pstate :=
  match m with
  | MClock x => if p_clock s <=? x then Some (set_clock x s) else None
  | MCall t => match p_job s t with JIdle => Some (set_job (tset (p_job s) t JLock) s) | _ => None end
  | MRun t =>
      match p_job s t with
      | JLock =>
          if p_max s =? -1 then Some (set_job (tset (p_job s) t (JRet false)) s) else
          match rev (p_dobby s) with
          | w :: d => Some (set_dobby (rev d) (set_job (tset (p_job s) t (JSend w)) (set_own (tset (p_own s) w (ORun t)) s)))
          | [] => if p_workers s <? p_max s then Some (set_nobj (S (p_nobj s)) (new_worker t (p_nobj s) s))
                  else Some (set_job (tset (p_job s) t (JRet false)) s)
          end
      | JSend w =>
          match p_obj s w with
          | Some c => match p_closed s c, p_buf s c with
                      | false, None => Some (set_buf (tset (p_buf s) c (Some t)) (set_job (tset (p_job s) t (JRet true)) (set_own (tset (p_own s) w OQueued) s)))
                      | _, _ => None end
          | None => None end
      | _ => None
      end
  | MGor g =>
      match p_gor s g with
      | GStart w => match p_obj s w with Some c => Some (set_gor (tset (p_gor s) g (GRecv w c)) s) | None => Some (set_gor (tset (p_gor s) g (GNil w)) s) end
      | GRecv w c =>
          match p_buf s c with
          | Some t => Some (set_buf (tset (p_buf s) c None) (set_gor (tset (p_gor s) g (GHandle w c t))
                        (set_started (tset (p_started s) t (S (p_started s t))) (set_own (tset (p_own s) w (OWork g)) s))))
          | None => if p_closed s c then Some (set_gor (tset (p_gor s) g GExit) s) else None
          end
      | GHandle w c t => Some (set_gor (tset (p_gor s) g (GFree w c)) s)
      | GFree w c => Some (set_gor (tset (p_gor s) g (GLock w c)) (set_tt (tset (p_tt s) w (p_clock s)) s))
      | GLock w c => if p_max s =? -1 then Some (set_workers (p_workers s - 1) (set_gor (tset (p_gor s) g GDone) (set_own (tset (p_own s) w OGone) s)))
                     else Some (set_dobby (p_dobby s ++ [w]) (set_gor (tset (p_gor s) g (GRecv w c)) (set_own (tset (p_own s) w ODobby) s)))
      | GExit => Some (set_workers (p_workers s - 1) (set_gor (tset (p_gor s) g GDone) s))
      | _ => None
      end
  | MTick =>
      match p_col s with
      | CWait => if p_max s =? -1 then None else
          let n := collect_count (map (p_tt s) (p_dobby s)) (p_clock s - idle) in
          Some (set_dobby (drop n (p_dobby s)) (set_col (CDrain (take n (p_dobby s))) (set_own (own_all (take n (p_dobby s)) OCol (p_own s)) s)))
      | _ => None end
  | MCol =>
      match p_col s with
      | CDrain (w :: ws) =>
          match p_obj s w with
          | Some c => if p_closed s c then None else Some (set_closed (tset (p_closed s) c true) (set_col (CNil w ws) (set_own (tset (p_own s) w OClosing) s)))
          | None => None end
      | CNil w ws => Some (set_tt (tset (p_tt s) w 0) (set_obj (tset (p_obj s) w None) (set_col (CPut w ws) s)))
      | CPut w ws => Some (set_pool (w :: p_pool s) (set_col (CDrain ws) (set_own (tset (p_own s) w OFree) s)))
      | CDrain [] => Some (set_col CWait s)
      | CStop => Some (set_max (-1) (set_closed (close_all (p_obj s) (p_dobby s) (p_closed s)) (set_col CDead (set_own (own_all (p_dobby s) OGone (p_own s)) s))))
      | _ => None
      end
  | MMeet u => match p_col s, p_st s u with CWait, SSend => Some (set_col CStop (set_st (tset (p_st s) u SNil) s)) | _, _ => None end
  | MStop u =>
      match p_st s u with
      | SIdle => Some (set_st (tset (p_st s) u (if p_stop s then SAgain else SDone)) s)
      | SAgain => Some (set_st (tset (p_st s) u (if p_stop s then SSend else SStuck)) s)
      | SNil => Some (set_stop false (set_st (tset (p_st s) u SDone) s))
      | _ => None
      end
  end.
Fixpoint execs (idle : Z) (s : pstate) (ms : list move) : option pstate :=
  match ms with [] => Some s | m :: ms => match exec idle s m with Some s => execs idle s ms | None => None end end.
Lemma exec_step idle s m s' : pinv s -> exec idle s m = Some s' -> exists l, p_step idle s l s'.
Proof.
  intros A. destruct m as [x|t|t|g| | |u|u]; cbn [exec].
  - destruct (Z.leb_spec (p_clock s) x); [|discriminate]. intros [= <-]. eexists. apply ps_clock. assumption.
  - destruct (p_job s t) eqn:J; try discriminate. intros [= <-]. eexists. apply ps_call. exact J.
  - destruct (p_job s t) eqn:J; try discriminate.
    + destruct (Z.eqb_spec (p_max s) (-1)) as [M|M]; [intros [= <-]; eexists; apply ps_stopped; assumption|].
      destruct (rev (p_dobby s)) as [|w d] eqn:D.
      * assert (D' : p_dobby s = []) by (rewrite <- (rev_involutive (p_dobby s)), D; reflexivity).
        destruct (Z.ltb_spec (p_workers s) (p_max s)); intros [= <-]; eexists; [apply ps_new|apply ps_full]; assumption.
      * assert (D' : p_dobby s = rev d ++ [w]) by (rewrite <- (rev_involutive (p_dobby s)), D; reflexivity).
        intros [= <-]. eexists. apply ps_pop; assumption.
    + destruct (p_obj s w) as [c|] eqn:O; [|discriminate]. destruct (p_closed s c) eqn:C; [discriminate|]. destruct (p_buf s c) eqn:B; [discriminate|].
      intros [= <-]. eexists. apply ps_send; assumption.
  - destruct (p_gor s g) eqn:G; try discriminate.
    + destruct (p_obj s w) eqn:O; intros [= <-]; eexists; [apply ps_start|apply ps_start_nil]; assumption.
    + destruct (p_buf s c) eqn:B; [intros [= <-]; eexists; apply ps_recv; assumption|]. destruct (p_closed s c) eqn:C; [|discriminate].
      intros [= <-]. eexists. eapply ps_range_end; eassumption.
    + intros [= <-]. eexists. eapply ps_handled; eassumption.
    + intros [= <-]. eexists. eapply ps_tt; eassumption.
    + destruct (Z.eqb_spec (p_max s) (-1)); intros [= <-]; eexists; [eapply ps_free_stop|eapply ps_free]; eassumption.
    + intros [= <-]. eexists. apply ps_exit. assumption.
  - destruct (p_col s) eqn:C; try discriminate. destruct (Z.eqb_spec (p_max s) (-1)); [discriminate|]. intros [= <-]. eexists. apply ps_tick; auto.
  - destruct (p_col s) as [|[|w ws]|w ws|w ws| | |] eqn:C; try discriminate.
    + intros [= <-]. eexists. apply ps_drained. exact C.
    + destruct (p_obj s w) as [c|] eqn:O; [|discriminate]. destruct (p_closed s c) eqn:Cl; [discriminate|]. intros [= <-]. eexists. apply ps_close; assumption.
    + intros [= <-]. eexists. apply ps_nil. exact C.
    + intros [= <-]. eexists. apply ps_put. exact C.
    + intros [= <-]. eexists. apply ps_stop; [exact C|]. apply dobby_closable; [exact A|]. rewrite (a_max s A). congruence.
  - destruct (p_col s) eqn:C; try discriminate. destruct (p_st s u) eqn:S; try discriminate. intros [= <-]. eexists. apply ps_meet; assumption.
  - destruct (p_st s u) eqn:S; try discriminate; intros [= <-]; eexists; [apply ps_stop_call|apply ps_stop_again|apply ps_stop_nil]; assumption.
Qed.
Lemma execs_steps idle ms : forall s s', pinv s -> execs idle s ms = Some s' -> exists tr, steps (p_step idle) s tr s'.
Proof.
  induction ms as [|m ms IH]; cbn; intros s s' A H; [injection H as <-; exists []; constructor|].
  destruct (exec idle s m) as [s1|] eqn:E; [|discriminate]. destruct (exec_step idle s m s1 A E) as [l L].
  destruct (IH s1 s' (pinv_step idle s l s1 A L) H) as [tr T]. exists (l :: tr). eapply steps_cons; eassumption.
Qed.
Lemma execs_reach maxw n tts clock idle ms s : 0 < maxw -> execs idle (p_init maxw n tts clock) ms = Some s -> reach (p_init maxw n tts clock) (p_step idle) s.
Proof. intros Hm H. apply execs_steps in H; [exact H|]. apply pinv_init. exact Hm. Qed.
