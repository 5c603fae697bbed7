(** Liveness of syncmapx on sync.RWMutex: the fair executions of SyncMapRWModel are, seen
    from the lock, fair executions of RWModel in which those that have the lock give it back. *)
From stdpp Require Import gmap.
From Verif Require Import Base Conc Lin Fair SyncMapModel SyncMapProofs RWModel RWProofs RWFairProofs SyncMapRWModel SyncMapRWProofs.

#[global] Instance rwpc_eq_dec : EqDecision rwpc.
Proof. solve_decision. Defined.

Section Live.
Context {K V : Type} `{Countable K} (zero : V) (N : nat) (HN : (Z.of_nat N <= max_readers)%Z).
Notation mpc := (mpc K V).
Notation xstate := (xstate K V).
Notation lab := (nat * option (lev (mop K V) (mret K V)))%type.

(** nobody has to call a method; what has been called has to go on *)
Definition x_go (s : xstate) (l : lab) (s' : xstate) : Prop := x_step zero N s l s' /\ match snd l with Some (Inv _ _) => False | _ => True end.
Definition x_view (t : nat) (s : xstate) : mpc * rwpc := (x_th s t, rw_pc (x_rw s) t).
Definition x_fair (e : nat -> xstate) : Prop := forall t, strongly_fair x_go (x_view t) e.

(** a step of t leaves the other goroutines where they are *)
Lemma x_other (s : xstate) t l s' u : x_step zero N s (t, l) s' -> u <> t -> x_th s' u = x_th s u /\ rw_pc (x_rw s') u = rw_pc (x_rw s) u.
Proof using.
  intros HS Ne. remember (t, l) as lb eqn:El.
  destruct HS; injection El as <- <-; cbn; rewrite ?tset_ne by auto; auto;
    try (match goal with ST : rw_step _ _ _ _ |- _ => rewrite (rw_other N _ _ _ _ ST) by auto end); auto.
  destruct (has_lock _); rewrite ?tset_ne by auto; (split; [reflexivity|]); match goal with ST : rw_step _ _ _ _ |- _ => exact (rw_other N _ _ _ _ ST Ne) end.
Qed.
(** a step changes the lock by a step of that goroutine, or not at all *)
Lemma x_rw_step (s : xstate) t l s' : x_step zero N s (t, l) s' -> x_rw s' = x_rw s \/ rw_step N (x_rw s) t (x_rw s').
Proof using. intros HS. remember (t, l) as lb eqn:El. destruct HS; injection El as <- <-; cbn; auto. Qed.
Lemma rw_moves s t s' : rwinv N s -> rw_step N s t s' -> rw_pc s' t <> rw_pc s t.
Proof using.
  intros IV HS Eq. pose proof (rw_self N s t s' IV HS) as X. rewrite Eq in X.
  destruct (rw_pc s t); try (intuition congruence); try (destruct X as [?|[? ?]]; congruence); try (destruct X; congruence).
  destruct X as [(_ & X & _)|[X _]]; [injection X; lia|congruence].
Qed.

(** at most that many steps of the goroutine until it makes one of the lock's *)
Definition x_rank (t : nat) (s : xstate) : nat :=
  match x_th s t with
  | MRet _ _ => 2 | MIdle => 1 | MWant _ => 0
  | MHold _ => size (x_map s) + 3 | MIter _ _ rest _ => length rest + 1 | MWriting _ => 1 | MRel _ _ => 0
  end.
Notation xv tr s := (xinv zero N tr s).
Lemma x_rank_step tr (s : xstate) t l s' u : xv tr s -> x_step zero N s (t, l) s' -> x_rw s' = x_rw s ->
  if decide (u = t) then x_rank u s' < x_rank u s \/ x_view u s' = x_view u s /\ x_rank u s' = x_rank u s else x_rank u s' = x_rank u s.
Proof using HN.
  intros IV HS ER. destruct IV as [IR (w & rs & IM) IC IN]. destruct (decide (u = t)) as [->|Ne].
  - remember (t, l) as lb eqn:El. unfold x_rank, x_view.
    destruct HS as [m tn c rw th t0 o L E|m tn c rw th t0 o rw' E P ST P'|m tn c rw th t0 o rw' E P ST|m c rw th t0 o r E Er|m c rw th t0 o l0 E Ei El'
      |m c rw th t0 o p rest dn E|m m0 c rw th t0 o rest rest' dn p Hne E|m tn c rw th t0 o m0 dn r E Er|m c rw th t0 o E Eo
      |m tn c rw th t0 o m' E Ew|m c rw th t0 o E|m tn c rw th t0 o r rw' E P ST|m tn c rw th t0 o r rw' E P ST|m tn c rw th t0 o r E P];
      injection El as -> <-; cbn in *; rewrite ?tset_eq, ?E; auto; try lia; try (subst rw'; destruct (rw_moves _ _ _ IR ST); reflexivity).
    + left. pose proof (Permutation_length El') as X. change (size m) with (length (map_to_list m)). lia.
    + exfalso. pose proof (iv_pc _ _ _ IM t) as Ip. cbn in Ip. rewrite E in Ip. cbn in Ip. destruct Ip as (P1 & _). cbn in P1. congruence.
  - destruct (x_other s t l s' u HS Ne) as [X1 _]. unfold x_rank. rewrite X1. destruct (x_th s u) as [|o|o|o m0 rest dn|o|o r|o r] eqn:Eu; auto. f_equal.
    (* the map does not change while u has the lock *)
    remember (t, l) as lb eqn:El. destruct HS; injection El as <- <-; cbn in *; auto.
    exfalso. assert (HW : hw (th t0)) by (match goal with X : th t0 = _ |- _ => rewrite X end; exact I).
    destruct (writer_alone zero _ _ t0 IM HW) as [_ HA]. destruct (HA u Ne) as [G1 G2]. cbn in G1, G2. rewrite Eu in G1, G2. cbn in G1, G2. destruct (is_write o); tauto.
Qed.
(** whoever is in a call and not waiting for the lock can go on *)
Lemma x_body_can tr (s : xstate) t : xv tr s -> hr (x_th s t) \/ hw (x_th s t) -> can_move x_go (x_view t) s.
Proof using HN.
  intros IV Hu. pose proof IV as [IR (w & rs & I) IC IN].
  assert (M : forall l s', x_step zero N s (t, l) s' -> match l with Some (Inv _ _) => False | _ => True end -> x_th s' t <> x_th s t -> can_move x_go (x_view t) s).
  { intros l s' HS NI D. exists (t, l), s'. split; [split; assumption|]. intros X. injection X as X _. auto. }
  pose proof (iv_pc _ _ _ I t) as Ip. pose proof (fun H => reader_no_torn zero tr _ t I H) as NT.
  assert (NW : forall o, x_th s t = MHold o -> is_write o = true -> x_torn s = false).
  { intros o Eo Ew. destruct (x_torn s) eqn:Et; [|reflexivity]. destruct (iv_torn _ _ _ I eq_refl) as (v & o' & Ev). cbn in Ev.
    assert (Hwv : w = Some v) by (apply (iv_w _ _ _ I); cbn; rewrite Ev; exact Logic.I).
    assert (Hwu : w = Some t) by (apply (iv_w _ _ _ I); cbn; rewrite Eo; exact Ew). congruence. }
  destruct s as [m tn c rw th]. cbn in *.
  destruct (th t) as [|o|o|o m0 rest dn|o|o r|o r] eqn:E; cbn in *; try tauto.
  - destruct (is_write o) eqn:Eo.
    + rewrite (NW o eq_refl Eo) in *. eapply M; [eapply xs_write_begin; eauto|exact Logic.I|]. cbn. rewrite tset_eq. discriminate.
    + rewrite (NT eq_refl) in *. destruct (read_result zero o m) as [r|] eqn:Er.
      * eapply M; [eapply xs_read; eauto|exact Logic.I|]. cbn. rewrite tset_eq. discriminate.
      * eapply M; [eapply xs_range; [exact E| |reflexivity]; destruct o; cbn in *; discriminate|exact Logic.I|]. cbn. rewrite tset_eq. discriminate.
  - destruct Ip as (-> & P2 & Eo). rewrite (NT Logic.I) in *. destruct rest as [|p rest].
    + destruct (iter_result o dn) as [r|] eqn:Er.
      * eapply M; [eapply xs_range_end; eauto|exact Logic.I|]. cbn. rewrite tset_eq. discriminate.
      * exfalso. destruct o; cbn in *; congruence.
    + eapply M; [eapply xs_next; eauto|exact Logic.I|]. cbn. rewrite tset_eq. intros X. injection X as X1 X2. apply (f_equal length) in X1. cbn in X1. lia.
  - destruct Ip as [Eo ->]. destruct (write_result o m) as [m'|] eqn:Ew; [|destruct o; discriminate].
    eapply M; [eapply xs_write_end; eauto|exact Logic.I|]. cbn. rewrite tset_eq. discriminate.
  - assert (PH : exists rw', rw_step N rw t rw').
    { specialize (IC t). rewrite E in IC. cbn in IC. destruct rw as [rc rx rwo ra rb pc]. cbn in *. destruct (is_write o); eexists; [eapply rw_wunlock, IC|eapply rw_runlock, IC]. }
    destruct PH as [rw' PH]. eapply M; [eapply xs_unlock; [exact E| |exact PH]|exact Logic.I|].
    + specialize (IC t). rewrite E in IC. cbn in IC. rewrite IC. destruct (is_write o); discriminate.
    + cbn. rewrite tset_eq. discriminate.
Qed.
(** if the lock's code can go on, the call can *)
Lemma x_can tr (s : xstate) t : xv tr s -> can_move (rw_go N) (fun r => rw_pc r t) (x_rw s) -> can_move x_go (x_view t) s.
Proof using HN.
  intros IV (u & rw' & [ST NI] & D). pose proof IV as [IR _ IC IN].
  assert (u = t) as -> by (destruct (decide (u = t)); [assumption|]; rewrite (rw_other N _ _ _ _ ST) in D by auto; congruence).
  pose proof (IC t) as C. destruct s as [m tn c rw th]. cbn in *.
  assert (M : forall l s', x_step zero N (XS m tn c rw th) (t, l) s' -> match l with Some (Inv _ _) => False | _ => True end -> rw_pc (x_rw s') t <> rw_pc rw t -> can_move x_go (x_view t) (XS m tn c rw th)).
  { intros l s' HS NL DD. exists (t, l), s'. split; [split; assumption|]. intros X. injection X as _ X. auto. }
  destruct (th t) as [|o|o|o m0 rest dn|o|o r|o r] eqn:E.
  - cbn in C. congruence.
  - eapply M; [eapply xs_locking; [exact E|exact NI|exact ST]|exact Logic.I|exact D].
  - apply (x_body_can tr _ t IV). cbn. rewrite E. cbn. destruct (is_write o); auto.
  - apply (x_body_can tr _ t IV). cbn. rewrite E. cbn. auto.
  - apply (x_body_can tr _ t IV). cbn. rewrite E. cbn. auto.
  - apply (x_body_can tr _ t IV). cbn. rewrite E. cbn. destruct (is_write o); auto.
  - eapply M; [eapply xs_unlocking; [exact E|exact NI|exact ST]|exact Logic.I|exact D].
Qed.

Context (e : nat -> xstate) (ls : nat -> option lab) (E : execution (x_step zero N) x_new e ls) (F : x_fair e).
Lemma x_iv i : exists tr, xv tr (e i).
Proof using E HN. eexists. apply (xinv_steps zero N HN). apply (trace_steps _ _ e ls E). Qed.
(** *** what the lock sees *)
Definition rw_e (i : nat) : rwstate := x_rw (e i).
Definition rw_ls (i : nat) : option nat :=
  match ls i with Some (t, _) => if decide (rw_pc (rw_e (1 + i)) t = rw_pc (rw_e i) t) then None else Some t | None => None end.
Lemma rw_execution : execution (rw_step N) rw_new rw_e rw_ls.
Proof using E HN.
  split; [unfold rw_e; rewrite (proj1 E); reflexivity|]. intros i. unfold rw_ls. pose proof (proj2 E i) as ES. destruct (ls i) as [[t l]|]; [|unfold rw_e; rewrite ES; reflexivity].
  destruct (x_rw_step _ _ _ _ ES) as [X|X]; unfold rw_e in *.
  - rewrite X. destruct (decide _); congruence.
  - destruct (x_iv i) as [tr IV]. pose proof (rw_moves _ _ _ (xv_rw _ _ _ _ IV) X) as D. destruct (decide _); [contradiction|exact X].
Qed.
Lemma rw_frozen t i j : i <= j -> (exists k, i <= k < j /\ rw_pc (rw_e (1 + k)) t <> rw_pc (rw_e k) t) \/ x_rank t (e j) <= x_rank t (e i).
Proof using E HN.
  intros Hij. induction Hij as [|j Hij [(k & Hk & IH)|IH]]; [auto|left; exists k; split; [lia|exact IH]|].
  change (S j) with (1 + j). pose proof (proj2 E j) as ES. destruct (ls j) as [[u l]|]; [|right; rewrite ES; exact IH].
  destruct (decide (rw_pc (rw_e (1 + j)) t = rw_pc (rw_e j) t)) as [Eq|D]; [|left; exists j; split; [lia|exact D]]. destruct (x_iv j) as [tr IV].
  destruct (x_rw_step _ _ _ _ ES) as [X|X].
  - pose proof (x_rank_step tr _ _ _ _ t IV ES X) as R. right. destruct (decide (t = u)); lia.
  - destruct (decide (t = u)) as [->|Ne]; [destruct (rw_moves _ _ _ (xv_rw _ _ _ _ IV) X Eq)|]. destruct (x_other _ _ _ _ t ES Ne) as [O _].
    assert (EM : x_map (e (1 + j)) = x_map (e j)) by (clear - X ES IV; remember (u, l) as lb; destruct ES; cbn in *; try reflexivity; injection Heqlb as -> <-; destruct (rw_moves _ _ _ (xv_rw _ _ _ _ IV) X); reflexivity).
    right. unfold x_rank in *. rewrite O, EM. exact IH.
Qed.
Lemma rw_fairness : rw_fair N rw_e.
Proof using E F HN.
  intros t i. remember (x_rank t (e i)) as k eqn:Hk. assert (Hk' : x_rank t (e i) <= k) by lia. clear Hk. revert i Hk'. induction k as [k IH] using (well_founded_induction lt_wf). intros i Hk.
  destruct (F t i) as (j & Hj & [ST|MV]).
  - exists j. split; [exact Hj|left]. intros q Hq C. apply (ST q Hq). destruct (x_iv q) as [tr IV]. exact (x_can tr _ t IV C).
  - destruct (rw_frozen t i j Hj) as [(q & Hq & D)|R]; [exists q; split; [lia|right; exact D]|].
    destruct (decide (rw_pc (rw_e (1 + j)) t = rw_pc (rw_e j) t)) as [Eq|D]; [|exists j; split; [exact Hj|right; exact D]].
    pose proof (proj2 E j) as ES. destruct (ls j) as [[u l]|]; [|rewrite ES in MV; congruence]. destruct (x_iv j) as [tr IV].
    assert (u = t) as -> by (destruct (decide (t = u)) as [|Ne]; [auto|]; destruct (x_other _ _ _ _ t ES Ne) as [O1 O2]; unfold x_view in MV; rewrite O1, O2 in MV; congruence).
    assert (X : x_rw (e (1 + j)) = x_rw (e j)) by (destruct (x_rw_step _ _ _ _ ES) as [X|X]; [exact X|destruct (rw_moves _ _ _ (xv_rw _ _ _ _ IV) X Eq)]).
    pose proof (x_rank_step tr _ _ _ _ t IV ES X) as RS. rewrite decide_True in RS by reflexivity. destruct RS as [RS|[RS _]]; [|congruence].
    destruct (IH (x_rank t (e (1 + j))) ltac:(lia) (1 + j) (le_n _)) as (q & Hq & Q). exists q. split; [lia|exact Q].
Qed.
(** *** the calls *)
Lemma x_leads t (R Q : xstate -> Prop) i : R (e i) ->
  (forall tr s u l s', xv tr s -> R s -> x_step zero N s (u, l) s' -> if decide (u = t) then x_view t s' = x_view t s /\ R s' \/ Q s' else R s' \/ Q s') ->
  (forall tr s, xv tr s -> R s -> can_move x_go (x_view t) s) -> exists j, i <= j /\ Q (e j).
Proof using E F HN.
  intros HR K1 K2. refine (leads_weak _ _ e ls E x_go (x_view t) R Q (strong_weak _ _ _ (F t)) _ _ i HR).
  - intros s [u l] s' [ls' HS'] Rs HS. pose proof (xinv_steps zero N HN _ _ HS') as IV. specialize (K1 _ _ _ _ _ IV Rs HS). destruct (decide (u = t)) as [->|Ne]; [tauto|].
    destruct (x_other _ _ _ _ t HS ltac:(auto)) as [O1 O2]. unfold x_view. rewrite O1, O2. tauto.
  - intros s [ls' HS'] Rs. exact (K2 _ _ (xinv_steps zero N HN _ _ HS') Rs).
Qed.
(** a goroutine that is past getting the lock gets to the end before it calls again *)
Definition past (p : mpc) : Prop := hr p \/ hw p \/ exists o r, p = MRet o r.
Lemma past_step tr (s : xstate) t l s' : xv tr s -> x_step zero N s (t, l) s' -> past (x_th s t) -> past (x_th s' t) \/ x_th s' t = MIdle.
Proof using HN.
  intros IV HS P. destruct IV as [IR (w & rs & IM) IC IN]. remember (t, l) as lb eqn:El. pose proof (iv_pc _ _ _ IM t) as Ip.
  destruct HS as [m tn c rw th t0 o L EE|m tn c rw th t0 o rw' EE P0 ST P'|m tn c rw th t0 o rw' EE P0 ST|m c rw th t0 o r EE Er|m c rw th t0 o l0 EE Ei El'
    |m c rw th t0 o p rest dn EE|m m0 c rw th t0 o rest rest' dn p Hne EE|m tn c rw th t0 o m0 dn r EE Er|m c rw th t0 o EE Eo
    |m tn c rw th t0 o m' EE Ew|m c rw th t0 o EE|m tn c rw th t0 o r rw' EE P0 ST|m tn c rw th t0 o r rw' EE P0 ST|m tn c rw th t0 o r EE P0];
    injection El as -> <-; cbn in *; rewrite ?tset_eq; auto; try (left; unfold past in *; cbn; eauto; fail).
  - exfalso. rewrite EE in P. destruct P as [P|[P|(o' & r' & P)]]; [destruct P|destruct P|discriminate].
  - exfalso. rewrite EE in P. destruct P as [P|[P|(o' & r' & P)]]; [destruct P|destruct P|discriminate].
  - left. unfold past. cbn. destruct (is_write o); auto.
  - left. unfold past. cbn. destruct (is_write o); auto.
  - left. unfold past. cbn. destruct (is_write o); auto.
Qed.
Lemma past_until t i j : i <= j -> past (x_th (e i) t) -> past (x_th (e j) t) \/ exists k, i <= k <= j /\ x_th (e k) t = MIdle.
Proof using E HN.
  intros Hij P. induction Hij as [|j Hij [IH|(k & Hk & IH)]]; [auto| |right; exists k; split; [lia|exact IH]].
  change (S j) with (1 + j). pose proof (proj2 E j) as ES. destruct (ls j) as [[u l]|]; [|left; rewrite ES; exact IH]. destruct (x_iv j) as [tr IV].
  destruct (decide (t = u)) as [->|Ne].
  - destruct (past_step tr _ _ _ _ IV ES IH) as [X|X]; [auto|right; exists (1 + j); split; [lia|exact X]].
  - destruct (x_other _ _ _ _ t ES Ne) as [O _]. rewrite O. auto.
Qed.
Lemma x_ret t i o r : x_th (e i) t = MRet o r -> rw_pc (x_rw (e i)) t = PIdle -> exists j, i <= j /\ x_th (e j) t = MIdle.
Proof using E F HN.
  intros Hi Pi. apply (x_leads t (fun s => x_th s t = MRet o r /\ rw_pc (x_rw s) t = PIdle) (fun s => x_th s t = MIdle) i (conj Hi Pi)).
  - intros tr s u l s' IV [H1 H2] HS. destruct (decide (u = t)) as [->|Ne].
    + right. remember (t, l) as lb eqn:El. destruct HS; injection El as -> <-; cbn in *; try congruence.
      * exfalso. match goal with G : _ \/ (exists _, _) |- _ => destruct G as [X|(? & ? & ? & ? & X)]; congruence end.
      * apply tset_eq.
    + left. destruct (x_other _ _ _ _ t HS ltac:(auto)) as [O1 O2]. rewrite O1, O2. auto.
  - intros tr s IV [H1 H2]. destruct s as [m tn c rw th]. cbn in *. exists (t, Some (Rsp t o r)), (XS m tn c rw (tset th t MIdle)). split; [split; [apply xs_return; assumption|exact I]|].
    unfold x_view. cbn. rewrite tset_eq, H1. discriminate.
Qed.
Lemma x_past_returns t i : past (x_th (e i) t) -> exists j, i <= j /\ x_th (e j) t = MIdle.
Proof using E F HN.
  intros P. destruct (x_iv i) as [tr IV]. pose proof (xv_c _ _ _ _ IV t) as C.
  assert (U : exists m, i <= m /\ rw_pc (rw_e m) t = PIdle).
  { assert (D : rw_pc (rw_e i) t = PIdle \/ rw_pc (rw_e i) t = PRHold \/ rw_pc (rw_e i) t = PRDec \/ rw_pc (rw_e i) t = PRPost \/ rw_pc (rw_e i) t = PWHold \/ (exists r q, rw_pc (rw_e i) t = PWPost r q)).
    { unfold rw_e. destruct P as [P|[P|(o & r & P)]].
      - rewrite (hr_coupled _ _ C P). auto.
      - rewrite (hw_coupled _ _ C P). auto 8.
      - rewrite P in C. cbn in C. destruct (is_write o); intuition. }
    destruct D as [D|D]; [eauto|]. exact (unlock_leads N HN rw_e rw_ls rw_execution rw_fairness t i D). }
  destruct U as (m & Hm & M). destruct (past_until t i m Hm P) as [Pm|(k & Hk & Kk)]; [|exists k; split; [lia|exact Kk]].
  destruct (x_iv m) as [trm IVm]. pose proof (xv_c _ _ _ _ IVm t) as Cm. unfold rw_e in M. destruct Pm as [Pm|[Pm|(o & r & Pm)]].
  - rewrite (hr_coupled _ _ Cm Pm) in M. discriminate.
  - rewrite (hw_coupled _ _ Cm Pm) in M. discriminate.
  - destruct (x_ret t m o r Pm M) as (q & Hq & Q). exists q. split; [lia|exact Q].
Qed.
Lemma x_want_locks t i o : x_th (e i) t = MWant o -> rw_pc (x_rw (e i)) t <> PIdle -> exists j, i <= j /\ x_th (e j) t = MIdle.
Proof using E F HN.
  intros Hi Pi. destruct (x_iv i) as [tr IV]. pose proof (xv_c _ _ _ _ IV t) as C. rewrite Hi in C. cbn in C.
  assert (U : exists m, i <= m /\ past (x_th (e m) t)).
  { destruct (is_write o).
    - destruct C as [C|C]; [contradiction|]. destruct (lock_leads N HN rw_e rw_ls rw_execution rw_fairness t i C) as (m & Hm & M). exists m. split; [exact Hm|right; left].
      destruct (x_iv m) as [trm IVm]. exact (coupled_hw _ _ (xv_c _ _ _ _ IVm t) M).
    - destruct C as [C|C]; [contradiction|]. destruct (rlock_leads N HN rw_e rw_ls rw_execution rw_fairness t i C) as (m & Hm & M). exists m. split; [exact Hm|left].
      destruct (x_iv m) as [trm IVm]. exact (coupled_hr _ _ (xv_c _ _ _ _ IVm t) M). }
  destruct U as (m & Hm & M). destruct (x_past_returns t m M) as (q & Hq & Q). exists q. split; [lia|exact Q].
Qed.
Lemma x_want_starts t i o : x_th (e i) t = MWant o -> rw_pc (x_rw (e i)) t = PIdle -> exists j, i <= j /\ x_th (e j) t = MWant o /\ rw_pc (x_rw (e j)) t <> PIdle.
Proof using E F HN.
  intros Hi Pi. apply (x_leads t (fun s => x_th s t = MWant o /\ rw_pc (x_rw s) t = PIdle) (fun s => x_th s t = MWant o /\ rw_pc (x_rw s) t <> PIdle) i (conj Hi Pi)).
  - intros tr s u l s' IV [H1 H2] HS. destruct (decide (u = t)) as [->|Ne].
    + right. remember (t, l) as lb eqn:El. destruct HS; injection El as -> <-; cbn in *; try congruence.
      * split; [exact H1|]. match goal with X : rw_pc rw' t = _ |- _ => rewrite X end. destruct (is_write _); discriminate.
      * exfalso. match goal with G : _ \/ (exists _, _) |- _ => destruct G as [X|(? & ? & ? & ? & X)]; congruence end.
    + left. destruct (x_other _ _ _ _ t HS ltac:(auto)) as [O1 O2]. rewrite O1, O2. auto.
  - intros tr s IV [H1 H2]. pose proof (xv_N _ _ _ _ IV t) as L. rewrite H1 in L. specialize (L ltac:(discriminate)). destruct s as [m tn c rw th]. cbn in *.
    destruct rw as [rc rx rwo ra rb pc]. cbn in *.
    exists (t, None), (XS m tn c (RW rc rx rwo ra rb (tset pc t (if is_write o then PWWant else PRWant))) th). split; [split; [|exact I]|].
    + eapply xs_lock; [exact H1|exact H2| |cbn; rewrite tset_eq; reflexivity]. destruct (is_write o); constructor; assumption.
    + unfold x_view. cbn. rewrite tset_eq, H2. destruct (is_write o); discriminate.
Qed.
Lemma x_returns t i : exists j, i <= j /\ x_th (e j) t = MIdle.
Proof using E F HN.
  destruct (x_th (e i) t) as [|o|o|o m0 rest dn|o|o r|o r] eqn:Hi; [eauto| |apply x_past_returns; rewrite Hi; unfold past; cbn..].
  - destruct (decide (rw_pc (x_rw (e i)) t = PIdle)) as [P|P].
    + destruct (x_want_starts t i o Hi P) as (j & Hj & J1 & J2). destruct (x_want_locks t j o J1 J2) as (q & Hq & Q). exists q. split; [lia|exact Q].
    + exact (x_want_locks t i o Hi P).
  - destruct (is_write o); auto.
  - auto.
  - auto.
  - destruct (is_write o); auto.
  - eauto.
Qed.
End Live.
