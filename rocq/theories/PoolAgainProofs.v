(** Timed pool (poolx/gopoolx/timedpool.go 32-43, 131-173), without preheat: a pool all of
    whose workers are taken does not stay like this.  Every goroutine comes back to the list
    or ends, when no goroutine is forgotten. *)
From Verif Require Import Base Conc Fair PoolModel PoolProofs PoolProofs2 PoolProofs3 PoolRaceProps PoolFairProofs.
Local Open Scope Z.

(** a Run that gets the lock now is not turned away for want of a worker: timedpool.go 144-163 *)
Definition has_room (s : pstate) : Prop := p_max s = -1 \/ p_dobby s <> [] \/ p_workers s < p_max s.
Global Instance has_room_dec s : Decision (has_room s).
Proof. unfold has_room. apply _. Defined.

Lemma exit_step idle s l s' g : pinv s -> p_gor s g = GExit -> p_step idle s l s' -> p_gor s' g = p_gor s g \/ p_max s' = p_max s /\ p_workers s' = p_workers s - 1.
Proof.
  intros A G H. pose proof (a_gor s A (p_ng s) ltac:(lia)) as NG. destruct H; unfold new_worker; cbn; try (left; reflexivity).
  all: match goal with |- tset (p_gor ?s) ?a ?b ?g = _ \/ _ => destruct (tset_cases (p_gor s) a b g) as [[-> Y]|[_ Y]]; rewrite ?Y; try (left; reflexivity); try congruence end.
  all: right; auto.
Qed.
Lemma lock_step idle s l s' g w c : pinv s -> p_gor s g = GLock w c -> p_step idle s l s' -> p_gor s' g = p_gor s g \/ p_max s = -1 \/ p_dobby s' <> [].
Proof.
  intros A G H. pose proof (a_gor s A (p_ng s) ltac:(lia)) as NG. destruct H; unfold new_worker; cbn; try (left; reflexivity); try (right; left; assumption).
  all: match goal with |- tset (p_gor ?s) ?a ?b ?g = _ \/ _ => destruct (tset_cases (p_gor s) a b g) as [[-> Y]|[_ Y]]; rewrite ?Y; try (left; reflexivity); try congruence end.
  all: right; right; destruct (p_dobby s); discriminate.
Qed.

Section again.
Context (P : nat -> Prop) (maxw : Z) (tts : nat -> Z) (clock idle : Z) (e : nat -> pstate) (ls : nat -> option plab).
Context (Hm : 0 < maxw) (E : execution (p_step_by P idle) (p_init maxw 0 tts clock) e ls) (F : pool_fair idle e).
Local Notation rch s := (reach (p_init maxw 0 tts clock) (p_step_by P idle) s).
Local Notation lpinv := (lpinv P maxw 0 tts clock idle Hm).
Local Notation leinv := (leinv P maxw tts clock idle Hm).
Local Notation comes i := (exists j, (i <= j)%nat /\ has_room (e j)).

Lemma lbound s : rch s -> (p_max s = -1 \/ p_max s = maxw) /\ p_workers s <= maxw.
Proof using Hm. intros R. apply by_reach in R. destruct (bound_reach maxw 0 tts clock idle s Hm R) as [M W]. lia. Qed.

(** progress of one part of the state while there is no room *)
Lemma nr_leads {V} (v : pstate -> V) (R Q : pstate -> Prop) i : weakly_fair (p_go idle) v e -> R (e i) ->
  (forall s l s', rch s -> rch s' -> ~ has_room s -> R s -> p_step idle s l s' -> ~ has_room s' -> R s' /\ v s' = v s \/ Q s') ->
  (forall s, rch s -> ~ has_room s -> R s -> can_move (p_go idle) v s) ->
  comes i \/ exists j, (i <= j)%nat /\ Q (e j).
Proof using E.
  intros W H K C. destruct (decide (has_room (e i))) as [N|N]; [left; exists i; auto|].
  destruct (leads_weak _ _ e ls E (p_go idle) v (fun s => R s /\ ~ has_room s) (fun s => has_room s \/ Q s) W) with (i := i) as (j & Hj & [J|J]).
  - intros s l s' Rs [HR N1] [HS HP]. destruct (decide (has_room s')) as [N2|N2]; [right; left; exact N2|].
    destruct (K s l s' Rs ltac:(eapply reach_snoc; [exact Rs|split; eassumption]) N1 HR HS N2) as [[K1 K2]|K1]; [left|right; right; exact K1]. split; [split; assumption|exact K2].
  - intros s Rs [HR N1]. exact (C s Rs N1 HR).
  - auto.
  - left. eauto.
  - right. eauto.
Qed.
Lemma comes_later i j : (i <= j)%nat -> comes j -> comes i.
Proof using. intros H (k & Hk & K). exists k. split; [lia|exact K]. Qed.
Ltac room := exfalso; match goal with N : ~ has_room _ |- _ => apply N; unfold has_room; cbn; auto; fail end.

Lemma a_exit g i : p_gor (e i) g = GExit -> comes i.
Proof using E F Hm.
  intros G. destruct (nr_leads (fun s => p_gor s g) (fun s => p_gor s g = GExit) (fun _ => False) i (f_gor _ _ F g) G) as [X|(j & _ & [])]; [| |exact X].
  - intros s l s' Rs Rs' N G1 HS N'. pose proof (gor_step idle s l s' g (lpinv s Rs) HS) as K. rewrite G1 in K. destruct K as [K|K]; [left; split; congruence|exfalso].
    destruct (lbound s Rs) as [M W]. destruct (exit_step idle s l s' g (lpinv s Rs) G1 HS) as [X|[X Y]]; [congruence|]. apply N'. unfold has_room. rewrite X, Y. destruct M as [M|M]; [left; exact M|right; right; lia].
  - intros s Rs N G1. eapply can_go; [eapply (ps_exit idle s g); eassumption|exact I|]. cbn. rewrite tset_eq. congruence.
Qed.
Lemma a_lock g w c i : p_gor (e i) g = GLock w c -> comes i.
Proof using E F Hm.
  intros G. destruct (nr_leads (fun s => p_gor s g) (fun s => p_gor s g = GLock w c) (fun _ => False) i (f_gor _ _ F g) G) as [X|(j & _ & [])]; [| |exact X].
  - intros s l s' Rs Rs' N G1 HS N'. left. enough (p_gor s' g = p_gor s g) by (split; congruence).
    destruct (lock_step idle s l s' g w c (lpinv s Rs) G1 HS) as [X|[X|X]]; [exact X|room|]. destruct N'. right. left. exact X.
  - intros s Rs N G1. destruct (decide (p_max s = -1)) as [M|M]; [|eapply can_go; [eapply (ps_free idle s g); eassumption|exact I|]; cbn; rewrite tset_eq; congruence].
    room.
Qed.
Lemma a_gfree g w c i : p_gor (e i) g = GFree w c -> comes i.
Proof using E F Hm.
  intros G. destruct (nr_leads (fun s => p_gor s g) (fun s => p_gor s g = GFree w c) (fun s => p_gor s g = GLock w c) i (f_gor _ _ F g) G) as [X|(j & Hj & J)]; [| |exact X|].
  - intros s l s' Rs Rs' N G1 HS N'. pose proof (gor_step idle s l s' g (lpinv s Rs) HS) as K. rewrite G1 in K. destruct K as [K|K]; [left; split; congruence|right; exact K].
  - intros s Rs N G1. eapply can_go; [eapply (ps_tt idle s g); eassumption|exact I|]. cbn. rewrite tset_eq. congruence.
  - apply (comes_later i j Hj). exact (a_lock g w c j J).
Qed.
Lemma a_handle g w c t i : p_gor (e i) g = GHandle w c t -> comes i.
Proof using E F Hm.
  intros G. destruct (nr_leads (fun s => p_gor s g) (fun s => p_gor s g = GHandle w c t) (fun s => p_gor s g = GFree w c) i (f_gor _ _ F g) G) as [X|(j & Hj & J)]; [| |exact X|].
  - intros s l s' Rs Rs' N G1 HS N'. pose proof (gor_step idle s l s' g (lpinv s Rs) HS) as K. rewrite G1 in K. destruct K as [K|(K & _)]; [left; split; congruence|right; exact K].
  - intros s Rs N G1. eapply can_go; [eapply (ps_handled idle s g); eassumption|exact I|]. cbn. rewrite tset_eq. congruence.
  - apply (comes_later i j Hj). exact (a_gfree g w c j J).
Qed.
Lemma fed_step s l s' g w c : rch s -> fed s g w c -> p_step idle s l s' -> fed s' g w c \/ (exists t, p_gor s' g = GHandle w c t) \/ p_gor s' g = GExit.
Proof using Hm.
  intros Rs [G D] HS. pose proof (lpinv s Rs) as A. pose proof (gor_step idle s l s' g A HS) as K. rewrite G in K.
  destruct K as [K|[(t & _ & K & _)|(_ & _ & K)]]; [|right; eauto|right; auto]. left. split; [exact K|].
  destruct D as [[t B]|C]; [|right; exact (closed_step idle s l s' c A HS C)].
  destruct (buf_step idle s l s' c t A HS B) as [[[B' _]|S'] _]; [left; eauto|]. exfalso.
  destruct (a_buf s A c t B) as (w0 & O & Ow0).
  destruct HS; cbn in *; try lia.
  match goal with G' : p_gor s ?g' = GRecv ?w' ?c' |- _ => assert (X : g = g') end.
  { assert (Hc : c0 = c). { destruct (tset_cases (p_started s) t0 (S (p_started s t0)) t) as [[<- X]|[_ X]]; [|rewrite X in S'; lia].
      refine (b_uniq s (lbinv P maxw 0 tts clock idle Hm s Rs) _ _ t _ _); assumption. }
    subst c0. pose proof (leinv s Rs) as Ei. apply (e_uniq s Ei g g0 w0).
    - right. exists c. split; [exact O|left]. destruct (a_recv s A g w c G) as [_ [O2|O2]].
      + rewrite (a_inj s A _ _ _ O O2). exact G.
      + destruct (a_open s A w0 ltac:(rewrite Ow0; reflexivity)) as (c1 & O3 & O4). congruence.
    - right. exists c. split; [exact O|left]. match goal with G' : p_gor s g0 = GRecv ?w' c |- _ => destruct (a_recv s A g0 w' c G') as [_ [O2|O2]]; [rewrite (a_inj s A _ _ _ O O2); exact G'|] end.
      destruct (a_open s A w0 ltac:(rewrite Ow0; reflexivity)) as (c1 & O3 & O4). congruence. }
  subst g0. rewrite tset_eq in K. congruence.
Qed.
Lemma a_fed g w c i : fed (e i) g w c -> comes i.
Proof using E F Hm.
  intros H. destruct (nr_leads (fun s => p_gor s g) (fun s => fed s g w c) (fun s => (exists t, p_gor s g = GHandle w c t) \/ p_gor s g = GExit) i (f_gor _ _ F g) H) as [X|(j & Hj & [[t J]|J])]; [| |exact X| |].
  - intros s l s' Rs Rs' N D HS N'. destruct (fed_step s l s' g w c Rs D HS) as [K|K]; [left|right; exact K]. split; [exact K|]. destruct K, D. congruence.
  - intros s Rs N [G D]. destruct (p_buf s c) as [t|] eqn:B.
    + eapply can_go; [eapply (ps_recv idle s g); eassumption|exact I|]. cbn. rewrite tset_eq. congruence.
    + destruct D as [[t B']|C]; [congruence|]. eapply can_go; [eapply (ps_range_end idle s g); eassumption|exact I|]. cbn. rewrite tset_eq. congruence.
  - apply (comes_later i j Hj). exact (a_handle g w c t j J).
  - apply (comes_later i j Hj). exact (a_exit g j J).
Qed.
Lemma obj_step s l s' w : pinv s -> ~ has_room s -> p_step idle s l s' -> p_own s w <> OClosing -> p_obj s' w = p_obj s w.
Proof using.
  intros A N HS Ow. destruct HS; unfold new_worker; cbn; try reflexivity.
  - destruct N. right. right. assumption.
  - destruct N. right. right. assumption.
  - apply tset_ne. intros ->. apply Ow, (a_closing s A). match goal with H : p_col s = _ |- _ => rewrite H end. reflexivity.
Qed.
(** a call of Run is about to send *)
Lemma a_send g w c t i : p_gor (e i) g = GRecv w c -> p_job (e i) t = JSend w -> p_obj (e i) w = Some c -> comes i.
Proof using E F Hm.
  intros G J O. destruct (nr_leads (fun s => p_job s t) (fun s => p_gor s g = GRecv w c /\ p_job s t = JSend w /\ p_obj s w = Some c) (fun s => fed s g w c) i (f_job _ _ F t)) as [X|(j & Hj & K)]; [auto| | |exact X|].
  - intros s l s' Rs Rs' N (G1 & J1 & O1) HS N'. pose proof (lpinv s Rs) as As. pose proof (lpinv s' Rs') as As'.
    destruct (send_ready s t w As J1) as (c' & O' & C' & B'). replace c' with c in * by congruence. clear c' O'.
    assert (GG : p_gor s' g = GRecv w c).
    { pose proof (gor_step idle s l s' g As HS) as K. rewrite G1 in K. destruct K as [K|[(t' & K & _)|(K & _)]]; congruence. }
    destruct (job_step idle s l s' t HS) as [K|[[_ K]|[[_ K]|[K|(w' & c' & K & O' & [C''|[K1 K2]])]]]]; try congruence.
    + left. split; [|exact K]. split; [exact GG|]. split; [congruence|].
      rewrite <- O1. apply (obj_step s l s' w As N HS). intros Ow. assert (X : p_own s w = ORun t) by (apply (a_run s As); exact J1). congruence.
    + right. split; [exact GG|left]. exists t. congruence.
  - intros s Rs N (G1 & J1 & O1). destruct (send_ready s t w (lpinv s Rs) J1) as (c' & O' & C' & B').
    eapply can_go; [eapply (ps_send idle s t); eassumption|exact I|]. cbn. rewrite tset_eq. congruence.
  - apply (comes_later i j Hj). exact (a_fed g w c j K).
Qed.
(** the collector has taken w off the list *)
Definition taken (s : pstate) (g w c : nat) : Prop := p_gor s g = GRecv w c /\ p_own s w = OCol /\ p_obj s w = Some c.
Lemma taken_step s l s' g w c : rch s -> rch s' -> ~ has_room s -> taken s g w c -> p_step idle s l s' -> taken s' g w c \/ fed s' g w c.
Proof using Hm.
  intros Rs Rs' N (G & O & Ob) HS. pose proof (lpinv s Rs) as A. pose proof (lpinv s' Rs') as A'.
  destruct (a_open s A w ltac:(rewrite O; reflexivity)) as (c' & O' & C'). replace c' with c in * by congruence. clear c' O'.
  assert (B : p_buf s c = None). { destruct (p_buf s c) as [t|] eqn:B; [|reflexivity]. destruct (a_buf s A c t B) as (w' & O1 & O2). rewrite (a_inj s A _ _ _ O1 Ob) in O2. congruence. }
  assert (GG : p_gor s' g = GRecv w c).
  { pose proof (gor_step idle s l s' g A HS) as K. rewrite G in K. destruct K as [K|[(t' & K & _)|(K & _)]]; congruence. }
  destruct (p_closed s' c) eqn:C; [right; split; auto|left]. split; [exact GG|].
  assert (OO : p_obj s' w = Some c) by (rewrite (obj_step s l s' w A N HS); congruence). split; [|exact OO].
  apply (a_col s' A'). apply (a_col s A) in O.
  destruct HS; unfold new_worker in *; cbn in *; try exact O; try (match goal with H : p_col s = _ |- _ => rewrite H in O; cbn in O end); try (inversion O; fail); try exact O.
  - apply elem_of_cons in O as [->|O]; [|exact O]. exfalso. replace c0 with c in * by congruence. rewrite tset_eq in C. discriminate.
  - destruct (a_cpanic _ A' eq_refl).
Qed.
Lemma a_taken g w c ws : forall i, p_col (e i) = CDrain ws \/ (exists v, p_col (e i) = CNil v ws) \/ (exists v, p_col (e i) = CPut v ws) -> taken (e i) g w c -> comes i.
Proof using E F Hm.
  induction ws as [|w1 ws IH]; intros i H T.
  - exfalso. destruct T as (_ & O & _). apply (a_col _ (lpinv _ (exec_reach _ _ _ _ E i))) in O. destruct H as [H|[[v H]|[v H]]]; rewrite H in O; inversion O.
  - assert (L : forall a b i, p_col (e i) = a -> taken (e i) g w c -> a <> b ->
      (forall s l s', rch s -> p_col s = a -> p_step idle s l s' -> p_col s' = a \/ p_col s' = b) ->
      (forall s, rch s -> p_col s = a -> exists l s', p_go idle s l s' /\ p_col s' = b) ->
      comes i \/ exists j, (i <= j)%nat /\ p_col (e j) = b /\ taken (e j) g w c).
    { clear i H T. intros a b i H T AB K C.
      destruct (nr_leads p_col (fun s => p_col s = a /\ taken s g w c) (fun s => fed s g w c \/ p_col s = b /\ taken s g w c) i (f_col _ _ F) (conj H T)) as [X|(j & Hj & [J|J])]; [| |left; exact X| |right; exists j; auto].
      - intros s l s' Rs Rs' N [C1 T1] HS N'. destruct (taken_step s l s' g w c Rs Rs' N T1 HS) as [T2|T2]; [|right; left; exact T2].
        destruct (K s l s' Rs C1 HS) as [K1|K1]; [left; split; [auto|congruence]|right; right; auto].
      - intros s Rs N [C1 T1]. destruct (C s Rs C1) as (l & s' & HG & Hb). exists l, s'. split; [exact HG|congruence].
      - left. apply (comes_later i j Hj). exact (a_fed g w c j J). }
    assert (CS : forall a b : cpc, (forall s l s', pinv s -> p_col s = a -> p_step idle s l s' -> p_col s' = a \/ p_col s' = b) ->
      forall s l s', rch s -> p_col s = a -> p_step idle s l s' -> p_col s' = a \/ p_col s' = b) by (intros a b K s l s' Rs; apply K, lpinv, Rs).
    assert (L1 : forall i v, p_col (e i) = CPut v (w1 :: ws) -> taken (e i) g w c -> comes i \/ exists j, (i <= j)%nat /\ p_col (e j) = CDrain (w1 :: ws) /\ taken (e j) g w c).
    { clear i H T. intros i v H T. apply (L (CPut v (w1 :: ws)) _ i H T); [discriminate| |].
      - apply CS. intros s l s' A Hc HS. pose proof (col_step idle s l s' A HS) as X. rewrite Hc in X. destruct X; auto.
      - intros s R Hc. eexists _, _. split; [split; [eapply (ps_put idle s); eassumption|exact Logic.I]|reflexivity]. }
    assert (L2 : forall i v, p_col (e i) = CNil v (w1 :: ws) -> taken (e i) g w c -> comes i \/ exists j, (i <= j)%nat /\ p_col (e j) = CDrain (w1 :: ws) /\ taken (e j) g w c).
    { clear i H T. intros i v H T. destruct (L (CNil v (w1 :: ws)) (CPut v (w1 :: ws)) i H T) as [X|(j & Hj & J & TJ)]; [discriminate| | |left; exact X|].
      - apply CS. intros s l s' A Hc HS. pose proof (col_step idle s l s' A HS) as X. rewrite Hc in X. destruct X; auto.
      - intros s R Hc. eexists _, _. split; [split; [eapply (ps_nil idle s); eassumption|exact Logic.I]|reflexivity].
      - destruct (L1 j v J TJ) as [X|(k & Hk & X)]; [left; exact (comes_later i j Hj X)|right; exists k; split; [lia|exact X]]. }
    assert (L3 : forall i, p_col (e i) = CDrain (w1 :: ws) -> taken (e i) g w c -> comes i).
    { clear i H T. intros i H T. destruct (L (CDrain (w1 :: ws)) (CNil w1 ws) i H T) as [X|(j & Hj & J & TJ)]; [discriminate| | |exact X|].
      - apply CS. intros s l s' A Hc HS. pose proof (col_step idle s l s' A HS) as X. rewrite Hc in X. destruct X; auto.
      - intros s R Hc. pose proof (lpinv s R) as A. assert (O : p_own s w1 = OCol) by (apply (a_col s A); rewrite Hc; left).
        destruct (a_open s A w1 ltac:(rewrite O; reflexivity)) as (c1 & O1 & O2).
        eexists _, _. split; [split; [eapply (ps_close idle s); eassumption|exact Logic.I]|reflexivity].
      - apply (comes_later i j Hj). apply IH; eauto. }
    destruct H as [H|[[v H]|[v H]]]; [exact (L3 i H T)| |].
    + destruct (L2 i v H T) as [X|(j & Hj & J & TJ)]; [exact X|exact (comes_later i j Hj (L3 j J TJ))].
    + destruct (L1 i v H T) as [X|(j & Hj & J & TJ)]; [exact X|exact (comes_later i j Hj (L3 j J TJ))].
Qed.
Lemma a_rcv g w c i : p_gor (e i) g = GRecv w c -> comes i.
Proof using E F Hm.
  intros G. destruct (decide (has_room (e i))) as [N|N]; [exists i; auto|]. pose proof (exec_reach _ _ _ _ E i) as R. pose proof (lpinv _ R) as A. pose proof (leinv _ R) as Ei.
  destruct (p_closed (e i) c) eqn:C; [apply (a_fed g w c i); split; auto|].
  pose proof (e_open _ Ei g w c G C) as Ow. destruct (a_recv _ A g w c G) as [_ [O|O]]; [|congruence].
  destruct (p_own (e i) w) as [| |t| | | | |] eqn:Own; try discriminate.
  - exfalso. apply N. destruct (decide (p_max (e i) = -1)) as [M|M]; [left; exact M|]. right. left. apply (a_dobby _ A M) in Own. intros D. rewrite D in Own. inversion Own.
  - apply (a_run _ A) in Own. exact (a_send g w c t i G Own O).
  - destruct (a_queued _ A w Own) as (c' & t & O' & B'). apply (a_fed g w c i). split; [exact G|left]. exists t. congruence.
  - assert (T : taken (e i) g w c) by (split; auto). apply (a_col _ A) in Own. destruct (p_col (e i)) as [|ws|v ws|v ws| | |] eqn:Co; cbn in Own; try (inversion Own; fail).
    + apply (a_taken g w c ws i); auto.
    + apply (a_taken g w c ws i); eauto.
    + apply (a_taken g w c ws i); eauto.
Qed.
Lemma a_start g w i : p_gor (e i) g = GStart w -> comes i.
Proof using E F Hm.
  intros G. destruct (nr_leads (fun s => p_gor s g) (fun s => p_gor s g = GStart w) (fun s => exists c, p_gor s g = GRecv w c) i (f_gor _ _ F g) G) as [X|(j & Hj & [c J])]; [| |exact X|].
  - intros s l s' Rs Rs' N G1 HS N'. pose proof (lpinv s Rs) as As. pose proof (gor_step idle s l s' g As HS) as K. rewrite G1 in K.
    destruct K as [K|K]; [left; split; congruence|right].
    assert (U : usable (p_own s w) = true) by (destruct (e_start s (leinv s Rs) g w G1) as [[t U]|U]; rewrite U; reflexivity).
    destruct (a_open s As w U) as (c & O & _). rewrite O in K. eauto.
  - intros s Rs N G1. assert (U : usable (p_own s w) = true) by (destruct (e_start s (leinv s Rs) g w G1) as [[t U]|U]; rewrite U; reflexivity).
    destruct (a_open s (lpinv s Rs) w U) as (c & O & _). eapply can_go; [eapply (ps_start idle s g); eassumption|exact Logic.I|]. cbn. rewrite tset_eq. congruence.
  - apply (comes_later i j Hj). exact (a_rcv g w c j J).
Qed.
Lemma room_comes i : comes i.
Proof using E F Hm.
  destruct (decide (has_room (e i))) as [N|N]; [exists i; auto|]. pose proof (exec_reach _ _ _ _ E i) as R. pose proof (leinv _ R) as Ei.
  assert (X : exists g, live (p_gor (e i) g) <> 0).
  { destruct (lbound _ R) as [M W].
    assert (D : (forall g, (g < p_ng (e i))%nat -> live (p_gor (e i) g) = 0) \/ exists g, live (p_gor (e i) g) <> 0).
    { generalize (p_ng (e i)). induction n as [|n [IH|IH]]; [left; intros; lia| |right; exact IH].
      destruct (decide (live (p_gor (e i) n) = 0)) as [Z0|Z0]; [left|right; eauto]. intros g Hg. destruct (decide (g = n)) as [->|]; [exact Z0|apply IH; lia]. }
    destruct D as [D|D]; [exfalso|exact D]. apply N. destruct M as [M|M]; [left; exact M|right; right]. rewrite M.
    rewrite (cinv_reach idle maxw 0 tts clock _ Hm (by_reach _ _ _ _ _ _ _ R)), total_zero by exact D. exact Hm. }
  destruct X as [g L]. destruct (p_gor (e i) g) as [|w|w|w c|w c t|w c|w c| |] eqn:G; cbn in L; try congruence.
  - exact (a_start g w i G).
  - destruct (e_nil _ Ei g w G).
  - exact (a_rcv g w c i G).
  - exact (a_handle g w c t i G).
  - exact (a_gfree g w c i G).
  - exact (a_lock g w c i G).
  - exact (a_exit g i G).
Qed.
End again.
