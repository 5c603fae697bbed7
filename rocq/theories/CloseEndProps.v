(** Programs over CloseManager (iox/managerx/closex/manager.go 19-40) come to an end,
    whatever the scheduler does and without any assumption of fairness; what the end looks
    like (C175). *)
From Verif Require Import Base Conc CloseConcModel CloseConcProps CloseFairProps ConvEndProps.

Section ends.
Context {E : Type} (closer : nat -> qcode E) (main : nat -> qcode E).
Notation step := (q_step closer).
Notation init := (q_init main).

(** what a step does to its goroutine: it gets the mutex, or comes nearer to giving it back *)
Definition qlocal (x y : qthr E) : Prop :=
  (hold x = 0 /\ exists c, x = QThr (QRun c) [] /\ q_call c = true /\ 0 < hold y /\
     match c with QAppend _ k => leaves y = (fun c => c = k) | QClose k => forall c, leaves y c -> c = QPanic \/ exists errs, c = k errs | _ => True end) \/
  (hold y < hold x /\ (forall c, leaves y c -> leaves x c) /\ (hold y = 0 -> exists c, y = QThr (QRun c) [])).
Lemma step_qlocal s l s' : qinv s -> step s l s' -> exists t, qlocal (q_th s t) (q_th s' t) /\ forall u, u <> t -> q_th s' u = q_th s u.
Proof.
  intros HI HS. assert (X : exists t, q_th s' t <> q_th s t /\ forall u, u <> t -> q_th s' u = q_th s u).
  { destruct HS; exists t; cbn [q_th]; (split; [rewrite tset_eq, H; discriminate|intros u N; apply tset_ne; exact N]). }
  destruct X as (t & X1 & X2). exists t. split; [|exact X2].
  destruct (hold_step closer s l s' t HI HS) as [K|[(K1 & c & K2 & K3 & K4 & K5 & K6)|(K1 & K2 & K3)]]; [contradiction| |].
  - left. split; [exact K1|]. exists c. auto.
  - right. split; [exact K1|]. split; [exact K2|]. intros Z. apply K3, Z.
Qed.
Notation fin := (Acc (fun y x => qlocal x y)).
Lemma fin_hold n : forall x, hold x = n -> 0 < n -> (forall c, leaves x c -> fin (QThr (QRun c) [])) -> fin x.
Proof.
  induction (lt_wf n) as [n _ IH]. intros x Hn Hp HL. constructor. intros y [[Z _]|(H1 & H2 & H3)]; [lia|].
  destruct (decide (hold y = 0)) as [Z|NZ].
  - destruct (H3 Z) as [c ->]. apply HL, H2. reflexivity.
  - apply (IH (hold y)); [lia|reflexivity|lia|]. intros c Hc. apply HL, H2, Hc.
Qed.
Lemma fin_run c : fin (QThr (QRun c) []).
Proof.
  assert (O : forall c, q_call c = false -> fin (QThr (QRun c) [])).
  { intros c0 C. constructor. intros y [(_ & c' & H1 & H2 & _)|(H & _)]; [injection H1 as <-; congruence|cbn in H; lia]. }
  induction c as [r| |a k IH|k IH]; [apply O; reflexivity|apply O; reflexivity| |]; constructor; intros y [(_ & c' & H1 & H2 & H3 & H4)|(H & _)];
    try (cbn in H; lia); injection H1 as <-; apply (fin_hold _ y eq_refl H3); intros c Hc.
  - rewrite H4 in Hc. subst c. exact IH.
  - destruct (H4 c Hc) as [->|(errs & ->)]; [apply O; reflexivity|apply IH].
Qed.
Lemma over_still x y : q_over x -> ~ qlocal x y.
Proof.
  intros (O1 & c & O2 & O3). destruct x as [p fr]. cbn in O1, O2. subst p fr. intros [(_ & c' & H1 & H2 & _)|(H & _)]; [injection H1 as <-; congruence|cbn in H; lia].
Qed.

(** the code that runs inside a Close is that of the closer whose turn it is *)
Lemma closer_code s : reach init step s -> forall t c g fr, q_th s t = QThr (QRun c) (g :: fr) -> exists x rest, q_rest g = x :: rest /\ c = closer x.
Proof.
  intros R. assert (HQ : qinv s /\ forall t c g fr, q_th s t = QThr (QRun c) (g :: fr) -> exists x rest, q_rest g = x :: rest /\ c = closer x); [|apply HQ].
  revert s R. apply (reach_invariant init step (fun s => qinv s /\ forall t c g fr, q_th s t = QThr (QRun c) (g :: fr) -> exists x rest, q_rest g = x :: rest /\ c = closer x)).
  - split; [apply qinv_init|]. intros t c g fr X. discriminate X.
  - intros s l s' [HI HQ] HS. split; [eapply qinv_step; eauto|]. destruct HS; cbn [q_th] in *; intros u c' g' fr'; (destruct (decide (u = t)) as [->|Hu]; [rewrite tset_eq; intros Hx|rewrite tset_ne by exact Hu; apply HQ]);
      try discriminate Hx; injection Hx as ? ?; subst.
    + cbn. eauto.
    + exfalso. specialize (HI t). cbn [q_th] in HI. rewrite H in HI. unfold qok in HI. cbn in HI. destruct fr'; [|exact HI]. destruct HI as (_ & (? & F') & _). discriminate F'.
Qed.

(** C175: with finitely many goroutines no execution goes on for ever, whatever the closers
    do.  Where one cannot go on, either every goroutine is done, or one of them hangs inside
    Close, in a closer that calls the manager it is in; the mutex is then held for ever *)
Theorem close_program_ends n s : (forall t, n <= t -> q_call (main t) = false) -> reach init step s ->
  Acc (fun s' s => exists l, step s l s') s /\
  ((forall l s', ~ step s l s') -> (forall t, q_over (q_th s t)) \/
     exists t x rest errs k, q_th s t = QThr (QRun (closer x)) [QFr (x :: rest) errs k] /\ q_call (closer x) = true /\ q_mutex s = Some t).
Proof.
  intros HM R. split.
  - assert (A : Acc (fun s' s => exists l, step s l s') init).
    { assert (B : Acc (fun y x => one qlocal n x y) (q_th init)) by (apply one_acc; intros t _; apply fin_run).
      assert (Fi : forall t, n <= t -> q_over (q_th init t)) by (intros t Ht; split; [reflexivity|]; exists (main t); split; [reflexivity|apply HM, Ht]).
      assert (HI : qinv init) by apply qinv_init. clear HM R.
      generalize dependent init. intros s0. remember (q_th s0) as th eqn:Eth. intros B. revert s0 Eth. induction B as [th _ IH]. intros s0 -> Fi HI.
      constructor. intros s' [l HS]. destruct (step_qlocal s0 l s' HI HS) as (t & L & O).
      assert (Ht : t < n). { destruct (decide (t < n)) as [?|N]; [assumption|]. exfalso. eapply over_still; [|exact L]. apply Fi. lia. }
      apply (IH (q_th s')); [|reflexivity| |eapply qinv_step; eauto].
      - exists t. split; [exact Ht|]. split; [exact L|]. intros u _ N. apply O, N.
      - intros u Hu. rewrite O by lia. apply Fi, Hu. }
    revert s R. apply reach_invariant; [exact A|]. intros s l s' [B] H. apply B. exists l. exact H.
  - intros St. pose proof (qinv_reach closer main s R) as HI. pose proof (closer_code s R) as CC. destruct s as [l m th]. cbn [q_th q_mutex] in *.
    destruct m as [t|].
    + right. pose proof (HI t) as Ht. unfold qok in Ht. cbn [q_mutex q_th] in Ht. destruct (th t) as [p fr] eqn:Et. cbn [q_in q_pc] in Ht.
      destruct fr as [|[rest errs k] [|]]; [| |contradiction].
      * exfalso. destruct p as [c|c k|[|c rest] errs k|c]; [done|eapply St, qs_append, Et|eapply St, qs_end, Et|eapply St, qs_next, Et|eapply St, qs_unlock, Et].
      * destruct Ht as (_ & (c & ->) & _). destruct (CC t c _ _ Et) as (x & rest' & Er & ->). cbn in Er. subst rest.
        exists t, x, rest', errs, k. split; [exact Et|]. split; [|reflexivity]. destruct (closer x) as [e| |a c|c] eqn:Ex; try reflexivity; exfalso.
        -- eapply St, qs_ret, Et.
        -- eapply St, qs_panic, Et.
    + left. intros t. pose proof (HI t) as Ht. unfold qok in Ht. cbn [q_mutex q_th] in Ht. destruct (th t) as [p fr] eqn:Et. cbn [q_in q_pc] in Ht.
      destruct fr as [|g [|]]; [|destruct Ht; discriminate|contradiction]. destruct p as [c| | |]; try discriminate Ht. split; [reflexivity|]. exists c. split; [reflexivity|].
      destruct c; try reflexivity; exfalso; [eapply St, qs_lock_append, Et|eapply St, qs_lock_close, Et].
Qed.
(** so there is no infinite execution *)
Theorem close_program_no_infinite n : (forall t, n <= t -> q_call (main t) = false) ->
  ~ exists (e : nat -> qstate E) ls, e 0 = init /\ forall i, step (e i) (ls i) (e (S i)).
Proof.
  intros HM (e & ls & E0 & ES).
  assert (A : Acc (fun s' s => exists l, step s l s') (e 0)).
  { rewrite E0. apply (close_program_ends n); [exact HM|]. exists []. constructor. }
  clear E0. remember (e 0) as s eqn:Es. assert (X : exists i, s = e i) by (exists 0; exact Es). clear Es.
  induction A as [s _ IH]. destruct X as [i ->]. apply (IH (e (S i))); [exists (ls i); apply ES|exists (S i); reflexivity].
Qed.
(** with closers that do not call their manager, everybody comes to the end, from wherever
    the program has got to *)
Theorem close_program_all_return n s : (forall t, n <= t -> q_call (main t) = false) -> (forall x, q_call (closer x) = false) -> reach init step s ->
  exists ls s', steps step s ls s' /\ forall t, q_over (q_th s' t).
Proof.
  intros HM NC R. destruct (close_program_ends n s HM R) as [A _].
  assert (D : forall s, reach init step s -> (forall t, q_over (q_th s t)) \/ exists l s', step s l s').
  { clear s R A. intros s R. pose proof (qinv_reach closer main s R) as HI. pose proof (closer_code s R) as CC. destruct s as [l m th]. cbn [q_th q_mutex] in *.
    destruct m as [t|].
    - right. pose proof (HI t) as Ht. unfold qok in Ht. cbn [q_mutex q_th] in Ht. destruct (th t) as [p fr] eqn:Et. cbn [q_in q_pc] in Ht.
      destruct fr as [|[rest errs k] [|]]; [| |contradiction].
      + destruct p as [c|c k|[|c rest] errs k|c]; [done|eexists _, _; eapply qs_append, Et|eexists _, _; eapply qs_end, Et|eexists _, _; eapply qs_next, Et|eexists _, _; eapply qs_unlock, Et].
      + destruct Ht as (_ & (c & ->) & _). destruct (CC t c _ _ Et) as (x & rest' & Er & ->). cbn in Er. subst rest. specialize (NC x).
        destruct (closer x) as [e| |a c|c] eqn:Ex; try discriminate NC; eexists _, _; [eapply qs_ret, Et|eapply qs_panic, Et].
    - assert (F : forall t, q_over (th t) \/ exists l' s', step (QS l None th) l' s').
      { intros t. pose proof (HI t) as Ht. unfold qok in Ht. cbn [q_mutex q_th] in Ht. destruct (th t) as [p fr] eqn:Et. cbn [q_in q_pc] in Ht.
        destruct fr as [|g [|]]; [|destruct Ht; discriminate|contradiction]. destruct p as [c| | |]; try discriminate Ht.
        destruct c; [left; split; [reflexivity|]; eexists; split; reflexivity|left; split; [reflexivity|]; eexists; split; reflexivity|right; eexists _, _; eapply qs_lock_append, Et|right; eexists _, _; eapply qs_lock_close, Et]. }
      (* only the first n can still call *)
      assert (G : (forall t, t < n -> q_over (th t)) \/ exists l' s', step (QS l None th) l' s').
      { clear HM. induction n as [|k IH]; [left; lia|]. destruct IH as [IH|IH]; [|right; exact IH]. destruct (F k) as [Fk|Fk]; [|right; exact Fk].
        left. intros t Ht. destruct (decide (t = k)) as [->|]; [exact Fk|apply IH; lia]. }
      destruct G as [G|G]; [|right; exact G]. left. intros t. destruct (decide (t < n)) as [Ht|Ht]; [apply G, Ht|].
      (* the others have never moved *)
      clear - R HM Ht. assert (X : q_th (QS l None th) t = QThr (QRun (main t)) []); [|cbn in X; rewrite X; split; [reflexivity|]; eexists; split; [reflexivity|apply HM; lia]].
      assert (Y : qinv (QS l None th) /\ q_th (QS l None th) t = QThr (QRun (main t)) []); [|apply Y]. revert R. generalize (QS l None th). clear l th.
      apply (reach_invariant init step (fun s => qinv s /\ q_th s t = QThr (QRun (main t)) [])); [split; [apply qinv_init|reflexivity]|].
      intros s l s' [HI H] HS. split; [eapply qinv_step; eauto|]. destruct (step_qlocal s l s' HI HS) as (u & L & O). destruct (decide (t = u)) as [<-|N]; [|rewrite O by exact N; exact H].
      exfalso. eapply over_still; [|exact L]. rewrite H. split; [reflexivity|]. eexists. split; [reflexivity|apply HM; lia]. }
  clear - D R A. revert R. induction A as [s _ IH]. intros R. destruct (D s R) as [F|(l & s' & H)]; [exists [], s; split; [constructor|exact F]|].
  destruct (IH s' (ex_intro _ l H)) as (ls & s2 & H2 & F); [destruct R as [tr R]; exists (tr ++ [l]); eapply steps_snoc; eassumption|].
  exists (l :: ls), s2. split; [eapply steps_cons; eassumption|exact F].
Qed.
End ends.
Print Assumptions close_program_ends.
Print Assumptions close_program_no_infinite.
Print Assumptions close_program_all_return.
(** two goroutines that append and close; closer 1 fails, closer 2 panics *)
Definition ecloser (c : nat) : qcode nat := match c with 0 => QRet None | 1 => QRet (Some 7) | _ => QPanic end.
Definition emain (t : nat) : qcode nat :=
  match t with
  | 0 => QAppend 0 (QAppend 1 (QClose (fun errs => QRet (head errs))))
  | 1 => QAppend 2 (QClose (fun errs => QRet (head errs)))
  | _ => QRet None
  end.
Example close_program_ends_case : (forall t, 2 <= t -> q_call (emain t) = false) /\ (forall x, q_call (ecloser x) = false) /\
  exists ls s, steps (q_step ecloser) (q_init emain) ls s /\ (forall t, q_over (q_th s t)).
Proof.
  assert (H1 : forall t, 2 <= t -> q_call (emain t) = false) by (intros [|[|t]] Ht; [lia|lia|reflexivity]).
  assert (H2 : forall x, q_call (ecloser x) = false) by (intros [|[|x]]; reflexivity).
  split; [exact H1|]. split; [exact H2|]. apply (close_program_all_return ecloser emain 2); [exact H1|exact H2|]. exists []. constructor.
Qed.
(** the other end is met too: a closer that closes its manager *)
Theorem close_program_all_return_refuted : exists (closer main : nat -> qcode nat) s, (forall t, 1 <= t -> q_call (main t) = false) /\
  reach (q_init main) (q_step closer) s /\ (forall l s', ~ q_step closer s l s') /\ ~ q_over (q_th s 0).
Proof.
  exists self_closer, self_main.
  assert (H : exists tr th fr, steps (q_step self_closer) (q_init self_main) tr (QS [0] (Some 0) th) /\ th 0 = QThr (QRun (self_closer 0)) fr /\ fr <> [] /\ forall t, t <> 0 -> th t = QThr (QRun (QRet None)) []).
  { eexists _, _, _. split; [|split; [|split]].
    - unfold q_init. app_ 0. eapply steps_cons; [eapply (qs_lock_close _ _ _ 0); reflexivity|]. eapply steps_cons; [eapply (qs_next _ _ _ _ 0); reflexivity|]. apply steps_nil.
    - reflexivity.
    - discriminate.
    - intros t Ht. rewrite !tset_ne by exact Ht. destruct t; [done|reflexivity]. }
  destruct H as (tr & th & fr & HS & H0 & HF & HT). exists (QS [0] (Some 0) th). split; [intros [|t] Ht; [lia|reflexivity]|]. split; [exists tr; exact HS|]. split.
  - intros l s' M. inversion M; subst;
      match goal with H : th ?u = _ |- _ => destruct (decide (u = 0)) as [->|Hu]; [rewrite H0 in H; discriminate H|rewrite (HT u Hu) in H; discriminate H] end.
  - intros [O1 _]. cbn in O1. rewrite H0 in O1. cbn in O1. contradiction.
Qed.
Print Assumptions close_program_all_return_refuted.
