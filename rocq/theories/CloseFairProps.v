(** Liveness of iox/managerx/closex/manager.go and osx/closex/closex.go: what happens in
    every infinite execution in which nothing is forgotten (C132, C133). *)
From Verif Require Import Base Conc Fair CloseModel CloseProofs CloseProps CloseConcModel CloseConcProps.

(** *** CloseManager *)
Section manager.
Context {E : Type} (closer : nat -> qcode E) (main : nat -> qcode E).
Notation step := (q_step closer).
Notation init := (q_init main).
(** sync.Mutex does not starve a goroutine, and every goroutine that can go on does *)
Definition close_fair (e : nat -> qstate E) : Prop := forall t, strongly_fair step (fun s => q_th s t) e.
(** the goroutine has come to the end of its code *)
Definition q_over (x : qthr E) : Prop := q_in x = [] /\ exists c, q_pc x = QRun c /\ q_call c = false.

(** how long a goroutine can hold the mutex *)
Definition hold (x : qthr E) : nat :=
  match q_in x with
  | [] => match q_pc x with QRun _ => 0 | QRel _ => 1 | QPut _ _ => 2 | QLoop rest _ _ => 2 + 2 * length rest end
  | g :: _ => 1 + 2 * length (q_rest g)
  end.
(** the code with which a goroutine can leave the mutex *)
Definition leaves (x : qthr E) (c : qcode E) : Prop :=
  match q_in x with
  | [] => match q_pc x with QRun c' | QRel c' => c = c' | QPut _ k => c = k | QLoop _ _ k => c = QPanic \/ exists errs, c = k errs end
  | g :: _ => c = QPanic \/ exists errs, c = q_k g errs
  end.
Lemma hold_step s l s' t : qinv s -> step s l s' -> q_th s' t = q_th s t \/
  (hold (q_th s t) = 0 /\ exists c, q_th s t = QThr (QRun c) [] /\ q_call c = true /\ q_mutex s = None /\ 0 < hold (q_th s' t) /\
     match c with QAppend _ k => leaves (q_th s' t) = (fun c => c = k) | QClose k => forall c, leaves (q_th s' t) c -> c = QPanic \/ exists errs, c = k errs | _ => True end) \/
  (hold (q_th s' t) < hold (q_th s t) /\ (forall c, leaves (q_th s' t) c -> leaves (q_th s t) c) /\ (hold (q_th s' t) = 0 -> q_mutex s' = None /\ exists c, q_th s' t = QThr (QRun c) [])).
Proof.
  intros HI HS. destruct HS; cbn [q_th q_mutex] in *.
  all: match goal with |- context [tset ?th ?x ?p ?y] => destruct (tset_cases th x p y) as [[-> ->]|[_ ->]]; [right|left; reflexivity] end.
  all: pose proof (HI t0) as Ht; cbn [q_th q_mutex] in Ht; rewrite H in Ht; unfold qok in Ht; cbn [q_in q_pc] in Ht; rewrite H.
  all: try (destruct fr as [|g [|]]; [|destruct Ht as (Ht & (c' & Hc) & Hr); try discriminate|contradiction Ht]).
  - left. split; [reflexivity|]. eexists. split; [reflexivity|]. split; [reflexivity|]. split; [reflexivity|]. cbn. split; [lia|reflexivity].
  - right. cbn. split; [lia|]. split; [auto|lia].
  - left. split; [reflexivity|]. eexists. split; [reflexivity|]. split; [reflexivity|]. split; [reflexivity|]. cbn. split; [lia|]. auto.
  - right. cbn. split; [lia|]. split; [auto|lia].
  - right. destruct fr; [|contradiction Ht]. cbn. split; [lia|]. split; [auto|lia].
  - right. destruct fr; [|contradiction Ht]. cbn. destruct Ht as (_ & _ & Hr). destruct (q_rest g); [done|]. cbn. split; [lia|]. split; [auto|lia].
  - right. cbn. split; [lia|]. split; [eauto|lia].
  - right. cbn. split; [lia|]. split; [eauto|]. eauto.
Qed.

Section exec.
Context (nocall : forall c, q_call (closer c) = false).
Context (e : nat -> qstate E) (ls : nat -> option (option (qev E))) (X : execution step init e ls) (F : close_fair e).
Lemma in_closer s : reach init step s -> forall u c fr, q_th s u = QThr (QRun c) fr -> fr <> [] -> q_call c = false.
Proof using nocall.
  intros R. assert (HQ : qinv s /\ forall u c fr, q_th s u = QThr (QRun c) fr -> fr <> [] -> q_call c = false); [|apply HQ].
  revert s R. apply (reach_invariant init step (fun s => qinv s /\ forall u c fr, q_th s u = QThr (QRun c) fr -> fr <> [] -> q_call c = false)).
  - split; [apply qinv_init|]. intros u c fr [= _ <-]. done.
  - intros s l s' [HI HQ] HS. split; [eapply qinv_step; eauto|]. destruct HS; cbn [q_th] in *; intros u c' fr'; (destruct (decide (u = t)) as [->|Hu]; [rewrite tset_eq; intros Hx Hf|rewrite tset_ne by exact Hu; apply HQ]);
      try discriminate Hx; injection Hx as ? ?; subst; [apply nocall|].
    exfalso. specialize (HI t). cbn [q_th] in HI. rewrite H in HI. unfold qok in HI. cbn in HI. destruct fr' as [|g [|]]; [done| |exact HI]. destruct HI as (_ & (? & F') & _). discriminate F'.
Qed.
Lemma can_hold s t : reach init step s -> 0 < hold (q_th s t) -> can_move step (fun s => q_th s t) s.
Proof using nocall.
  intros R H. pose proof (qinv_reach closer main s R t) as Hu. pose proof (in_closer s R t) as HQ. destruct s as [l m th]. cbn [q_th q_mutex] in *. destruct (th t) as [p fr] eqn:Et. unfold qok in Hu. cbn [q_in q_pc] in Hu.
  assert (M : forall l' s', step (QS l m th) l' s' -> q_th s' t <> QThr p fr -> can_move step (fun s => q_th s t) (QS l m th)) by (intros l' s' H1 H2; exists l', s'; split; [exact H1|cbn; congruence]).
  destruct fr as [|[rest errs k] [|]]; [| |contradiction].
  - destruct p as [c|c k|[|c rest] errs k|c]; cbn in H; [lia|eapply M; [eapply qs_append; exact Et|]|eapply M; [eapply qs_end; exact Et|]|eapply M; [eapply qs_next; exact Et|]|eapply M; [eapply qs_unlock; exact Et|]]; cbn; rewrite tset_eq; congruence.
  - destruct Hu as (_ & (c & ->) & Hr). cbn in Hr. destruct rest as [|x rest]; [done|]. pose proof (HQ c _ eq_refl ltac:(discriminate)) as Hc.
    destruct c; try discriminate Hc; (eapply M; [first [eapply qs_ret; exact Et|eapply qs_panic; exact Et]|]); cbn; rewrite tset_eq; congruence.
Qed.
(** the holder of the mutex gives it back *)
Lemma hold_leads n t : forall i, hold (q_th (e i) t) = n -> 0 < n ->
  exists j, i <= j /\ q_mutex (e j) = None /\ exists c, q_th (e j) t = QThr (QRun c) [] /\ leaves (q_th (e i) t) c.
Proof using F X nocall.
  induction (lt_wf n) as [n _ IH]. intros i Hn Hp. set (x := q_th (e i) t) in *.
  destruct (leads_weak step init e ls X step (fun s => q_th s t) (fun s => q_th s t = x)
    (fun s' => hold (q_th s' t) < hold x /\ (forall c, leaves (q_th s' t) c -> leaves x c) /\ (hold (q_th s' t) = 0 -> q_mutex s' = None /\ exists c, q_th s' t = QThr (QRun c) []))
    (strong_weak _ _ _ (F t))) with (i := i) as (j & Hj & H1 & H2 & H3).
  - intros s l s' R Hx HS. destruct (hold_step s l s' t (qinv_reach closer main s R) HS) as [K|[(K & _)|K]]; [left; split; congruence| |right].
    + rewrite Hx in K. lia.
    + rewrite Hx in K. exact K.
  - intros s R Hx. apply can_hold; [exact R|]. rewrite Hx. lia.
  - reflexivity.
  - destruct (decide (hold (q_th (e j) t) = 0)) as [Z|NZ].
    + destruct (H3 Z) as (M & c & Hc). exists j. split; [exact Hj|]. split; [exact M|]. exists c. split; [exact Hc|]. apply H2. rewrite Hc. reflexivity.
    + destruct (IH (hold (q_th (e j) t)) ltac:(lia) j eq_refl ltac:(lia)) as (k & Hk & M & c & Hc & L). exists k. split; [lia|]. split; [exact M|]. exists c. split; [exact Hc|]. apply H2. exact L.
Qed.
(** who waits for the mutex gets it *)
Lemma lock_leads t c i : q_th (e i) t = QThr (QRun c) [] -> q_call c = true ->
  exists j, i <= j /\ 0 < hold (q_th (e j) t) /\ match c with QAppend _ k => leaves (q_th (e j) t) = (fun c => c = k) | QClose k => forall c, leaves (q_th (e j) t) c -> c = QPanic \/ exists errs, c = k errs | _ => True end.
Proof using F X nocall.
  intros Hi Hc.
  set (Q := fun s' : qstate E => 0 < hold (q_th s' t) /\ match c with QAppend _ k => leaves (q_th s' t) = (fun c => c = k) | QClose k => forall c, leaves (q_th s' t) c -> c = QPanic \/ exists errs, c = k errs | _ => True end).
  set (R0 := fun s : qstate E => q_th s t = QThr (QRun c) []).
  assert (K : forall s l s', reach init step s -> R0 s -> step s l s' -> R0 s' /\ q_th s' t = q_th s t \/ Q s').
  { intros s l s' R Hx HS. unfold R0 in *. destruct (hold_step s l s' t (qinv_reach closer main s R) HS) as [K|[(_ & c' & K1 & K2 & K3 & K4 & K5)|(K & _)]]; [left; split; congruence|right|].
    - rewrite Hx in K1. injection K1 as <-. split; assumption.
    - rewrite Hx in K. cbn in K. lia. }
  destruct (leads_strong step init e ls X step (fun s => q_th s t) R0 Q (F t) K) with (i := i) as (j & Hj & HQ); [|exact Hi|exists j; split; [exact Hj|exact HQ]].
  intros i' Hi'. assert (HM : exists j, i' <= j /\ q_mutex (e j) = None).
  { destruct (q_mutex (e i')) as [u|] eqn:M; [|exists i'; auto]. pose proof (qinv_reach closer main _ (exec_reach _ _ _ _ X i') u) as Hu. rewrite M in Hu. unfold qok in Hu.
    destruct (hold_leads (hold (q_th (e i') u)) u i' eq_refl) as (j & Hj & HN & _); [|eauto]. unfold hold. destruct (q_in (q_th (e i') u)) as [|g [|]]; [destruct (q_pc (q_th (e i') u)); [done|lia..]|lia|lia]. }
  destruct HM as (j & Hj & M). destruct (until step init e ls X (fun s => q_th s t) R0 Q K i' Hi' j Hj) as [[R1 _]|(k & Hk & HQ)]; [|exists k; split; [lia|right; exact HQ]].
  exists j. split; [exact Hj|left]. unfold R0 in R1. destruct (e j) as [l m th]. cbn [q_mutex q_th] in *. subst m. destruct c; try discriminate Hc.
  - eexists _, _. split; [eapply qs_lock_append; exact R1|]. cbn. rewrite tset_eq, R1. discriminate.
  - eexists _, _. split; [eapply qs_lock_close; exact R1|]. cbn. rewrite tset_eq, R1. discriminate.
Qed.
(** C132: if closers do not call the manager themselves, every Append and every Close
    returns (or panics because a closer does), in every fair execution: every goroutine
    comes to the end of its code *)
Theorem close_returns_partial t : exists j, q_over (q_th (e j) t) /\ forall k, j <= k -> q_th (e k) t = q_th (e j) t.
Proof using F X nocall.
  assert (P : forall c i, q_th (e i) t = QThr (QRun c) [] -> exists j, i <= j /\ q_over (q_th (e j) t)).
  { induction c as [r| |a k IH|k IH]; intros i Hi.
    - exists i. split; [lia|]. rewrite Hi. split; [reflexivity|]. eexists. split; reflexivity.
    - exists i. split; [lia|]. rewrite Hi. split; [reflexivity|]. eexists. split; reflexivity.
    - destruct (lock_leads t _ i Hi eq_refl) as (j & Hj & H1 & H2). destruct (hold_leads _ t j eq_refl H1) as (m & Hm & _ & c & Hc & L).
      rewrite H2 in L. subst c. destruct (IH m Hc) as (n & Hn & O). exists n. split; [lia|exact O].
    - destruct (lock_leads t _ i Hi eq_refl) as (j & Hj & H1 & H2). destruct (hold_leads _ t j eq_refl H1) as (m & Hm & _ & c & Hc & L).
      destruct (H2 c L) as [->|(errs & ->)].
      + exists m. split; [lia|]. rewrite Hc. split; [reflexivity|]. eexists. split; reflexivity.
      + destruct (IH errs m Hc) as (n & Hn & O). exists n. split; [lia|exact O]. }
  destruct (P (main t) 0) as (j & _ & O). { destruct X as [-> _]. reflexivity. }
  exists j. split; [exact O|]. intros k Hk. assert (Z : hold (q_th (e j) t) = 0 /\ q_over (q_th (e j) t)).
  { split; [|exact O]. destruct O as (O1 & c & O2 & _). unfold hold. rewrite O1, O2. reflexivity. }
  refine (always step init e ls X (fun s => q_th s t = q_th (e j) t) _ j eq_refl k Hk).
  intros s l s' R Hs HS. destruct (hold_step s l s' t (qinv_reach closer main s R) HS) as [K|[(_ & c & K1 & K2 & _)|(K & _)]]; [congruence| |].
  - exfalso. destruct Z as [_ (_ & c' & Z1 & Z2)]. rewrite <- Hs, K1 in Z1. injection Z1 as <-. congruence.
  - exfalso. rewrite Hs in K. lia.
Qed.
End exec.
End manager.
Print Assumptions close_returns_partial.
(** ... without that it is false: a closer that closes the manager it is in hangs, in a
    fair execution *)
Definition self_closer (c : nat) : qcode nat := QClose (fun _ => QRet None).
Definition self_main (t : nat) : qcode nat := match t with 0 => QAppend 0 (QClose (fun _ => QRet None)) | _ => QRet None end.
Theorem close_returns_refuted : exists (closer main : nat -> qcode nat) e ls, execution (q_step closer) (q_init main) e ls /\ close_fair closer e /\
  exists t, forall j, ~ q_over (q_th (e j) t).
Proof.
  assert (H : exists tr th fr, steps (q_step self_closer) (q_init self_main) tr (QS [0] (Some 0) th) /\ th 0 = QThr (QRun (self_closer 0)) fr /\ fr <> [] /\ forall t, t <> 0 -> th t = QThr (QRun (QRet None)) []).
  { eexists _, _, _. split; [|split; [|split]].
    - unfold q_init. app_ 0. eapply steps_cons; [eapply (qs_lock_close _ _ _ 0); reflexivity|]. eapply steps_cons; [eapply (qs_next _ _ _ _ 0); reflexivity|]. apply steps_nil.
    - reflexivity.
    - discriminate.
    - intros t Ht. rewrite !tset_ne by exact Ht. destruct t; [done|reflexivity]. }
  destruct H as (tr & th & fr & HS & H0 & HF & HT). exists self_closer, self_main. destruct (settled_execution _ _ _ _ HS) as (e & ls & X & D & _). exists e, ls. split; [exact X|]. split.
  - intros t. apply (settled_fair _ _ e _ _ D). intros (l & s' & M & _). inversion M; subst;
      match goal with H : th ?u = _ |- _ => destruct (decide (u = 0)) as [->|Hu]; [rewrite H0 in H; discriminate H|rewrite (HT u Hu) in H; discriminate H] end.
  - exists 0. intros j [O1 (c & O2 & O3)].
    (* over is for good, but in the end it is not *)
    assert (Z : forall k, j <= k -> q_th (e k) 0 = q_th (e j) 0).
    { intros k Hk. refine (always _ _ e ls X (fun s => q_th s 0 = q_th (e j) 0) _ j eq_refl k Hk).
      intros s l s' R Hs HS'. destruct (hold_step self_closer s l s' 0 (qinv_reach _ _ s R) HS') as [K|[(_ & c' & K1 & K2 & _)|(K & _)]]; [congruence| |].
      - exfalso. rewrite <- Hs, K1 in O2. cbn in O2. injection O2 as <-. congruence.
      - exfalso. rewrite Hs in K. unfold hold in K at 2. rewrite O1, O2 in K. lia. }
    specialize (Z (j `max` length tr) ltac:(lia)). rewrite D in Z by lia. cbn in Z. rewrite H0 in Z. rewrite <- Z in O1. cbn in O1. done.
Qed.
Print Assumptions close_returns_refuted.
(** a fair execution: nothing to do *)
Example close_fair_case : exists e ls, execution (q_step qcloser) (q_init (fun _ => QRet None)) e ls /\ close_fair qcloser e.
Proof.
  destruct (settled_execution (q_step qcloser) (q_init (fun _ => QRet None)) [] _ (steps_nil _ _)) as (e & ls & X & D & _). exists e, ls. split; [exact X|].
  intros t. apply (settled_fair _ _ e _ _ D). intros (l & s' & M & _). inversion M; subst; discriminate.
Qed.

(** *** HandleKillSig *)
(** nobody has to send a signal; the handler returns *)
Definition k_go (s : kstate) (l : klab) (s' : kstate) : Prop := k_step s l s' /\ l <> KSignal.
Definition kill_fair (e : nat -> kstate) : Prop := weakly_fair k_go k_pc e.
Lemma k_can s : k_pc s <> KCrash -> (k_pc s = KRecv -> k_buf s = true) -> can_move k_go k_pc s.
Proof.
  intros H1 H2. destruct s as [b p c n r]. cbn in *. destruct p.
  - rewrite (H2 eq_refl). eexists _, _. split; [split; [apply ks_recv|discriminate]|discriminate].
  - eexists _, _. split; [split; [apply ks_log|discriminate]|discriminate].
  - eexists _, _. split; [split; [apply ks_run|discriminate]|discriminate].
  - destruct c; eexists _, _; (split; [split; [first [apply ks_crash|apply ks_close]|discriminate]|discriminate]).
  - done.
Qed.
Definition k_next (s : kstate) : kpc :=
  match k_pc s with KRecv => KLog | KLog => KRun | KRun => KClose | KClose => if k_closed s then KCrash else KRecv | KCrash => KCrash end.
Lemma k_moves s l s' : k_step s l s' ->
  (k_pc s' = k_pc s /\ k_closed s' = k_closed s /\ k_ran s' = k_ran s /\ l = KSignal /\ k_buf s' = true) \/
  (k_pc s' = k_next s /\ k_pc s <> KCrash /\ k_ran s <= k_ran s' /\ (k_pc s <> KRecv -> k_buf s' = k_buf s) /\ (k_closed s' = match k_pc s with KClose => true | _ => k_closed s end)).
Proof. intros H. destruct H; cbn; [left; auto|right..]; (split; [reflexivity|]); (split; [discriminate|]); (split; [lia|]); (split; [auto|]); try reflexivity; intros; done. Qed.
Lemma k_first s : reach k_init k_step s -> k_pc s = KRecv -> k_closed s = false -> k_buf s = true \/ k_sent s = 0.
Proof. revert s. apply (reach_invariant k_init k_step (fun s => k_pc s = KRecv -> k_closed s = false -> k_buf s = true \/ k_sent s = 0)); [auto|]. intros s l s' IH H. destruct H; cbn in *; auto; discriminate. Qed.
Lemma k_signal s s' : k_step s KSignal s' -> k_buf s' = true /\ k_pc s' = k_pc s /\ k_closed s' = k_closed s.
Proof. intros H. inversion H; subst; auto. Qed.
Section kill.
Context (e : nat -> kstate) (ls : nat -> option klab) (X : execution k_step k_init e ls) (F : kill_fair e).
(** one step of the goroutine *)
Lemma k_leads p (C Q : kstate -> Prop) i : k_pc (e i) = p -> p <> KCrash -> C (e i) -> (forall s, C s -> p = KRecv -> k_buf s = true) ->
  (forall s l s', reach k_init k_step s -> k_step s l s' -> C s -> k_pc s = p -> (k_pc s' = p /\ C s') \/ Q s') -> exists j, i <= j /\ Q (e j).
Proof using F X.
  intros Hp Hc HC HB K. refine (leads_weak _ _ e ls X k_go k_pc (fun s => k_pc s = p /\ C s) Q F _ _ i (conj Hp HC)).
  - intros s l s' R [H1 H2] HS. destruct (K s l s' R HS H2 H1) as [[K1 K2]|K1]; [left; split; [split; assumption|congruence]|right; exact K1].
  - intros s R [H1 H2]. apply k_can; [congruence|]. intros H3. apply (HB s H2). congruence.
Qed.
Lemma k_closed_always i j : i <= j -> k_closed (e i) = true -> k_closed (e j) = true.
Proof using X.
  intros H Hi. refine (always _ _ e ls X (fun s => k_closed s = true) _ i Hi j H). intros s l s' _ Hs HS. destruct (k_moves s l s' HS) as [(_ & K & _)|(_ & _ & _ & _ & K)]; rewrite K; [exact Hs|].
  destruct (k_pc s); auto.
Qed.
(** from any place past the receive the goroutine comes to close(intr.C) *)
Lemma k_to_close i : (k_pc (e i) = KLog \/ k_pc (e i) = KRun \/ k_pc (e i) = KClose) -> forall b, k_buf (e i) = b ->
  forall c, k_closed (e i) = c -> exists j, i <= j /\ k_pc (e j) = (if c then KCrash else KRecv) /\ k_closed (e j) = true /\ (b = true -> k_buf (e j) = true).
Proof using F X.
  assert (G3 : forall i b c, k_pc (e i) = KClose -> (b = true -> k_buf (e i) = true) -> k_closed (e i) = c -> exists j, i <= j /\ (k_pc (e j) = (if c then KCrash else KRecv) /\ k_closed (e j) = true /\ (b = true -> k_buf (e j) = true))).
  { intros i' b c H1 H2 H3. apply (k_leads KClose (fun s => (b = true -> k_buf s = true) /\ k_closed s = c) (fun s => k_pc s = (if c then KCrash else KRecv) /\ k_closed s = true /\ (b = true -> k_buf s = true))); [exact H1|discriminate|auto|discriminate|].
    intros s l s' R HS [C1 C2] P. destruct (k_moves s l s' HS) as [(K1 & K2 & K3 & K4 & K5)|(K1 & _ & _ & K4 & K5)]; [left; split; [congruence|split; [auto|congruence]]|right].
    unfold k_next in K1. rewrite P in K1, K5. rewrite C2 in K1. split; [exact K1|]. split; [exact K5|]. rewrite K4 by (rewrite P; discriminate). exact C1. }
  assert (G : forall p q, (p = KLog /\ q = KRun \/ p = KRun /\ q = KClose) -> forall i b c, k_pc (e i) = p -> (b = true -> k_buf (e i) = true) -> k_closed (e i) = c ->
    exists j, i <= j /\ (k_pc (e j) = q /\ (b = true -> k_buf (e j) = true) /\ k_closed (e j) = c)).
  { intros p q HP i' b c H1 H2 H3. apply (k_leads p (fun s => (b = true -> k_buf s = true) /\ k_closed s = c) (fun s => k_pc s = q /\ (b = true -> k_buf s = true) /\ k_closed s = c)); [exact H1|destruct HP as [[-> _]|[-> _]]; discriminate|auto|destruct HP as [[-> _]|[-> _]]; discriminate|].
    intros s l s' R HS [C1 C2] P. destruct (k_moves s l s' HS) as [(K1 & K2 & K3 & K4 & K5)|(K1 & _ & _ & K4 & K5)]; [left; split; [congruence|split; [auto|congruence]]|right].
    unfold k_next in K1. destruct HP as [[-> ->]|[-> ->]]; rewrite P in K1, K5, K4; (split; [exact K1|]); (split; [rewrite K4 by discriminate; exact C1|congruence]). }
  assert (G2 : forall i b c, k_pc (e i) = KRun -> (b = true -> k_buf (e i) = true) -> k_closed (e i) = c -> exists j, i <= j /\ (k_pc (e j) = (if c then KCrash else KRecv) /\ k_closed (e j) = true /\ (b = true -> k_buf (e j) = true))).
  { intros i' b c H1 H2 H3. destruct (G KRun KClose (or_intror (conj eq_refl eq_refl)) i' b c H1 H2 H3) as (j & Hj & A1 & A2 & A3). destruct (G3 j b c A1 A2 A3) as (k & Hk & A). exists k. split; [lia|exact A]. }
  intros HP b Hb c Hc. assert (Hb' : b = true -> k_buf (e i) = true) by congruence. destruct HP as [HP|[HP|HP]]; [|exact (G2 i b c HP Hb' Hc)|exact (G3 i b c HP Hb' Hc)].
  destruct (G KLog KRun (or_introl (conj eq_refl eq_refl)) i b c HP Hb' Hc) as (j & Hj & A1 & A2 & A3). destruct (G2 j b c A1 A2 A3) as (k & Hk & A). exists k. split; [lia|exact A].
Qed.
Lemma k_recv i : k_pc (e i) = KRecv -> k_buf (e i) = true -> exists j, i <= j /\ k_pc (e j) = KLog /\ k_closed (e j) = k_closed (e i).
Proof using F X.
  intros H1 H2. apply (k_leads KRecv (fun s => k_buf s = true /\ k_closed s = k_closed (e i)) (fun s => k_pc s = KLog /\ k_closed s = k_closed (e i))); [exact H1|discriminate|auto|intros s [C1 _] _; exact C1|].
  intros s l s' R HS [C1 C2] P. destruct (k_moves s l s' HS) as [(K1 & K2 & K3 & K4 & K5)|(K1 & _ & _ & K4 & K5)]; [left; split; [congruence|split; [exact K5|congruence]]|right].
  unfold k_next in K1. rewrite P in K1, K5. split; [exact K1|congruence].
Qed.
(** C133: after a signal intr.C is closed, and stays so *)
Theorem kill_notifies i : 1 <= k_sent (e i) -> exists j, i <= j /\ forall k, j <= k -> k_closed (e k) = true /\ 1 <= k_ran (e k).
Proof using F X.
  intros Hs. cut (exists j, i <= j /\ k_closed (e j) = true).
  { intros (j & Hj & C). exists j. split; [exact Hj|]. intros k Hk. pose proof (k_closed_always j k Hk C) as Ck. split; [exact Ck|]. apply kill_closed_after_handler; [apply (exec_reach _ _ _ _ X)|exact Ck]. }
  destruct (k_closed (e i)) eqn:C; [exists i; auto|]. destruct (kinv_reach _ (exec_reach _ _ _ _ X i)) as [I1 I2].
  assert (G : forall i, (k_pc (e i) = KLog \/ k_pc (e i) = KRun \/ k_pc (e i) = KClose) -> exists j, i <= j /\ k_closed (e j) = true).
  { intros i' HP. destruct (k_to_close i' HP _ eq_refl _ eq_refl) as (j & Hj & _ & D & _). eauto. }
  destruct (k_pc (e i)) eqn:P; try (apply G; rewrite P; auto; fail).
  - assert (B : k_buf (e i) = true) by (destruct (k_first _ (exec_reach _ _ _ _ X i) P C); [assumption|lia]).
    destruct (k_recv i P B) as (j & Hj & K1 & _). destruct (G j ltac:(auto)) as (k & Hk & D). exists k. split; [lia|exact D].
  - destruct I1. congruence.
Qed.
(** C133: a signal that comes when the first one has been received, even after intr.C is
    closed, ends in a second close of intr.C, which crashes the process *)
Theorem kill_again_crashes i : ls i = Some KSignal -> k_pc (e i) <> KRecv \/ k_closed (e i) = true -> exists j, i <= j /\ forall k, j <= k -> k_pc (e k) = KCrash.
Proof using F X.
  intros L H. cut (exists j, i <= j /\ k_pc (e j) = KCrash).
  { intros (j & Hj & C). exists j. split; [exact Hj|]. intros k Hk. refine (always _ _ e ls X (fun s => k_pc s = KCrash) _ j C k Hk).
    intros s l s' _ Hs HS. destruct (k_moves s l s' HS) as [(K & _)|(K & _)]; [congruence|]. unfold k_next in K. rewrite Hs in K. exact K. }
  assert (A : k_buf (e (1 + i)) = true /\ k_pc (e (1 + i)) = k_pc (e i) /\ k_closed (e (1 + i)) = k_closed (e i)).
  { destruct X as [_ XS]. specialize (XS i). rewrite L in XS. exact (k_signal _ _ XS). }
  destruct A as (A1 & A2 & A3).
  (* with the signal in the channel and intr.C closed *)
  assert (G : forall i, k_buf (e i) = true -> k_closed (e i) = true -> exists j, i <= j /\ k_pc (e j) = KCrash).
  { intros i' B C. destruct (k_pc (e i')) eqn:P; [|destruct (k_to_close i' ltac:(auto) _ eq_refl true C) as (j & Hj & D & _); eauto..|exists i'; auto].
    destruct (k_recv i' P B) as (j & Hj & K1 & K2). rewrite C in K2. destruct (k_to_close j ltac:(auto) _ eq_refl true K2) as (k & Hk & D & _). exists k. split; [lia|exact D]. }
  destruct (k_closed (e i)) eqn:C.
  - destruct (G (1 + i) A1 A3) as (j & Hj & D). exists j. split; [lia|exact D].
  - destruct H as [H|H]; [|discriminate]. assert (Z : k_pc (e i) = KCrash \/ k_pc (e i) <> KCrash) by (destruct (k_pc (e i)); [right; discriminate..|left; reflexivity]). destruct Z as [Z|NZ]; [exists i; auto|].
    destruct (k_to_close (1 + i)) with (b := true) (c := false) as (j & Hj & D1 & D2 & D3); [rewrite A2; destruct (k_pc (e i)); auto; done|exact A1|exact A3|].
    destruct (G j (D3 eq_refl) D2) as (k & Hk & Z). exists k. split; [lia|exact Z].
Qed.
End kill.
Print Assumptions kill_notifies.
Print Assumptions kill_again_crashes.
(** a fair execution with a signal *)
Example kill_fair_case : exists e ls, execution k_step k_init e ls /\ kill_fair e /\ k_sent (e 5) = 1 /\ k_closed (e 5) = true.
Proof.
  assert (H : steps k_step k_init [KSignal; KTau; KTau; KHandlerDone; KTau] (KS false KRecv true 1 1)).
  { unfold k_init. eapply steps_cons; [apply ks_signal|]. eapply steps_cons; [apply ks_recv|]. eapply steps_cons; [apply ks_log|]. eapply steps_cons; [apply ks_run|]. eapply steps_cons; [apply ks_close|]. apply steps_nil. }
  destruct (settled_execution _ _ _ _ H) as (e & ls & X & D & _). exists e, ls. split; [exact X|]. split.
  - apply strong_weak. apply (settled_fair _ _ e _ _ D). intros (l & s' & [M NS] & V). inversion M; subst; done.
  - rewrite (D 5) by reflexivity. auto.
Qed.
