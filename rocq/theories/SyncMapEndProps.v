(** Calls of dsx/mapx/syncmapx (syncmapx.go 17-74, on the code of sync.RWMutex) come to an
    end whatever the scheduler does: without any assumption of fairness an execution that
    goes on for ever makes calls for ever (C176). *)
From stdpp Require Import gmap.
From Verif Require Import Base Conc Lin Fair SyncMapModel SyncMapProofs RWModel RWProofs RWFairProofs SyncMapRWModel SyncMapRWProofs SyncMapRWFairProofs SyncMapRWProps ConvEndProps.

Section ends.
Context {K V : Type} `{Countable K} (zero : V) (N : nat) (HN : (Z.of_nat N <= 2^30)%Z).
Notation mpc := (mpc K V).
Notation xstate := (xstate K V).
Notation go := (x_go (K := K) (V := V) zero N).
Notation step := (x_step (K := K) (V := V) zero N).

(** how far a call is from its end: the part of the method, and the place in it *)
Definition part (p : mpc) : nat :=
  match p with MIdle => 0 | MRet _ _ => 1 | MRel _ _ => 2 | MWriting _ => 3 | MIter _ _ _ _ => 3 | MHold _ => 4 | MWant _ => 5 end.
Definition place (p : mpc) (q : rwpc) : nat :=
  match p with
  | MWant _ => match q with PIdle => 5 | PRWant | PWWant => 4 | PWAnn => 3 | PWWait _ => 2 | PRSem | PWSem => 1 | _ => 0 end
  | MIter _ _ rest _ => length rest
  | MRet _ _ => match q with PIdle => 0 | PWPost r i => 1 + Z.to_nat (r - i) | PRPost => 1 | PRDec => 2 | _ => 3 end
  | _ => 0
  end.
Definition nearer (x y : mpc * rwpc) : Prop :=
  part y.1 < part x.1 \/ part y.1 = part x.1 /\ place y.1 y.2 < place x.1 x.2.
Lemma nearer_acc x : Acc (fun y x => nearer x y) x.
Proof.
  assert (G : forall a b x, part x.1 = a -> place x.1 x.2 = b -> Acc (fun y x => nearer x y) x); [|eapply G; reflexivity].
  induction a as [a IHa] using lt_wf_ind. induction b as [b IHb] using lt_wf_ind. intros y Ha Hb. constructor. intros z [L|[E L]].
  - eapply IHa; [|reflexivity|reflexivity]. lia.
  - eapply IHb; [|congruence|reflexivity]. lia.
Qed.
Lemma go_nearer tr s t l s' : xinv zero N tr s -> go s (t, l) s' -> nearer (x_view t s) (x_view t s').
Proof using HN.
  intros IV [HS NC]. pose proof (xinv_step zero N HN _ _ _ _ IV HS) as IV'. destruct IV as [IR (w & rs & IM) IC IN]. remember (t, l) as lb eqn:El. unfold nearer, x_view.
  destruct HS as [m tn c rw th t0 o L E|m tn c rw th t0 o rw' E P ST P'|m tn c rw th t0 o rw' E P ST|m c rw th t0 o r E Er|m c rw th t0 o l0 E Ei El'
      |m c rw th t0 o p rest dn E|m m0 c rw th t0 o rest rest' dn p Hne E|m tn c rw th t0 o m0 dn r E Er|m c rw th t0 o E Eo
      |m tn c rw th t0 o m' E Ew|m c rw th t0 o E|m tn c rw th t0 o r rw' E P ST|m tn c rw th t0 o r rw' E P ST|m tn c rw th t0 o r E P];
      injection El as -> <-; cbn [x_th x_rw x_map fst snd] in *; rewrite ?tset_eq, ?E; cbn [part place fst snd]; try lia.
  - right. split; [reflexivity|]. rewrite P, P'. destruct (is_write o); lia.
  - pose proof (rw_self N rw t rw' IR ST) as X. specialize (IC t). rewrite E in IC. cbn [coupled] in IC.
    destruct (has_lock (rw_pc rw' t)) eqn:HL; [rewrite tset_eq; cbn; left; lia|]. right. rewrite E. split; [reflexivity|]. cbn [place fst snd].
    destruct (is_write o).
    + destruct IC as [Q|[Q|[Q|[[r Q]|Q]]]]; rewrite Q in *; [contradiction| | | |].
      * rewrite X. cbn. lia.
      * destruct X as [X|[r X]]; rewrite X in *; [discriminate HL|cbn; lia].
      * destruct X as [X|X]; rewrite X in *; [discriminate HL|cbn; lia].
      * rewrite X in *. discriminate HL.
    + destruct IC as [Q|[Q|Q]]; rewrite Q in *; [contradiction| |].
      * destruct X as [X|X]; rewrite X in *; [cbn; lia|discriminate HL].
      * rewrite X in *. discriminate HL.
  - right. split; [reflexivity|]. cbn. lia.
  - exfalso. pose proof (iv_pc _ _ _ IM t) as Ip. cbn in Ip. rewrite E in Ip. cbn in Ip. destruct Ip as (P1 & _). cbn in P1. congruence.
  - exfalso. destruct IV' as [_ (w' & rs' & IM') _ _]. pose proof (iv_crash _ _ _ IM') as X. discriminate X.
  - right. split; [reflexivity|]. pose proof (rw_self N rw t rw' IR ST) as X. specialize (IC t). rewrite E in IC. cbn [coupled] in IC. destruct (is_write o).
    + destruct IC as [Q|(a & b & Q)]; rewrite Q in *; [contradiction|]. destruct X as [(X1 & X2 & _)|[X _]]; [rewrite X2; lia|rewrite X; lia].
    + destruct IC as [Q|[Q|Q]]; rewrite Q in *; [contradiction| |].
      * destruct X as [[X|X] _]; rewrite X; lia.
      * destruct X as [X _]; rewrite X; lia.
Qed.
(** C176: while no new calls are made no execution goes on for ever, and where one cannot
    go on every call has returned *)
Theorem syncmap_calls_end s : reach (@x_new K V _ _) step s ->
  Acc (fun s' s => exists l, go s l s') s /\ ((forall l s', ~ go s l s') -> forall t, x_th s t = MIdle).
Proof using HN.
  intros [ls R]. split.
  - pose proof (xinv_steps zero N HN ls s R) as IV. clear R.
    assert (A : Acc (fun y x => one nearer N x y) (fun t => x_view t s)) by (apply one_acc; intros t _; apply nearer_acc).
    remember (fun t => x_view t s) as v eqn:Ev. assert (Ev' : forall t, v t = x_view t s) by (intros; subst v; reflexivity). clear Ev.
    remember (x_events ls) as tr eqn:Et. clear Et. revert s tr IV Ev'. induction A as [v _ IH]. intros s tr IV Ev.
    constructor. intros s' [[t l] G]. eapply (IH (fun u => x_view u s')); [|eapply (xinv_step zero N HN); [exact IV|exact (proj1 G)]|reflexivity].
    exists t. split; [|split].
    + apply (xv_N _ _ _ _ IV). destruct G as [HS NC]. remember (t, l) as lb eqn:El. destruct HS; injection El as <- <-; cbn in *; try contradiction; try congruence.
      match goal with H : _ \/ _ |- _ => destruct H as [H|(? & ? & ? & ? & H)]; congruence end.
    + rewrite Ev. eapply go_nearer; eassumption.
    + intros u _ Ne. rewrite Ev. destruct (x_other zero N s t l s' u (proj1 G) Ne) as [X1 X2]. unfold x_view. rewrite X1, X2. reflexivity.
  - intros St t. destruct (settled_execution _ _ _ _ R) as (e & le & X & D & _).
    assert (F : x_fair zero N e). { intros u. apply (settled_fair _ _ e _ _ D). intros (l & s' & M & _). exact (St l s' M). }
    destruct (syncmap_returns K V zero N e le HN X F t (length ls)) as (j & Hj & Ej). rewrite D in Ej by exact Hj. exact Ej.
Qed.
(** an execution that never stops makes calls again and again *)
Theorem syncmap_infinite_calls (e : nat -> xstate) ls : e 0 = x_new -> (forall i, step (e i) (ls i) (e (S i))) ->
  forall i, exists j t o, i <= j /\ ls j = (t, Some (Inv t o)).
Proof using HN.
  intros E0 ES i. assert (R : forall i, reach x_new step (e i)).
  { intros k. induction k as [|k IH]; [rewrite E0; apply reach_refl|eapply reach_snoc; [exact IH|apply ES]]. }
  destruct (syncmap_calls_end (e i) (R i)) as [A _]. remember (e i) as s eqn:Es. revert i Es. induction A as [s _ IH]. intros i ->.
  pose proof (ES i) as HS. destruct (ls i) as [t [[u o|u o r|u o r]|]] eqn:L.
  - exists i, t, o. split; [lia|]. rewrite L. inversion HS; subst. reflexivity.
  - destruct (IH (e (S i))) with (i := S i) as (j & t' & o' & Hj & X); [exists (t, Some (Lin u o r)); split; [exact HS|exact I]|reflexivity|]. exists j, t', o'. split; [lia|exact X].
  - destruct (IH (e (S i))) with (i := S i) as (j & t' & o' & Hj & X); [exists (t, Some (Rsp u o r)); split; [exact HS|exact I]|reflexivity|]. exists j, t', o'. split; [lia|exact X].
  - destruct (IH (e (S i))) with (i := S i) as (j & t' & o' & Hj & X); [exists (t, None); split; [exact HS|exact I]|reflexivity|]. exists j, t', o'. split; [lia|exact X].
Qed.
End ends.
Print Assumptions syncmap_calls_end.
Print Assumptions syncmap_infinite_calls.
(** three calls under way: a reader that has the lock, a writer that waits for it, a reader
    that waits for the writer *)
Example syncmap_calls_end_case : exists s, reach (@x_new nat nat _ _) (x_step 0 3) s /\ rw_pc (x_rw s) 0 = PWSem /\ rw_pc (x_rw s) 1 = PRHold /\ rw_pc (x_rw s) 2 = PRSem /\
  Acc (fun s' s => exists l, x_go 0 3 s l s') s.
Proof.
  destruct syncmap_rw_case as [(s & R & P0 & P1 & P2) _]. exists s. split; [exists (take 11 case_labels); exact R|]. repeat (split; [assumption|]).
  apply (syncmap_calls_end 0 3); [cbn; lia|]. exists (take 11 case_labels). exact R.
Qed.
(** an execution that never stops: goroutine 0 calls Size again and again *)
Definition again (s : xstate nat nat) : xstate nat nat :=
  let 'XS m tn c (RW n x w a b pc) th := s in
  match th 0 with
  | MIdle => XS m tn c (RW n x w a b pc) (tset th 0 (MWant MSize))
  | MWant o =>
      match pc 0 with
      | PIdle => XS m tn c (RW n x w a b (tset pc 0 PRWant)) th
      | _ => let rw' := RW (n + 1) x w a b (tset pc 0 (if (n + 1 <? 0)%Z then PRSem else PRHold)) in
             XS m tn c rw' (if has_lock (rw_pc rw' 0) then tset th 0 (MHold o) else th)
      end
  | MHold o => XS m tn c (RW n x w a b pc) (tset th 0 (MRel o (RetN 0)))
  | MRel o r => XS m tn c (RW (n - 1) x w a b (tset pc 0 (if (n - 1 <? 0)%Z then PRDec else PIdle))) (tset th 0 (MRet o r))
  | _ => XS m tn c (RW n x w a b pc) (tset th 0 MIdle)
  end.
Definition again_lab (s : xstate nat nat) : nat * option (lev (mop nat nat) (mret nat nat)) :=
  match x_th s 0 with
  | MIdle => (0, Some (Inv 0 MSize)) | MHold o => (0, Some (Lin 0 o (RetN 0))) | MRet o r => (0, Some (Rsp 0 o r)) | _ => (0, None)
  end.
Definition again_inv (s : xstate nat nat) : Prop :=
  x_map s = ∅ /\ x_torn s = false /\
  ((x_th s 0 = MIdle \/ x_th s 0 = MWant MSize \/ x_th s 0 = MRet MSize (RetN 0)) /\ rw_pc (x_rw s) 0 = PIdle /\ rw_count (x_rw s) = 0%Z \/
   x_th s 0 = MWant MSize /\ rw_pc (x_rw s) 0 = PRWant /\ rw_count (x_rw s) = 0%Z \/
   (x_th s 0 = MHold MSize \/ x_th s 0 = MRel MSize (RetN 0)) /\ rw_pc (x_rw s) 0 = PRHold /\ rw_count (x_rw s) = 1%Z).
Lemma again_step s : again_inv s -> x_step 0 1 s (again_lab s) (again s) /\ again_inv (again s).
Proof.
  destruct s as [m tn c [n x w a b pc] th]. unfold again_inv, again_lab, again. cbn [x_map x_torn x_th x_rw rw_pc rw_count].
  intros (-> & -> & [([E|[E|E]] & P & ->)|[(E & P & ->)|([E|E] & P & ->)]]); rewrite E; try rewrite P; cbn [x_map x_torn x_th x_rw rw_pc rw_count].
  - split; [apply xs_call; [lia|exact E]|]. rewrite tset_eq. auto 10.
  - split; [eapply xs_lock; [exact E|exact P|apply rw_rlock; [lia|exact P]|cbn; rewrite tset_eq; reflexivity]|]. rewrite tset_eq. auto 10.
  - split; [apply xs_return; [exact E|exact P]|]. rewrite tset_eq. auto 10.
  - split; [eapply xs_locking; [exact E|cbn; rewrite P; discriminate|apply rw_radd; exact P]|]. rewrite !tset_eq. cbn. auto 10.
  - split; [apply xs_read; [exact E|reflexivity]|]. rewrite tset_eq. auto 10.
  - split; [eapply xs_unlock; [exact E|cbn; rewrite P; discriminate|apply rw_runlock; exact P]|]. rewrite !tset_eq. cbn. auto 10.
Qed.
Example syncmap_infinite_calls_case : exists (e : nat -> xstate nat nat) ls, e 0 = x_new /\ forall i, x_step 0 1 (e i) (ls i) (e (S i)).
Proof.
  exists (fun i => Nat.iter i again x_new), (fun i => again_lab (Nat.iter i again x_new)). split; [reflexivity|].
  assert (G : forall i, again_inv (Nat.iter i again x_new)).
  { induction i as [|i IH]; [cbn; unfold again_inv; cbn; auto 10|]. apply again_step, IH. }
  intros i. apply again_step, G.
Qed.
