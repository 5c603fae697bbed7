(** Programs over typex/convx (convx.go 11-67) come to an end: whatever the scheduler does,
    without any assumption of fairness. *)
From Verif Require Import Base Conc ConvModel ConvConcModel ConvConcProofs.

Section ends.
Context {V : Type} (conv : nat -> V -> code V).
(** what the lookups may find: [can_find T R dyn f], and what Exists may answer *)
Context (can_find : gty -> gty -> option gty -> option nat -> Prop) (can_exist : gty -> gty -> bool -> Prop).

(** run on its own, the code comes to an end whatever the lookups answer, among the answers
    they may give, and whatever the converters return *)
Inductive ends : code V -> Prop :=
| en_ret v : ends (KRet v)
| en_panic : ends KPanic
| en_into T R d v k : (can_find T R d None -> ends (k None)) ->
    (forall f, can_find T R d (Some f) -> ends (conv f v)) -> (forall f r, can_find T R d (Some f) -> ends (k (Some r))) -> ends (KInto T R d v k)
| en_exists T R k : (forall b, can_exist T R b -> ends (k b)) -> ends (KExists T R k)
| en_register T R f k : ends k -> ends (KRegister T R f k)
| en_unregister T R k : ends k -> ends (KUnregister T R k).

(** what a step does to its goroutine *)
Inductive local : thr V -> thr V -> Prop :=
| lo_rlock c fr : is_read c = true -> local (Thr (PRun c) fr) (Thr (PRead c) fr)
| lo_exists T R k b fr : can_exist T R b -> local (Thr (PRead (KExists T R k)) fr) (Thr (PRel (k b)) fr)
| lo_miss T R d v k fr : can_find T R d None -> local (Thr (PRead (KInto T R d v k)) fr) (Thr (PRel (k None)) fr)
| lo_hit T R d v k f fr : can_find T R d (Some f) -> local (Thr (PRead (KInto T R d v k)) fr) (Thr (PRun (conv f v)) (Fr T R d v f k :: fr))
| lo_ret T R d v f k r fr : local (Thr (PRun (KRet r)) (Fr T R d v f k :: fr)) (Thr (PRel (k (Some r))) fr)
| lo_panic k fr : local (Thr (PRun KPanic) (k :: fr)) (Thr (PRel KPanic) fr)
| lo_runlock c fr : local (Thr (PRel c) fr) (Thr (PRun c) fr)
| lo_announce c fr : is_write c = true -> local (Thr (PRun c) fr) (Thr (PWait c) fr)
| lo_lock c fr : local (Thr (PWait c) fr) (Thr (PWrite c) fr)
| lo_write c fr : local (Thr (PWrite c) fr) (Thr (PTorn c) fr)
| lo_register T R f k fr : local (Thr (PTorn (KRegister T R f k)) fr) (Thr (PUnlock k) fr)
| lo_unregister T R k fr : local (Thr (PTorn (KUnregister T R k)) fr) (Thr (PUnlock k) fr)
| lo_unlock c fr : local (Thr (PUnlock c) fr) (Thr (PRun c) fr).

Definition over (x : thr V) : Prop := Acc (fun y x => local x y) x.

Lemma over_intro x : (forall y, local x y -> over y) -> over x.
Proof. intros H. constructor. exact H. Qed.
Lemma over_rel c fr : over (Thr (PRun c) fr) -> over (Thr (PRel c) fr).
Proof. intros H. apply over_intro. intros y L. inversion L; subst. exact H. Qed.
Lemma over_unlock c fr : over (Thr (PRun c) fr) -> over (Thr (PUnlock c) fr).
Proof. intros H. apply over_intro. intros y L. inversion L; subst. exact H. Qed.
(** code that ends, called from somewhere that ends *)
Lemma ends_over c : ends c -> forall fr, (forall r, over (Thr (PRun (KRet r)) fr)) -> over (Thr (PRun KPanic) fr) -> over (Thr (PRun c) fr).
Proof.
  induction 1 as [v| |T R d v k _ IH1 _ IH2 _ IH3|T R k _ IH|T R f k _ IH|T R k _ IH]; intros fr HR HP.
  - apply HR.
  - exact HP.
  - apply over_intro. intros y L. inversion L; subst; try discriminate.
    apply over_intro. intros y' L'. inversion L'; subst.
    + apply over_rel. apply IH1; assumption.
    + apply IH2; [assumption| |].
      * intros r. apply over_intro. intros y'' L''. inversion L''; subst; try discriminate. apply over_rel. eapply IH3; eassumption.
      * apply over_intro. intros y'' L''. inversion L''; subst; try discriminate. apply over_rel. exact HP.
  - apply over_intro. intros y L. inversion L; subst; try discriminate.
    apply over_intro. intros y' L'. inversion L'; subst. apply over_rel. apply IH; assumption.
  - apply over_intro. intros y L. inversion L; subst; try discriminate.
    do 2 (apply over_intro; clear L; intros ? L; inversion L; subst). apply over_intro; clear L; intros ? L; inversion L; subst. apply over_unlock, IH; assumption.
  - apply over_intro. intros y L. inversion L; subst; try discriminate.
    do 2 (apply over_intro; clear L; intros ? L; inversion L; subst). apply over_intro; clear L; intros ? L; inversion L; subst. apply over_unlock, IH; assumption.
Qed.
Lemma over_start c : ends c -> over (Thr (PRun c) []).
Proof. intros E. apply ends_over; [exact E|intros r|]; apply over_intro; intros y L; inversion L; subst; discriminate. Qed.
(** the same anywhere in the middle *)
Definition ends_thr (x : thr V) : Prop := ends (pc_code (t_pc x)) /\ Forall (fun g => forall r, ends (fr_k g (Some r))) (t_in x).
Lemma over_stack fr : Forall (fun g => forall r, ends (fr_k g (Some r))) fr -> (forall r, over (Thr (PRun (KRet r)) fr)) /\ over (Thr (PRun KPanic) fr).
Proof.
  induction 1 as [|g fr Hg _ [IH1 IH2]].
  - split; [intros r|]; apply over_intro; intros y L; inversion L; subst; discriminate.
  - split; [intros r|]; apply over_intro; intros y L; inversion L; subst; try discriminate; apply over_rel.
    + apply ends_over; [apply Hg|exact IH1|exact IH2].
    + exact IH2.
Qed.
Lemma over_thr x : ends_thr x -> over x.
Proof.
  destruct x as [p fr]. intros [E F]. cbn [t_pc t_in] in *. destruct (over_stack fr F) as [H1 H2].
  assert (R : forall c, ends c -> over (Thr (PRun c) fr)) by (intros c Ec; apply ends_over; assumption).
  destruct p as [c|c|c|c|c|c|c]; cbn [pc_code] in E.
  - apply R, E.
  - apply over_intro. intros y L. inversion L; subst; inversion E; subst.
    + apply over_rel, R. auto.
    + apply over_rel, R. auto.
    + apply ends_over; [eauto| |].
      * intros r. apply over_intro. intros y' L'. inversion L'; subst; try discriminate. apply over_rel, R. eauto.
      * apply over_intro. intros y' L'. inversion L'; subst; try discriminate. apply over_rel. exact H2.
  - apply over_rel, R, E.
  - do 2 (apply over_intro; intros ? L; inversion L; subst; clear L). apply over_intro; intros ? L; inversion L; subst; inversion E; subst; apply over_unlock, R; assumption.
  - apply over_intro; intros ? L; inversion L; subst; clear L. apply over_intro; intros ? L; inversion L; subst; inversion E; subst; apply over_unlock, R; assumption.
  - apply over_intro; intros ? L; inversion L; subst; inversion E; subst; apply over_unlock, R; assumption.
  - apply over_unlock, R, E.
Qed.
End ends.

(** *** finitely many, in any interleaving *)
Section inter.
Context {A : Type} (R : A -> A -> Prop).
(** one of the first n makes a step *)
Definition one (n : nat) (x y : nat -> A) : Prop := exists t, t < n /\ R (x t) (y t) /\ forall u, u < n -> u <> t -> y u = x u.
Notation acc1 := (Acc (fun y x => R x y)).
Notation accn n := (Acc (fun y x => one n x y)).
Lemma one_same n x : accn n x -> forall y, (forall u, u < n -> y u = x u) -> accn n y.
Proof.
  induction 1 as [x _ IH]. intros y E. constructor. intros z (t & Ht & Hr & Ho).
  apply (IH (fun u => z u)); [|intros; reflexivity]. exists t. split; [exact Ht|]. rewrite <- E by exact Ht. split; [exact Hr|].
  intros u Hu N. rewrite <- E by exact Hu. apply Ho; assumption.
Qed.
Lemma one_acc n x : (forall t, t < n -> acc1 (x t)) -> accn n x.
Proof.
  revert x. induction n as [|n IHn]; intros x H.
  - constructor. intros y (t & Ht & _). lia.
  - assert (Hn : accn n x) by (apply IHn; intros t Ht; apply H; lia).
    assert (Ha : acc1 (x n)) by (apply H; lia). clear H.
    remember (x n) as a eqn:Ea. revert x Hn Ea. induction Ha as [a _ IHa]. intros x Hn.
    induction Hn as [x Hx IHx]. intros Ea. constructor. intros y (t & Ht & Hr & Ho).
    destruct (decide (t = n)) as [->|N].
    + apply (IHa (y n)); [rewrite Ea; exact Hr| |reflexivity].
      apply (one_same n x); [constructor; exact Hx|]. intros u Hu. apply Ho; lia.
    + apply IHx; [|rewrite Ho by lia; exact Ea]. exists t. split; [lia|]. split; [exact Hr|]. intros u Hu Nu. apply Ho; lia.
Qed.
End inter.

Section system.
Context {V : Type} (conv : nat -> V -> code V).
Context (can_find : gty -> gty -> option gty -> option nat -> Prop) (can_exist : gty -> gty -> bool -> Prop).
Notation step := (k_step conv).
Notation lo := (local conv can_find can_exist).

Lemma step_local s l s' : inv s -> step s l s' ->
  (forall T R d, can_find T R d (find_conv (k_reg s) T R d)) -> (forall T R, can_exist T R (exists_conv (k_reg s) T R)) ->
  exists t, lo (k_th s t) (k_th s' t) /\ forall u, u <> t -> k_th s' u = k_th s u.
Proof.
  intros HI HS HF HE. pose proof (inv_step conv s l s' HI HS) as HI'.
  destruct HS; cbn [k_reg k_th] in *; try (exists t; split; [rewrite tset_eq, H|intros u N; apply tset_ne; exact N]).
  all: try (constructor; assumption).
  - constructor. apply HE.
  - constructor. specialize (HF T R d). rewrite H0 in HF. exact HF.
  - constructor. specialize (HF T R d). rewrite H0 in HF. exact HF.
  - pose proof (i_crash _ HI') as X. discriminate X.
Qed.
Lemma local_alive x y : lo x y -> ~ finished x.
Proof. intros L [F (c & E & C)]. destruct L; cbn [t_in t_pc] in *; try discriminate; injection E as <-; unfold is_call in C; rewrite H in C; try discriminate; destruct (is_read _); discriminate. Qed.

(** nothing goes on for ever while [P] holds *)
Lemma system_acc (P : kstate V -> Prop) n s :
  (forall s l s', P s -> inv s -> step s l s' -> P s') ->
  (forall s T R d, P s -> can_find T R d (find_conv (k_reg s) T R d)) -> (forall s T R, P s -> can_exist T R (exists_conv (k_reg s) T R)) ->
  P s -> inv s -> (forall t, t < n -> ends_thr conv can_find can_exist (k_th s t)) -> (forall t, n <= t -> finished (k_th s t)) ->
  Acc (fun s' s => exists l, step s l s') s.
Proof.
  intros HP HF HE Ps Is En Fi.
  assert (A : Acc (fun y x => one lo n x y) (k_th s)) by (apply one_acc; intros t Ht; apply over_thr, En, Ht). clear En.
  remember (k_th s) as th eqn:Eth. revert s Ps Is Fi Eth. induction A as [th _ IH]. intros s Ps Is Fi Eth. subst th.
  constructor. intros s' [l HS]. destruct (step_local s l s' Is HS) as (t & L & O); [intros; apply HF, Ps|intros; apply HE, Ps|].
  assert (Ht : t < n). { destruct (decide (t < n)) as [?|N]; [assumption|]. exfalso. eapply local_alive; [exact L|]. apply Fi. lia. }
  apply (IH (k_th s')).
  - exists t. split; [exact Ht|]. split; [exact L|]. intros u _ N. apply O, N.
  - eapply HP; eassumption.
  - eapply inv_step; eassumption.
  - intros u Hu. rewrite O by lia. apply Fi, Hu.
  - reflexivity.
Qed.
End system.

Lemma finished_dec {V} (x : thr V) : finished x \/ ~ finished x.
Proof.
  destruct x as [p fr]. destruct fr as [|g fr]; [|right; intros [E _]; discriminate E].
  destruct p as [c|c|c|c|c|c|c]; try (right; intros [_ (c' & E & _)]; discriminate E).
  destruct (is_call c) eqn:C; [right; intros [_ (c' & E & C')]; injection E as <-; congruence|].
  left. split; [reflexivity|]. exists c. split; [reflexivity|exact C].
Qed.

Section props.
Context {V : Type} (conv : nat -> V -> code V) (main : nat -> code V).
Notation step := (k_step conv).

Lemma all_end : (forall f v, exists r, conv f v = KRet r \/ conv f v = KPanic) ->
  forall c, ends conv (fun _ _ _ _ => True) (fun _ _ _ => True) c.
Proof.
  intros HC. assert (C : forall f v, ends conv (fun _ _ _ _ => True) (fun _ _ _ => True) (conv f v)).
  { intros f v. destruct (HC f v) as [r [-> | ->]]; constructor. }
  induction c; constructor; auto.
Qed.

(** C174: finitely many goroutines with converters that only compute: no execution goes on
    for ever, and where one cannot go on all the goroutines are done *)
Theorem conv_program_ends n s : (forall f v, exists r, conv f v = KRet r \/ conv f v = KPanic) ->
  (forall t, n <= t -> is_call (main t) = false) -> reach (k_init main) step s ->
  Acc (fun s' s => exists l, step s l s') s /\ ((forall l s', ~ step s l s') -> forall t, finished (k_th s t)).
Proof.
  intros HC HM HR. assert (HI : inv s) by (eapply inv_reach; exact HR). split.
  - assert (A : Acc (fun s' s => exists l, step s l s') (k_init main)).
    { apply (system_acc conv (fun _ _ _ _ => True) (fun _ _ _ => True) (fun _ => True) n); auto.
      - apply inv_init.
      - intros t _. split; [apply all_end, HC|constructor].
      - intros t Ht. split; [reflexivity|]. exists (main t). split; [reflexivity|apply HM, Ht]. }
    revert s HR HI. intros s HR _. revert s HR. apply reach_invariant; [exact A|]. intros s l s' [B] H. apply B. exists l. exact H.
  - intros St t. destruct (finished_dec (k_th s t)) as [F|F]; [exact F|]. exfalso.
    assert (HP : computing s).
    { clear St F t. revert s HR HI. intros s HR _. revert s HR. apply reach_invariant; [intros u h fs E; discriminate E|].
      intros s l s' H HS. eapply computing_step; eauto. }
    destruct (progress_computing conv s t HI HP F) as (l & s' & H & _). exact (St l s' H).
Qed.
(** and so there is no infinite execution *)
Theorem conv_program_no_infinite n : (forall f v, exists r, conv f v = KRet r \/ conv f v = KPanic) ->
  (forall t, n <= t -> is_call (main t) = false) ->
  ~ exists (e : nat -> kstate V) ls, e 0 = k_init main /\ forall i, step (e i) (ls i) (e (S i)).
Proof.
  intros HC HM (e & ls & E0 & ES).
  assert (A : Acc (fun s' s => exists l, step s l s') (e 0)).
  { rewrite E0. apply (conv_program_ends n); [exact HC|exact HM|]. exists []. constructor. }
  clear E0. remember (e 0) as s eqn:Es. assert (X : exists i, s = e i) by (exists 0; exact Es). clear Es.
  induction A as [s _ IH]. destruct X as [i ->]. apply (IH (e (S i))); [exists (ls i); apply ES|exists (S i); reflexivity].
Qed.

(** what is left of the programs, when everything is registered, calls nothing but Into and
    Exists; so do the converters, which may call each other, and each call would end if it
    were made alone with the registry m *)
Definition ends_with (m : registry_of nat) (c : code V) : Prop :=
  ends conv (fun T R d f => f = find_conv m T R d) (fun T R b => b = exists_conv m T R) c.
Definition ends_with_thr (m : registry_of nat) (x : thr V) : Prop :=
  ends_with m (pc_code (t_pc x)) /\ Forall (fun g => forall r, ends_with m (fr_k g (Some r))) (t_in x).
(** C174: from any moment at which only Into and Exists are left to be called, by the
    goroutines and by converters that call each other: everything comes to its end *)
Theorem conv_readers_end n s0 ls s : (forall f v, reads_only (conv f v)) -> reach (k_init main) step s0 -> reading s0 ->
  (forall t, t < n -> ends_with_thr (k_reg s0) (k_th s0 t)) -> (forall t, n <= t -> finished (k_th s0 t)) -> steps step s0 ls s ->
  k_reg s = k_reg s0 /\ Acc (fun s' s => exists l, step s l s') s /\ ((forall l s', ~ step s l s') -> forall t, finished (k_th s t)).
Proof.
  intros HC HR RD EN FI HS. assert (HI0 : inv s0) by (eapply inv_reach; exact HR).
  set (P := fun s : kstate V => reading s /\ k_reg s = k_reg s0).
  assert (PS : forall s l s', P s -> inv s -> step s l s' -> P s').
  { intros s1 l s2 [R1 E1] I1 S1. split; [eapply reading_step; eassumption|].
    rewrite <- E1. destruct R1 as [RP RR]. destruct S1; cbn [k_reg]; try reflexivity.
    - pose proof (RR t) as [Q _]. cbn [k_th] in Q. rewrite H in Q. cbn in Q. inversion Q.
    - pose proof (RR t) as [Q _]. cbn [k_th] in Q. rewrite H in Q. cbn in Q. inversion Q. }
  assert (P0 : P s0) by (split; [exact RD|reflexivity]).
  assert (PI : P s /\ inv s).
  { revert HS. apply (steps_invariant s0 step (fun s => P s /\ inv s)); [split; assumption|]. intros s1 l s2 [P1 I1] S1. split; [eapply PS; eassumption|eapply inv_step; eassumption]. }
  destruct PI as [[RDs REs] Is]. split; [exact REs|]. split.
  - assert (A : Acc (fun s' s => exists l, step s l s') s0).
    { apply (system_acc conv (fun T R d f => f = find_conv (k_reg s0) T R d) (fun T R b => b = exists_conv (k_reg s0) T R) P n); auto.
      - intros s1 T R d [_ E]. rewrite E. reflexivity.
      - intros s1 T R [_ E]. rewrite E. reflexivity. }
    revert HS. apply (steps_invariant s0 step (fun s => Acc (fun s' s => exists l, step s l s') s)); [exact A|]. intros s1 l s2 [B] H. apply B. exists l. exact H.
  - intros St t. destruct (finished_dec (k_th s t)) as [F|F]; [exact F|]. exfalso.
    destruct (progress_reading conv s t Is RDs F) as (l & s' & H & _). exact (St l s' H).
Qed.
End props.
Print Assumptions conv_program_ends.
Print Assumptions conv_program_no_infinite.
Print Assumptions conv_readers_end.

(** *** a program: goroutine 0 registers two converters, of which the first calls Into for
    the second; goroutines 0, 1 and 2 then convert *)
Local Open Scope Z.
Definition nA := GTy 0 false. Definition nB := GTy 1 false. Definition nC := GTy 2 false.
Definition nconv (f : nat) (v : Z) : code Z :=
  match f with O => KInto nB nC (Some nB) v (fun r => KRet (default 0 r)) | _ => KRet (v + 1) end.
Definition ask (v : Z) : code Z := KInto nA nC (Some nA) v (fun r => KRet (default 0 r)).
Definition nmain (t : nat) : code Z :=
  match t with
  | 0%nat => KRegister nA nC 0 (KRegister nB nC 1 (ask 5))
  | 1%nat => ask 6
  | 2%nat => ask 7
  | _ => KRet 0
  end.
Example conv_readers_end_case : exists s0, reach (k_init nmain) (k_step nconv) s0 /\ (forall f v, reads_only (nconv f v)) /\ reading s0 /\
  (forall t, (t < 3)%nat -> ends_with_thr nconv (k_reg s0) (k_th s0 t)) /\ (forall t, (3 <= t)%nat -> finished (k_th s0 t)) /\
  find_conv (k_reg s0) nA nC (Some nA) = Some 0%nat.
Proof.
  eexists. split; [|split; [|split; [|split; [|split]]]].
  - eexists. unfold k_init.
    do 2 (eapply steps_cons; [eapply (ks_announce _ _ _ _ _ _ 0%nat); reflexivity|]; eapply steps_cons; [eapply (ks_lock _ _ _ _ _ _ 0%nat); reflexivity|];
      eapply steps_cons; [eapply (ks_write _ _ _ _ _ _ 0%nat); reflexivity|]; eapply steps_cons; [eapply (ks_register _ _ _ _ _ _ _ 0%nat); reflexivity|];
      eapply steps_cons; [eapply (ks_unlock _ _ _ _ _ _ _ 0%nat); reflexivity|]).
    apply steps_nil.
  - intros [|f] v; cbn; repeat (constructor; auto).
  - split; [reflexivity|]. intros [|[|[|t]]]; cbn; repeat (constructor; auto).
  - assert (E0 : forall v, ends_with nconv (register (register no_converters nA nC 0%nat) nB nC 1%nat) (ask v)).
    { intros v. constructor.
      - intros X. discriminate X.
      - intros f X. vm_compute in X. injection X as ->. cbn. constructor.
        + intros X. discriminate X.
        + intros f X. vm_compute in X. injection X as ->. constructor.
        + intros f r _. constructor.
      - intros f r _. constructor. }
    intros [|[|[|t]]] Ht; [| | |lia]; (split; [apply E0|constructor]).
  - intros [|[|[|t]]] Ht; try lia. split; [reflexivity|]. eexists. split; reflexivity.
  - reflexivity.
Qed.

(** without that hypothesis it is false, even for one goroutine: a converter that converts
    the type it is registered for *)
Definition sconv (f : nat) (v : Z) : code Z := ask v.
Definition smain (t : nat) : code Z := match t with 0%nat => KRegister nA nC 0 (ask 5) | _ => KRet 0 end.
Theorem conv_self_into_refuted : exists (conv : nat -> Z -> code Z) main,
  (forall f v, reads_only (conv f v)) /\ (forall t, (1 <= t)%nat -> is_call (main t) = false) /\
  ~ Acc (fun s' s => exists l, k_step conv s l s') (k_init main).
Proof.
  exists sconv, smain. split; [intros f v; repeat constructor|]. split; [intros [|t] Ht; [lia|reflexivity]|].
  set (Q := fun s : kstate Z => k_torn s = false /\ k_pend s = None /\ find_conv (k_reg s) nA nC (Some nA) = Some 0%nat /\
    exists fr, k_th s 0%nat = Thr (PRun (ask 5)) fr \/ k_th s 0%nat = Thr (PRead (ask 5)) fr).
  assert (N : forall s, Acc (fun s' s => exists l, k_step sconv s l s') s -> ~ Q s).
  { induction 1 as [s _ IH]. intros (T & P & F & fr & E). destruct s as [m tn cr p rs th]. cbn in T, P, F, E. subst tn p. destruct E as [E|E].
    - eapply IH; [eexists; eapply (ks_rlock _ _ _ _ _ _ 0%nat); [exact E|reflexivity]|].
      repeat (split; [reflexivity || exact F|]). eexists. right. cbn. reflexivity.
    - eapply IH; [eexists; eapply (ks_hit _ _ _ _ _ _ 0%nat); [exact E|exact F]|].
      repeat (split; [reflexivity || exact F|]). eexists. left. cbn. reflexivity. }
  intros A.
  assert (S : forall s s' l, Acc (fun s' s => exists l, k_step sconv s l s') s -> k_step sconv s l s' -> Acc (fun s' s => exists l, k_step sconv s l s') s').
  { intros s s' l [B] H. apply B. exists l. exact H. }
  unfold k_init in A. eapply S in A; [|eapply (ks_announce _ _ _ _ _ _ 0%nat); reflexivity]. eapply S in A; [|eapply (ks_lock _ _ _ _ _ _ 0%nat); reflexivity].
  eapply S in A; [|eapply (ks_write _ _ _ _ _ _ 0%nat); reflexivity]. eapply S in A; [|eapply (ks_register _ _ _ _ _ _ _ 0%nat); reflexivity].
  eapply S in A; [|eapply (ks_unlock _ _ _ _ _ _ _ 0%nat); reflexivity].
  apply N in A. apply A. split; [reflexivity|]. split; [reflexivity|]. split; [reflexivity|]. eexists. left. reflexivity.
Qed.
Print Assumptions conv_self_into_refuted.
