(** convx with the code of sync.RWMutex, and of the sync.Mutex inside it (C191, C192). *)
From Coq Require Import Cantor.
From Verif Require RWMuProps RWFairProofs.
From Verif Require Import Base Conc ConvModel ConvProofs ConvConcModel ConvConcProofs ConvConcProps RWModel RWProofs MutexModel MutexProofs MutexProps RWMuModel RWMuProofs ConvRWModel ConvRWProofs.

(** the users of the lock are different *)
Definition distinct (uid : nat -> nat -> nat) : Prop := forall t d t' d', uid t d = uid t' d' -> t = t' /\ d = d'.

Section props.
Context {V : Type} (conv : nat -> V -> code V) (main : nat -> code V) (uid : nat -> nat -> nat) (N : nat).
Notation step := (z_step conv uid N).

(** *** What convx does with the code of the RWMutex it does with the lock of ConvConcModel.v: the same calls find the same
    converters in the same order, the map is the same, and every goroutine is at the same place *)
Theorem conv_over_rwmutex ls z : distinct uid -> (Z.of_nat N <= 2^30)%Z -> steps step (z_init main) ls z ->
  exists ks s, steps (k_step conv) (k_init main) ks s /\ omap id ks = z_events ls /\ k_reg s = z_reg z /\ k_torn s = z_torn z /\ k_crash s = z_crash z /\ forall t, k_th s t = z_th z t.
Proof.
  intros UI HN HS. destruct (zsim_steps conv uid N HN UI main ls z HS) as [_ _ (ks & p & rs & th & A & B & C)].
  exists ks. eexists. split; [exact A|]. cbn. auto.
Qed.
(** *** so that nobody finds the map half written, and every call answers as if the calls were made one at a time *)
Theorem conv_over_rwmutex_serial ls z : distinct uid -> (Z.of_nat N <= 2^30)%Z -> steps step (z_init main) ls z ->
  z_crash z = false /\ z_reg z = reg_after (z_events ls) /\
  (forall pre e post, z_events ls = pre ++ e :: post ->
    match e with
    | EvFind _ T R d f => f = find_conv (reg_after pre) T R d
    | EvInto _ T R d v f r => find_conv (reg_after pre) T R d = Some f
    | EvExists _ T R b => b = exists_conv (reg_after pre) T R
    | _ => True
    end) /\
  forall t, goes_on conv t (main t, []) (own t (z_events ls)) (to_run (z_th z t)).
Proof.
  intros UI HN HS. destruct (conv_over_rwmutex ls z UI HN HS) as (ks & s & A & B & C & _ & D & F). rewrite <- B, <- C, <- D.
  destruct (conv_conc_serial conv main ks s A) as (P & Q & R). split; [exact P|]. split; [exact Q|]. split; [exact R|].
  intros t. rewrite <- F. apply conv_conc_answers. exact A.
Qed.
(** *** while one is in Register or Unregister nobody else is in convx, nor inside of a converter *)
Theorem conv_over_rwmutex_no_race ls z t u : distinct uid -> (Z.of_nat N <= 2^30)%Z -> steps step (z_init main) ls z -> t <> u ->
  match t_pc (z_th z t) with PWrite _ | PTorn _ | PUnlock _ => True | _ => False end ->
  t_in (z_th z u) = [] /\ match t_pc (z_th z u) with PRun _ => True | _ => False end.
Proof.
  intros UI HN HS. destruct (conv_over_rwmutex ls z UI HN HS) as (ks & s & A & _ & _ & _ & _ & F). rewrite <- !F.
  apply (conv_conc_no_race conv main). eexists. exact A.
Qed.
(** *** A converter that calls Register or Unregister never gets out of it *)
Theorem conv_over_rwmutex_reentrant ls0 z ls z' t c fr : distinct uid -> (Z.of_nat N <= 2^30)%Z -> steps step (z_init main) ls0 z ->
  z_th z t = Thr (PRun c) fr -> fr <> [] -> is_write c = true -> steps step z ls z' -> z_th z' t = Thr (PRun c) fr.
Proof. intros UI HN. apply zreentrant; assumption. Qed.
(** *** Once a goroutine w waits in Lock while another u is inside of a converter that is about to call convx, and readerSem
    has nothing for u: neither gets any further, the map never changes again and no call of convx that has not got the
    lock ever gets it *)
Theorem conv_over_rwmutex_deadlock ls0 z ls z' w u c cu fw fu r : distinct uid -> (Z.of_nat N <= 2^30)%Z -> steps step (z_init main) ls0 z ->
  z_th z w = Thr (PRun c) fw -> rw_pc (z_rw z) (uid w (length fw)) = PWSem \/ rw_pc (z_rw z) (uid w (length fw)) = PWWait r -> rw_rsem (z_rw z) = 0%Z ->
  z_th z u = Thr (PRun cu) fu -> fu <> [] -> is_call cu = true -> steps step z ls z' ->
  z_reg z' = z_reg z /\ forall t c' fr, z_th z t = Thr (PRun c') fr -> is_call c' = true -> z_th z' t = Thr (PRun c') fr.
Proof.
  intros UI HN H0 Hw Hp Ha Hu Hf Hc HS. destruct (zdead_steps conv uid N HN UI main ls0 w u z ls z' H0) as (_ & A & _ & _ & B); [|exact HS|auto].
  unfold zdead. rewrite Hw, Hu. cbn. split; [destruct Hp as [-> | ->]; exact I|]. split; [exact Ha|]. split; [exact Hf|]. eauto.
Qed.

(** *** With the code of sync.Mutex inside the RWMutex *)
Definition z_forget (z : zstate V) : zstate V := ZS (z_reg z) (z_torn z) (z_crash z) (rw_forget (z_rw z)) (z_th z).
Lemma z_forget_none z : rw_w (z_rw z) = None -> z_forget z = z.
Proof. destruct z as [m tn cr [c x w a b pc] th]. cbn. intros ->. reflexivity. Qed.
Lemma z_moves z l z' : step z l z' -> z_rw z' = z_rw z \/ rw_step N (z_rw z) (fst l) (z_rw z').
Proof. intros H. destruct H; cbn; auto. Qed.
Theorem conv_over_mutex ls z m : distinct uid -> (Z.of_nat N <= 2^30)%Z -> steps (c_step step z_rw z_forget fst N) (z_init main, mx_new) ls (z, m) ->
  steps step (z_init main) (c_proj ls) z /\ (exists ms, steps (mx_step N) mx_new ms m) /\ (forall t, rw_w (z_rw z) = Some t <-> x_pc m t = XHold) /\ x_bad m = false /\
  z_crash z = false /\ z_reg z = reg_after (z_events (c_proj ls)) /\
  forall t, goes_on conv t (main t, []) (own t (z_events (c_proj ls))) (to_run (z_th z t)).
Proof.
  intros UI HN HS. destruct (cinv_steps step z_rw z_forget fst N HN (z_init main) eq_refl z_moves z_forget_none ls (z, m) HS) as [Is [ms Im] Il]. cbn [fst snd] in *.
  destruct (conv_over_rwmutex_serial _ _ UI HN Is) as (P & Q & _ & R). split; [exact Is|]. split; [eauto|]. split.
  - apply (RWMuProps.owner_hold N); [|exact Il]. apply (of_reach step z_rw fst N HN (z_init main) eq_refl z_moves _ _ Is).
  - split; [eapply mutex_never_aborts; exact Im|]. auto.
Qed.
(** *** No deadlock with the code of the RWMutex when converters only compute *)
Lemma z_others ls z : steps step (z_init main) ls z -> forall v, rw_pc (z_rw z) v = PIdle \/ exists x j, v = uid x j.
Proof.
  revert ls z. apply (steps_trace_invariant (z_init main) step (fun _ z => forall v, rw_pc (z_rw z) v = PIdle \/ exists x j, v = uid x j)).
  - intros v. left. reflexivity.
  - intros ls z l z' _ IH H v. assert (G : forall t d rw', rw_step N (z_rw z) (uid t d) rw' -> rw_pc rw' v = PIdle \/ exists x j, v = uid x j).
    { intros t d rw' HR. destruct (decide (v = uid t d)) as [->|Ne]; [eauto|]. rewrite (rw_others N _ _ _ _ HR Ne). apply IH. }
    destruct H; cbn in *; eauto.
Qed.
Lemma z_busy ls z x : distinct uid -> (Z.of_nat N <= 2^30)%Z -> steps step (z_init main) ls z -> (forall c, t_pc (z_th z x) <> PRun c) -> exists l z', step z l z'.
Proof.
  intros UI HN HS NP. destruct (zsim_steps conv uid N HN UI main ls z HS) as [_ IU (ks & p & rs & th & A & B & _)].
  pose proof (i_wf _ (inv_reach conv main _ (ex_intro _ ks A)) x) as W. cbn in W. rewrite B in W. destruct (IU x) as (H & _).
  destruct z as [m tn cr [c0 x0 w a b pc] zth]. cbn in *. destruct (zth x) as [q fr] eqn:E. cbn in *. destruct q as [c|c|c|c|c|c|c]; cbn in H, W.
  - destruct (NP c eq_refl).
  - destruct tn; [do 2 eexists; eapply zs_race; left; exact E|]. destruct c; try discriminate W.
    + destruct (find_conv m T R dyn) eqn:F; do 2 eexists; [eapply zs_hit|eapply zs_miss]; eassumption.
    + do 2 eexists. eapply zs_exists. exact E.
  - do 2 eexists. eapply zs_runlock; [exact E|]. apply rw_runlock. exact H.
  - destruct H.
  - destruct tn; [do 2 eexists; eapply zs_race; right; exact E|]. do 2 eexists. eapply zs_write. exact E.
  - destruct c; try discriminate W; do 2 eexists; [eapply zs_register|eapply zs_unregister]; exact E.
  - do 2 eexists. eapply zs_unlock; [exact E|]. apply rw_wunlock. exact H.
Qed.
Lemma z_user ls z x c fr rw' : distinct uid -> (Z.of_nat N <= 2^30)%Z -> steps step (z_init main) ls z -> z_th z x = Thr (PRun c) fr ->
  rw_pc (z_rw z) (uid x (length fr)) <> PIdle -> rw_step N (z_rw z) (uid x (length fr)) rw' -> exists l z', step z l z'.
Proof.
  intros UI HN HS E NI HR. destruct (zsim_steps conv uid N HN UI main ls z HS) as [_ IU _]. destruct (IU x) as (H & _). rewrite E in H. cbn in H. destruct H as (_ & _ & H1 & H2).
  assert (R1 : in_rlock (rw_pc rw' (uid x (length fr))) = true -> is_read c = true).
  { intros Q. apply H1. destruct HR; cbn in *; rewrite tset_eq in Q; try congruence; repeat match goal with K : ?pc ?t = _ |- _ => rewrite K in *; clear K end; try reflexivity; repeat case_match; discriminate. }
  assert (R2 : in_lock (rw_pc rw' (uid x (length fr))) = true -> is_write c = true).
  { intros Q. apply H2. destruct HR; cbn in *; rewrite tset_eq in Q; try congruence; repeat match goal with K : ?pc ?t = _ |- _ => rewrite K in *; clear K end; try reflexivity; repeat case_match; discriminate. }
  destruct z as [m tn cr rw zth]. cbn in *.
  assert (D : rw_pc rw' (uid x (length fr)) = PRHold \/ rw_pc rw' (uid x (length fr)) = PWHold \/ (rw_pc rw' (uid x (length fr)) <> PRHold /\ rw_pc rw' (uid x (length fr)) <> PWHold)) by (destruct (rw_pc rw' (uid x (length fr))); auto; right; right; split; discriminate).
  destruct D as [D|[D|[D1 D2]]]; do 2 eexists; [eapply zs_rlock|eapply zs_lock|eapply zs_inside]; eassumption.
Qed.
Theorem conv_over_rwmutex_no_deadlock ls z t : distinct uid -> (Z.of_nat N <= 2^30)%Z -> (forall x, uid x 0 < N \/ is_call (main x) = false) ->
  (forall f v, exists r, conv f v = KRet r \/ conv f v = KPanic) -> steps step (z_init main) ls z -> ~ finished (z_th z t) -> exists l z', step z l z' /\ z_crash z' = false.
Proof.
  intros UI HN HU HC HS NF. cut (exists l z', step z l z').
  { intros (l & z' & Q). exists l, z'. split; [exact Q|]. eapply conv_over_rwmutex_serial; [exact UI|exact HN|]. econstructor; [exact HS|exact Q]. }
  assert (CP : forall x h fs, t_in (z_th z x) = h :: fs -> fs = [] /\ exists c, t_pc (z_th z x) = PRun c /\ is_call c = false).
  { destruct (conv_over_rwmutex ls z UI HN HS) as (ks & s & A & _ & _ & _ & _ & F). intros x h fs. rewrite <- F.
    assert (CI : computing s) by (revert A; apply (steps_invariant (k_init main) (k_step conv) computing); [intros u h' fs' E; discriminate E|intros s1 l s2 H HS1; eapply computing_step; eauto]). apply CI. }
  assert (LN : forall x c, z_th z x = Thr (PRun c) [] -> is_call c = true -> uid x 0 < N).
  { destruct (conv_over_rwmutex_serial ls z UI HN HS) as (_ & _ & _ & G). intros x c E Hc. destruct (HU x) as [|M]; [assumption|]. exfalso. specialize (G x). rewrite E in G. cbn in G.
    assert (Q : forall evs y, goes_on conv x (main x, []) evs y -> y = (main x, [])).
    { intros evs y K. induction K; try reflexivity; try discriminate IHK; injection IHK as E1 _; rewrite <- E1 in M; discriminate M. }
    apply Q in G. injection G as ->. congruence. }
  destruct (zsim_steps conv uid N HN UI main ls z HS) as [IR IU _].
  assert (INB : forall x, t_in (z_th z x) <> [] -> exists l z', step z l z').
  { intros x Hx. destruct (t_in (z_th z x)) as [|h fs] eqn:E; [congruence|]. destruct (CP x h fs E) as (-> & c & P & Hc). destruct (z_th z x) as [q fr] eqn:Z. cbn in *. subst q fr.
    destruct (IU x) as (H & _). rewrite Z in H. cbn in H. destruct H as (H3 & H4 & H1 & H2).
    assert (DI : rw_pc (z_rw z) (uid x 1) = PIdle \/ rw_pc (z_rw z) (uid x 1) <> PIdle) by (destruct (rw_pc (z_rw z) (uid x 1)); auto; right; discriminate).
    destruct DI as [DI|DI].
    - destruct z as [m tn cr rw zth]. destruct h. cbn in *. destruct c; try discriminate Hc; do 2 eexists; [eapply zs_ret|eapply zs_panic]; eassumption.
    - assert (Q : exists rw', rw_step N (z_rw z) (uid x 1) rw').
      { unfold is_call in Hc. apply orb_false_iff in Hc as [Hc1 Hc2]. rewrite Hc1 in H1. rewrite Hc2 in H2. destruct (z_rw z) as [c0 x0 w a b pc]. cbn in *.
        destruct (pc (uid x 1)) as [| | | | | | | |r| | |r i] eqn:K; try congruence; try (specialize (H1 eq_refl); discriminate H1); try (specialize (H2 eq_refl); discriminate H2).
        - eexists. apply rw_rdec. exact K.
        - eexists. apply rw_rpost. exact K.
        - destruct (Z_lt_dec i r); eexists; [eapply rw_wpost|eapply rw_wfree]; eassumption. }
      destruct Q as [rw' Q]. eapply (z_user ls z x c [h]); eassumption. }
  destruct (z_th z t) as [q fr] eqn:Z. destruct fr as [|h fs]; [|apply (INB t); rewrite Z; discriminate].
  assert (DQ : (exists c, q = PRun c) \/ forall c, q <> PRun c) by (destruct q; eauto; right; discriminate). destruct DQ as [[c ->]|NQ]; [|apply (z_busy ls z t UI HN HS); rewrite Z; exact NQ].
  assert (Hc : is_call c = true) by (destruct (is_call c) eqn:Hc; [reflexivity|destruct NF; split; [reflexivity|eauto]]). pose proof (LN t c Z Hc) as L.
  assert (DI : rw_pc (z_rw z) (uid t 0) = PIdle \/ rw_pc (z_rw z) (uid t 0) <> PIdle) by (destruct (rw_pc (z_rw z) (uid t 0)); auto; right; discriminate).
  destruct DI as [DI|DI].
  - destruct z as [m tn cr [c0 x0 w a b pc] zth]. cbn in *. destruct (is_read c) eqn:RC.
    + do 2 eexists. eapply (zs_inside conv uid N m tn cr _ zth t c []); [exact Z|apply rw_rlock; [exact L|exact DI]|..]; cbn; rewrite ?tset_eq; (exact (fun _ => RC) || discriminate).
    + assert (WC : is_write c = true) by (unfold is_call in Hc; rewrite RC in Hc; exact Hc).
      do 2 eexists. eapply (zs_inside conv uid N m tn cr _ zth t c []); [exact Z|apply rw_lock; [exact L|exact DI]|..]; cbn; rewrite ?tset_eq; (exact (fun _ => WC) || discriminate).
  - assert (IV : rwinv N (z_rw z)) by (apply rwinv_reach; [exact HN|exact IR]).
    destruct (RWMuProps.rw_some N _ _ IV DI) as (u & Hu & FG). destruct (RWFairProofs.rw_can N _ u IV FG) as (v & rw' & [ST NI] & _).
    destruct (z_others ls z HS v) as [V0|(x & j & ->)]; [congruence|]. destruct (IU x) as (_ & U1 & U2).
    destruct (lt_eq_lt_dec j (length (t_in (z_th z x)))) as [[J|J]|J]; [apply (INB x); intros X; rewrite X in J; cbn in J; lia| |rewrite (U2 j J) in NI; congruence]. subst j.
    destruct (z_th z x) as [q fr] eqn:X. cbn in *.
    assert (DQ : (exists c, q = PRun c) \/ forall c, q <> PRun c) by (destruct q; eauto; right; discriminate). destruct DQ as [[c' ->]|NQ]; [|apply (z_busy ls z x UI HN HS); rewrite X; exact NQ].
    eapply (z_user ls z x c' fr); eassumption.
Qed.
(** and with the code of the mutex inside *)
Theorem conv_over_mutex_no_deadlock ls z m t : distinct uid -> (Z.of_nat N <= 2^30)%Z -> (forall x, uid x 0 < N \/ is_call (main x) = false) ->
  (forall f v, exists r, conv f v = KRet r \/ conv f v = KPanic) -> steps (c_step step z_rw z_forget fst N) (z_init main, mx_new) ls (z, m) -> ~ finished (z_th z t) ->
  exists l c', c_step step z_rw z_forget fst N (z, m) l c' /\ z_crash (fst c') = false.
Proof.
  intros UI HN HU HC HS NF. destruct (conv_over_mutex ls z m UI HN HS) as (Is & _).
  destruct (conv_over_rwmutex_no_deadlock _ _ t UI HN HU HC Is NF) as (l & z' & Q & _).
  assert (G : exists l c', c_step step z_rw z_forget fst N (z, m) l c').
  { destruct (c_progress step z_rw z_forget fst N HN (z_init main) eq_refl z_moves z_forget_none) with (ls := ls) (s := z) (m := m) (l := l) (s' := z') as [(s2 & m2 & X)|(l2 & c2 & X & _)]; eauto.
    clear - UI HN. intros ls z u HS E W. destruct (zsim_steps conv uid N HN UI main ls z HS) as [_ IU _]. destruct (z_others ls z HS u) as [V0|(x & j & ->)]; [congruence|].
    destruct (IU x) as (U0 & U1 & U2). destruct (lt_eq_lt_dec j (length (t_in (z_th z x)))) as [[J|J]|J]; [rewrite (U1 j J) in E; discriminate| |rewrite (U2 j J) in E; discriminate]. subst j.
    destruct (z_th z x) as [q fr] eqn:X. cbn in *. rewrite E in U0. destruct q as [c| | | | | |]; try discriminate; [|destruct U0]. destruct U0 as (_ & _ & _ & U0).
    destruct z as [m tn cr [c0 x0 w a b pc] zth]. cbn in *. subst w. do 2 eexists. split; [|split; [eapply (zs_inside conv uid N m tn cr _ zth x c fr); [exact X|apply rw_wlock; exact E|..]; cbn; rewrite ?tset_eq; try discriminate; auto|cbn; apply tset_eq]]. reflexivity. }
  destruct G as (l' & c' & G). exists l', c'. split; [exact G|]. destruct c' as [z2 m2]. apply (conv_over_mutex (ls ++ [l']) z2 m2 UI HN). econstructor; [exact HS|exact G].
Qed.
End props.
Print Assumptions conv_over_rwmutex.
Print Assumptions conv_over_rwmutex_serial.
Print Assumptions conv_over_rwmutex_no_race.
Print Assumptions conv_over_rwmutex_reentrant.
Print Assumptions conv_over_rwmutex_deadlock.
Print Assumptions conv_over_mutex.
Print Assumptions conv_over_rwmutex_no_deadlock.
Print Assumptions conv_over_mutex_no_deadlock.

(** *** a program, with the users numbered by pairs *)
Definition cuid (t d : nat) : nat := Cantor.to_nat (t, d).
Lemma cuid_distinct : distinct cuid.
Proof. intros t d t' d' H. unfold cuid in H. apply Cantor.to_nat_inj in H. injection H as -> ->. auto. Qed.
(** goroutine 0 registers three converters, of which converter 0 calls Into; 1 calls Exists, 2 calls Into and 3 Unregister *)
Definition zmain (t : nat) : code Z :=
  match t with
  | 0 => KRegister cA cC 0 (KRegister cB cC 1 (KRegister cA cB 1 (KRet 0%Z)))
  | 1 => KExists cA cB (fun b => KRet (if b then 1 else 0)%Z)
  | 2 => KInto cA cC (Some cA) 5%Z (fun r => KRet (default 0%Z r))
  | 3 => KUnregister cA cB (KRet 0%Z)
  | _ => KRet 0%Z
  end.
Local Ltac triv := first [reflexivity|vm_compute; reflexivity|vm_compute; discriminate|vm_compute; lia|vm_compute; intros; congruence].
Local Tactic Notation "ins" constr(t) uconstr(c) := eapply steps_cons; [eapply (zs_inside _ _ _ _ _ _ _ _ t); [reflexivity|eapply c; triv|triv|triv|triv|triv]|].
Local Tactic Notation "rl" constr(t) uconstr(c) := eapply steps_cons; [eapply (zs_rlock _ _ _ _ _ _ _ _ t); [reflexivity|eapply c; triv|triv]|].
Local Tactic Notation "wl" constr(t) uconstr(c) := eapply steps_cons; [eapply (zs_lock _ _ _ _ _ _ _ _ t); [reflexivity|eapply c; triv|triv]|].
Local Tactic Notation "ru" constr(t) := eapply steps_cons; [eapply (zs_runlock _ _ _ _ _ _ _ _ t); [reflexivity|eapply rw_runlock; triv]|].
Local Tactic Notation "wu" constr(t) := eapply steps_cons; [eapply (zs_unlock _ _ _ _ _ _ _ _ t); [reflexivity|eapply rw_wunlock; triv]|].
Local Tactic Notation "reg" constr(t) := eapply steps_cons; [eapply (zs_write _ _ _ _ _ _ _ t); reflexivity|]; eapply steps_cons; [first [eapply (zs_register _ _ _ _ _ _ _ _ t); reflexivity|eapply (zs_unregister _ _ _ _ _ _ _ _ t); reflexivity]|].
Local Tactic Notation "hit" constr(t) := eapply steps_cons; [eapply (zs_hit _ _ _ _ _ _ _ t); [reflexivity|vm_compute; reflexivity]|].
Local Tactic Notation "ret" constr(t) := eapply steps_cons; [eapply (zs_ret _ _ _ _ _ _ _ _ t); [reflexivity|triv]|].
(** up to the moment at which 3 waits in Lock while 2 is inside of converter 0, which is about to call Into; readerSem has
    what 0 released for 1 *)
Local Ltac before := unfold z_init, rw_new;
  ins 0 rw_lock; ins 0 rw_wlock; wl 0 rw_wann; reg 0; wu 0; ins 0 rw_wfree;
  ins 0 rw_lock; ins 0 rw_wlock; wl 0 rw_wann; reg 0; wu 0; ins 0 rw_wfree;
  ins 0 rw_lock; ins 0 rw_wlock; wl 0 rw_wann; reg 0;
  ins 1 rw_rlock; ins 1 rw_radd; wu 0;
  ins 2 rw_rlock; rl 2 rw_radd; hit 2;
  ins 0 rw_wpost; ins 0 rw_wfree;
  ins 3 rw_lock; ins 3 rw_wlock; ins 3 rw_wann; ins 3 rw_wwait.
(** *** The lock of ConvConcModel.v lets nobody in who calls RLock while somebody waits in Lock, and stops the program here
    (conv_deadlock_forever).  The code of the RWMutex need not: the inner RLock of 2 may get what was released for 1, and
    then all four goroutines are done.  What 2 and 3 do depends on who is faster *)
Theorem conv_over_rwmutex_deadlock_refuted : exists (conv : nat -> Z -> code Z) main uid N ls z ls' z' c cu fu,
  distinct uid /\ (Z.of_nat N <= 2^30)%Z /\ steps (z_step conv uid N) (z_init main) ls z /\
  z_th z 3 = Thr (PRun c) [] /\ rw_pc (z_rw z) (uid 3 0) = PWSem /\ z_th z 2 = Thr (PRun cu) fu /\ fu <> [] /\ is_call cu = true /\
  steps (z_step conv uid N) z ls' z' /\ (forall t, finished (z_th z' t)) /\ to_run (z_th z' 2) = (KRet 6%Z, []).
Proof.
  exists cconv, zmain, cuid, 10. do 7 eexists. split; [exact cuid_distinct|]. split; [lia|]. split; [before; apply steps_nil|].
  split; [reflexivity|]. split; [vm_compute; reflexivity|]. split; [reflexivity|]. split; [discriminate|]. split; [reflexivity|]. split.
  { ins 2 rw_rlock. ins 2 rw_radd. rl 2 rw_rsem_acq. hit 2. ret 2. ru 2. ins 2 rw_rdec. ret 2. ru 2. ins 2 rw_rdec. ins 2 rw_rpost.
    wl 3 rw_wsem_acq. reg 3. wu 3. ins 3 rw_wpost. ins 3 rw_wfree.
    rl 1 rw_rsem_acq. eapply steps_cons; [eapply (zs_exists _ _ _ _ _ _ _ 1); reflexivity|]. ru 1. apply steps_nil. }
  split; [|reflexivity]. intros t. destruct t as [|[|[|[|t]]]]; (split; [reflexivity|eexists; split; reflexivity]).
Qed.
Print Assumptions conv_over_rwmutex_deadlock_refuted.
(** and when 1 gets it, the program stops *)
Example conv_over_rwmutex_deadlock_case : exists ls z c cu fu,
  steps (z_step cconv cuid 10) (z_init zmain) ls z /\
  z_th z 3 = Thr (PRun c) [] /\ rw_pc (z_rw z) (cuid 3 0) = PWSem /\ rw_rsem (z_rw z) = 0%Z /\ z_th z 2 = Thr (PRun cu) fu /\ fu <> [] /\ is_call cu = true.
Proof.
  do 5 eexists. split; [before; rl 1 rw_rsem_acq; apply steps_nil|]. split; [reflexivity|]. split; [vm_compute; reflexivity|]. split; [vm_compute; reflexivity|].
  split; [reflexivity|]. split; [discriminate|reflexivity].
Qed.
(** a program whose converters only compute; 1 waits for the lock, which 0 has *)
Example conv_over_rwmutex_no_deadlock_case : exists ls z, let conv := fun (_ : nat) v => KRet (v + 1)%Z in
  (forall x, cuid x 0 < 10 \/ is_call (zmain x) = false) /\ (forall f v, exists r, conv f v = KRet r \/ conv f v = KPanic) /\
  steps (z_step conv cuid 10) (z_init zmain) ls z /\ rw_pc (z_rw z) (cuid 1 0) = PRSem /\ ~ finished (z_th z 1).
Proof.
  eexists _, _. split; [|split; [|split; [|split]]].
  - intros [|[|[|[|x]]]]; [left; vm_compute; lia..|right; reflexivity].
  - eauto.
  - unfold z_init, rw_new. ins 0 rw_lock. ins 0 rw_wlock. wl 0 rw_wann. ins 1 rw_rlock. ins 1 rw_radd. apply steps_nil.
  - vm_compute. reflexivity.
  - intros (_ & c & E & Hc). cbn in E. injection E as <-. discriminate Hc.
Qed.
(** Register with the code of the mutex: what 0 does before it has the lock *)
Example conv_over_mutex_case : exists ls z m, steps (c_step (z_step cconv cuid 10) z_rw z_forget fst 10) (z_init zmain, mx_new) ls (z, m) /\
  rw_pc (z_rw z) (cuid 0 0) = PWHold /\ x_pc m (cuid 0 0) = XHold.
Proof.
  eexists _, _, _. split; [|split].
  - unfold z_init, rw_new, mx_new.
    eapply steps_cons; [eapply cs_other; [eapply (zs_inside _ _ _ _ _ _ _ _ 0); [reflexivity|eapply rw_lock; triv|triv|triv|triv|triv]|intros [Q _]; vm_compute in Q; discriminate Q|intros (? & ? & Q & _); vm_compute in Q; discriminate Q|intros _; vm_compute; reflexivity]|].
    eapply steps_cons; [eapply (cs_locking _ _ _ _ _ _ _ (cuid 0 0)); [vm_compute; reflexivity|eapply mx_lock; [vm_compute; lia|reflexivity]|vm_compute; discriminate]|].
    eapply steps_cons; [eapply (cs_take _ _ _ _ _ _ _ (cuid 0 0, None)); [eapply (mx_fast _ _ _ _ (cuid 0 0)); vm_compute; reflexivity|vm_compute; reflexivity|unfold z_forget, rw_forget; cbn -[tset cuid]; eapply (zs_inside _ _ _ _ _ _ _ _ 0 _ []); [reflexivity|eapply rw_wlock; triv|triv|triv|triv|triv]|split; vm_compute; reflexivity]|].
    eapply steps_cons; [eapply cs_other; [eapply (zs_lock _ _ _ _ _ _ _ _ 0); [reflexivity|eapply rw_wann; triv|triv]|intros [Q _]; vm_compute in Q; discriminate Q|intros (? & ? & Q & _); vm_compute in Q; discriminate Q|intros Q; vm_compute in Q; discriminate Q]|].
    apply steps_nil.
  - vm_compute. reflexivity.
  - vm_compute. reflexivity.
Qed.
