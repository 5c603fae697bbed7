(** poolDequeue is lock-free: nobody in it ever waits, and the CompareAndSwaps that fail are bounded by the calls under way. *)
From Verif Require Import Base Conc RWProofs PDeqModel.
Open Scope Z_scope.

(** a step of a call that has begun: no call begins with it *)
Definition d_go (n : Z) (s : dst) (l : dlab) (s' : dst) : Prop :=
  d_step n s l s' /\ (d_own s = OIdle -> d_own s' = OIdle) /\ forall i, d_cons s i = CIdle -> d_cons s' i = CIdle.

Section drain.
Context (n : Z) (N : nat).
Definition o_w (o : opc) : Z := match o with OIdle | OPop2 _ | OPop3 _ _ => 0 | _ => 1 end.
Definition c_w (c : cpc) : Z := match c with C0 | C1 _ _ => 1 | _ => 0 end.
Definition stale (h t h' t' : Z) : Z := if (h =? h') && (t =? t') then 0 else 2.
Definition o_r (h t : Z) (o : opc) : Z :=
  match o with OIdle => 0 | OPush0 _ => 5 | OPush1 _ _ => 4 | OPush2 _ _ => 3 | OPush3t _ _ | OPush3v _ _ => 2 | OPush4 _ _ => 1
  | OPop0 => 1 | OPop1 h' t' => stale h t h' t' | OPop2 _ => 2 | OPop3 _ _ => 1 end.
Definition c_r (h t : Z) (c : cpc) : Z := match c with CIdle => 0 | C0 => 1 | C1 h' t' => stale h t h' t' | C2 _ => 3 | C3 _ _ => 2 | C4 _ _ => 1 end.
Definition cc (f : cpc -> Z) (c : nat -> cpc) : Z := csum N (fun i => f (c i)).
Lemma cc_set f c i p : (i < N)%nat -> cc f (tset c i p) = cc f c + f p - f (c i).
Proof.
  intros Hi. unfold cc. rewrite (csum_set N (fun u => f (c u)) (fun u => f (tset c i p u)) i Hi); [rewrite tset_eq; reflexivity|].
  intros u Hu. rewrite tset_ne by auto. reflexivity.
Qed.
Lemma cc_b f c k : (forall p, 0 <= f p <= k) -> 0 <= cc f c <= k * Z.of_nat N.
Proof. intros H. unfold cc. clear -H. induction N as [|M IH]; [cbn; lia|]. rewrite csum_S. specialize (H (c M)). lia. Qed.
Definition mud (s : dst) : Z :=
  (o_w (d_own s) + cc c_w (d_cons s)) * (3 * Z.of_nat N + 6) + (o_r (d_head s) (d_tail s) (d_own s) + cc (c_r (d_head s) (d_tail s)) (d_cons s)).
Lemma stale_b h t h' t' : 0 <= stale h t h' t' <= 2. Proof. unfold stale. destruct (_ && _); lia. Qed.
Lemma stale_eq h t : stale h t h t = 0. Proof. unfold stale. rewrite !Z.eqb_refl. reflexivity. Qed.
Lemma stale_ne h t h' t' : (h', t') <> (h, t) -> stale h t h' t' = 2.
Proof. intros H. unfold stale. destruct (Z.eqb_spec h h'), (Z.eqb_spec t t'); cbn; congruence. Qed.
Lemma mud_parts s : 0 <= o_w (d_own s) <= 1 /\ 0 <= cc c_w (d_cons s) <= Z.of_nat N /\
  0 <= o_r (d_head s) (d_tail s) (d_own s) <= 5 /\ 0 <= cc (c_r (d_head s) (d_tail s)) (d_cons s) <= 3 * Z.of_nat N.
Proof.
  split; [destruct (d_own s); cbn; lia|]. split; [pose proof (cc_b c_w (d_cons s) 1 ltac:(intros []; cbn; lia)); lia|].
  split; [destruct (d_own s); cbn; try lia; match goal with |- context [stale ?a ?b ?c ?d] => pose proof (stale_b a b c d) end; lia|].
  apply cc_b. intros []; cbn; try lia. match goal with |- context [stale ?a ?b ?c ?d] => pose proof (stale_b a b c d) end; lia.
Qed.
Lemma mud_b s : 0 <= mud s < (Z.of_nat N + 2) * (3 * Z.of_nat N + 6).
Proof. unfold mud. pose proof (mud_parts s). nia. Qed.
Lemma mud_lt s s' : o_w (d_own s') + cc c_w (d_cons s') < o_w (d_own s) + cc c_w (d_cons s) \/
  o_w (d_own s') + cc c_w (d_cons s') = o_w (d_own s) + cc c_w (d_cons s) /\
  o_r (d_head s') (d_tail s') (d_own s') + cc (c_r (d_head s') (d_tail s')) (d_cons s') < o_r (d_head s) (d_tail s) (d_own s) + cc (c_r (d_head s) (d_tail s)) (d_cons s) -> mud s' < mud s.
Proof. unfold mud. pose proof (mud_parts s). pose proof (mud_parts s'). nia. Qed.
Lemma mud_step s l s' : (forall i, (N <= i)%nat -> d_cons s i = CIdle) -> d_go n s l s' -> mud s' < mud s /\ forall i, (N <= i)%nat -> d_cons s' i = CIdle.
Proof.
  intros HN (HS & HO & HC). split; [|intros i Hi; apply HC; apply HN; exact Hi]. apply mud_lt.
  assert (LT : forall i, d_cons s i <> CIdle -> (i < N)%nat) by (intros i Q; destruct (decide (i < N)%nat) as [L|L]; [exact L|]; destruct Q; apply HN; lia).
  destruct HS; cbn [d_head d_tail d_own d_cons] in *; try (specialize (HO eq_refl); discriminate).
  all: try match goal with Q : @eq cpc (?c ?i) CIdle |- _ => specialize (HC i Q); rewrite tset_eq in HC; discriminate HC end.
  all: try match goal with Q : @eq cpc (?c ?i) _ |- _ => rewrite !cc_set by (apply LT; rewrite Q; discriminate); rewrite Q end.
  all: cbn [o_w o_r c_w c_r]; rewrite ?stale_eq; try (rewrite stale_ne by assumption); try lia.
Qed.
End drain.

(** *** With N goroutines in popTail or about to be, and none that begins a call, at most (N+2)(3N+6) steps are left to all of
    them together, from whatever state *)
Theorem pdeq_lock_free n N s tr s' : (forall i, (N <= i)%nat -> d_cons s i = CIdle) -> steps (d_go n) s tr s' ->
  Z.of_nat (length tr) <= (Z.of_nat N + 2) * (3 * Z.of_nat N + 6).
Proof.
  intros HN HS. assert (Q : mud N s' + Z.of_nat (length tr) <= mud N s /\ forall i, (N <= i)%nat -> d_cons s' i = CIdle).
  { induction HS as [s|s ls s1 l s2 HS IH Hst]; [cbn; split; [lia|exact HN]|]. destruct (IH HN) as [A B]. destruct (mud_step n N _ _ _ B Hst) as [C D].
    split; [|exact D]. rewrite app_length. cbn. lia. }
  pose proof (mud_b N s). pose proof (mud_b N s'). lia.
Qed.
Print Assumptions pdeq_lock_free.
(** *** Nobody ever waits for anybody: whoever is in a call can make its next step, whatever the others do *)
Theorem pdeq_never_waits n s :
  (d_own s <> OIdle -> exists l s', d_go n s l s' /\ d_own s' <> d_own s) /\
  (forall i, d_cons s i <> CIdle -> exists l s', d_go n s l s' /\ d_cons s' i <> d_cons s i).
Proof.
  destruct s as [h t sl o c]. cbn [d_own d_cons]. split.
  - intros HO. cut (exists l s', d_step n (D h t sl o c) l s' /\ d_own s' <> o /\ d_cons s' = c).
    { intros (l & s' & A & B & C). exists l, s'. split; [|exact B]. split; [exact A|]. cbn. rewrite C. split; [intros ->; congruence|auto]. }
    destruct o as [|x|x hd|x hd|x hd|x hd|x hd| |h' t'|hd|hd v]; [congruence|..].
    + destruct (decide ((t + n) mod W = h)); eexists _, _; (split; [(apply ds_push_full; assumption) || (apply ds_push_load; assumption)|]); cbn; split; congruence.
    + destruct (w_typ (sl (hd mod n))) eqn:E; eexists _, _; (split; [(apply ds_push_busy; assumption) || (apply ds_push_free; assumption)|]); cbn; split; congruence.
    + eexists _, _. split; [apply ds_push_t|]. cbn. split; congruence.
    + eexists _, _. split; [apply ds_push_tv|]. cbn. split; congruence.
    + eexists _, _. split; [apply ds_push_vt|]. cbn. split; congruence.
    + eexists _, _. split; [apply ds_push_add|]. cbn. split; congruence.
    + destruct (decide (t = h)); eexists _, _; (split; [(apply ds_pop_none; assumption) || (apply ds_pop_load; assumption)|]); cbn; split; congruence.
    + destruct (decide ((h', t') = (h, t))) as [[= -> ->]|E]; eexists _, _; (split; [apply ds_pop_cas || (apply ds_pop_retry; assumption)|]); cbn; split; congruence.
    + eexists _, _. split; [apply ds_pop_read|]. cbn. split; congruence.
    + eexists _, _. split; [apply ds_pop_zero|]. cbn. split; congruence.
  - intros i HC. cut (exists l s' p, d_step n (D h t sl o c) l s' /\ d_own s' = o /\ d_cons s' = tset c i p /\ p <> c i).
    { intros (l & s' & p & A & B & C & E). exists l, s'. split; [|rewrite C, tset_eq; exact E]. split; [exact A|]. cbn. rewrite B, C. split; [auto|].
      intros j Hj. rewrite tset_ne; [exact Hj|]. intros ->. congruence. }
    destruct (c i) as [| |h' t'|tl|tl v|tl v] eqn:E; [congruence|..].
    + destruct (decide (t = h)); eexists _, _, _; (split; [(apply ds_tail_none with (i := i); assumption) || (apply ds_tail_load with (i := i); assumption)|]); cbn; (split; [reflexivity|split; [reflexivity|congruence]]).
    + destruct (decide ((h', t') = (h, t))) as [[= -> ->]|Q]; eexists _, _, _; (split; [(apply ds_tail_cas with (i := i); assumption) || (eapply ds_tail_retry with (i := i); eassumption)|]); cbn; (split; [reflexivity|split; [reflexivity|congruence]]).
    + eexists _, _, _. split; [eapply ds_tail_read with (i := i); eassumption|]. cbn. split; [reflexivity|split; [reflexivity|congruence]].
    + eexists _, _, _. split; [eapply ds_tail_val with (i := i); eassumption|]. cbn. split; [reflexivity|split; [reflexivity|congruence]].
    + eexists _, _, _. split; [eapply ds_tail_typ with (i := i); eassumption|]. cbn. split; [reflexivity|split; [reflexivity|congruence]].
Qed.
Print Assumptions pdeq_never_waits.
(** two popTails that have both read the same word: the one whose CompareAndSwap fails starts again, and finds the queue empty *)
Example pdeq_lock_free_case : exists s tr s', (forall i, (2 <= i)%nat -> d_cons s i = CIdle) /\ d_cons s 0%nat = C1 1 0 /\ d_cons s 1%nat = C1 1 0 /\
  steps (d_go 8) s tr s' /\ tr = [LTail 0; LTau; LTailNone 1].
Proof.
  exists (D 1 0 (sput (fun _ => Sw false None) 0 (Sw true (Some 7%nat))) OIdle (tset (tset (fun _ => CIdle) 0%nat (C1 1 0)) 1%nat (C1 1 0))). eexists _, _.
  split; [intros i Hi; cbn; rewrite !tset_ne by lia; reflexivity|]. split; [reflexivity|]. split; [reflexivity|]. split; [|reflexivity].
  assert (G : forall s l s' i p, d_step 8 s l s' -> d_own s' = d_own s -> d_cons s' = tset (d_cons s) i p -> d_cons s i <> CIdle -> d_go 8 s l s').
  { intros s l s' i p A B C E. split; [exact A|]. rewrite B, C. split; [auto|]. intros j Hj. rewrite tset_ne; [exact Hj|]. intros ->. congruence. }
  eapply steps_cons; [eapply (G _ _ _ 0%nat); [eapply (ds_tail_cas _ _ _ _ _ _ 0%nat); reflexivity|reflexivity|reflexivity|discriminate]|].
  eapply steps_cons; [eapply (G _ _ _ 1%nat); [eapply (ds_tail_retry _ _ _ _ _ _ 1%nat); [reflexivity|discriminate]|reflexivity|reflexivity|discriminate]|].
  eapply steps_cons; [eapply (G _ _ _ 1%nat); [eapply (ds_tail_none _ _ _ _ _ _ 1%nat); reflexivity|reflexivity|reflexivity|discriminate]|]. apply steps_nil.
Qed.
