(** What is left to do in a sync.Mutex goes down with every step but the call of Lock and the spin. *)
From Verif Require Import Base Conc RWProofs MutexModel MutexProofs.
Local Open Scope Z.

(** runtime_doSpin and the read after it (sync/mutex.go, lockSlow): a goroutine that has just read the word reads it again *)
Definition spins (s : mxstate) (t : nat) (s' : mxstate) : Prop := exists st aw, x_pc s t = XTry st aw (x_w s) /\ x_pc s' t = XLoad st aw.

Section drain.
Context (N : nat).
Definition n_in (p : xpc) : Z := match p with XIdle | XFree _ | XRel => 0 | _ => 1 end.
Definition n_any (p : xpc) : Z := match p with XIdle => 0 | _ => 1 end.
Definition n_w (p : xpc) : Z := match p with XFast | XLoad _ false | XTry _ false _ => 2 | XLoad _ true | XTry _ true _ | XWoke _ | XDelta _ _ => 1 | _ => 0 end.
Definition n_r (w : mw) (p : xpc) : Z :=
  match p with XFast => 3 | XLoad _ _ | XWoke _ | XRel => 1 | XTry _ _ old => if enc w =? enc old then 0 else 2 | XFree old => if enc w =? enc old then 1 else 2 | _ => 0 end.
Definition lk (w : mw) : Z := if w_l w then 0 else if w_k w then 1 else 2.
Definition zN : Z := Z.of_nat N.
Definition mu (s : mxstate) : Z :=
  (((ct N n_in (x_pc s) * 3 + lk (x_w s)) * 2 + (x_sema s + ct N n_rel (x_pc s))) * (2 * zN + 1) + ct N n_w (x_pc s)) * (3 * zN + 1) + ct N (n_r (x_w s)) (x_pc s).

Lemma lex_lt B x y x' y' : 0 <= y < B -> 0 <= y' < B -> x' < x \/ x' = x /\ y' < y -> x' * B + y' < x * B + y.
Proof. nia. Qed.
Lemma ct_le f pc c : (forall p, 0 <= f p <= c) -> 0 <= ct N f pc <= c * zN.
Proof.
  intros H. split; [apply ct_nonneg; intros p; apply H|]. unfold ct, zN. clear -H. induction N as [|M IH]; [cbn; lia|]. rewrite csum_S. specialize (H (pc M)). lia.
Qed.
Lemma n_in_b p : 0 <= n_in p <= 1. Proof. destruct p; cbn; lia. Qed.
Lemma n_w_b p : 0 <= n_w p <= 2. Proof. destruct p as [| |? []|? [] ?| | | | | |]; cbn; lia. Qed.
Lemma n_r_b w p : 0 <= n_r w p <= 3. Proof. destruct p; cbn; try lia; destruct (_ =? _); lia. Qed.
Lemma lk_b w : 0 <= lk w <= 2. Proof. unfold lk. destruct (w_l w), (w_k w); lia. Qed.
Lemma tok_b s : mxinv N s -> 0 <= x_sema s + ct N n_rel (x_pc s) <= 1.
Proof.
  intros [_ _ _ (G1 & _ & _ & G4 & G5 & _)]. assert (0 <= ct N n_rel (x_pc s)) by (apply ct_nonneg; intros []; cbn; lia). assert (0 <= ct N n_woke (x_pc s)) by (apply ct_nonneg; intros []; cbn; lia).
  assert (0 <= ct N n_delta (x_pc s)) by (apply ct_nonneg; intros []; cbn; lia). assert (0 <= ct N n_aw (x_pc s)) by (apply ct_nonneg; intros [| |? []|? [] ?| | | | | |]; cbn; lia).
  destruct (w_k (x_w s)), (w_s (x_w s)), (w_l (x_w s)); cbn in *; try specialize (G5 eq_refl); try discriminate; lia.
Qed.
Lemma mu_b s : mxinv N s -> 0 <= mu s < 6 * (zN + 1) * (2 * zN + 1) * (3 * zN + 1).
Proof.
  intros I. unfold mu. pose proof (ct_le n_in (x_pc s) 1 n_in_b) as A. pose proof (ct_le n_w (x_pc s) 2 n_w_b) as B. pose proof (ct_le _ (x_pc s) 3 (n_r_b (x_w s))) as C.
  pose proof (lk_b (x_w s)) as E. pose proof (tok_b _ I) as F. assert (0 <= zN) by (unfold zN; lia).
  generalize dependent (ct N n_in (x_pc s)). generalize dependent (ct N n_w (x_pc s)). generalize dependent (ct N (n_r (x_w s)) (x_pc s)). generalize dependent (lk (x_w s)).
  generalize dependent (x_sema s + ct N n_rel (x_pc s)). generalize dependent zN. intros n Hn T HT L HL R HR W HW H HH.
  assert (0 <= (H * 3 + L) * 2 + T <= 6 * n + 5) as P by lia. generalize dependent ((H * 3 + L) * 2 + T). intros X HX.
  assert (0 <= X * (2 * n + 1) + W <= (6 * n + 5) * (2 * n + 1) + 2 * n) as P by nia. generalize dependent (X * (2 * n + 1) + W). intros Y HY. nia.
Qed.
Lemma mu_lt s s' : mxinv N s -> mxinv N s' ->
  (ct N n_in (x_pc s') < ct N n_in (x_pc s) \/ ct N n_in (x_pc s') = ct N n_in (x_pc s) /\ (lk (x_w s') < lk (x_w s) \/ lk (x_w s') = lk (x_w s) /\
   (x_sema s' + ct N n_rel (x_pc s') < x_sema s + ct N n_rel (x_pc s) \/ x_sema s' + ct N n_rel (x_pc s') = x_sema s + ct N n_rel (x_pc s) /\
   (ct N n_w (x_pc s') < ct N n_w (x_pc s) \/ ct N n_w (x_pc s') = ct N n_w (x_pc s) /\ ct N (n_r (x_w s')) (x_pc s') < ct N (n_r (x_w s)) (x_pc s))))) -> mu s' < mu s.
Proof.
  intros I I' H. unfold mu. pose proof (ct_le n_w (x_pc s) 2 n_w_b). pose proof (ct_le n_w (x_pc s') 2 n_w_b). pose proof (ct_le _ (x_pc s) 3 (n_r_b (x_w s))). pose proof (ct_le _ (x_pc s') 3 (n_r_b (x_w s'))).
  pose proof (lk_b (x_w s)). pose proof (lk_b (x_w s')). pose proof (tok_b _ I). pose proof (tok_b _ I').
  destruct H as [H|[E1 [H|[E2 [H|[E3 [H|[E4 H]]]]]]]].
  - apply lex_lt; [lia|lia|left]. apply lex_lt; [lia|lia|left]. apply lex_lt; [lia|lia|left]. lia.
  - apply lex_lt; [lia|lia|left]. apply lex_lt; [lia|lia|left]. apply lex_lt; [lia|lia|left]. lia.
  - apply lex_lt; [lia|lia|left]. apply lex_lt; [lia|lia|left]. lia.
  - apply lex_lt; [lia|lia|left]. rewrite E1, E2, E3. lia.
  - rewrite E1, E2, E3, E4. lia.
Qed.
Lemma mu_step s t s' : mxinv N s -> mx_step N s t s' -> x_pc s t <> XIdle -> ~ spins s t s' -> mu s' < mu s.
Proof.
  intros I HS Ht HN. pose proof (mxinv_step N s t s' I HS) as I'. apply (mu_lt s s' I I'). pose proof I as [IN IP IB IG]. pose proof (mv_b _ _ I') as IB'. clear I I'.
  assert (LT : (t < N)%nat) by (destruct (decide (t < N)%nat) as [L|L]; [exact L|]; destruct Ht; apply IN; lia).
  pose proof (IP t) as IPt. assert (D0 := ct_ge N n_delta (x_pc s) t ltac:(intros []; cbn; lia) LT).
  destruct HS; cbn [x_pc x_w x_sema x_bad] in *; subst b; try discriminate IB'.
  all: rewrite ?ct_set by exact LT.
  all: match goal with Q : @eq xpc (?f ?t) _ |- _ => rewrite Q in *; cbn [n_in n_rel n_w n_r pgood n_delta] in * end.
  - congruence.
  - right. split; [lia|]. left. cbn. lia.
  - do 4 (right; split; [lia|]). lia.
  - rewrite Z.eqb_refl. do 3 (right; split; [lia|]). right. split; [destruct aw; lia|lia].
  - destruct (Z.eqb_spec (enc w) (enc old)) as [E|E].
    + exfalso. apply HN. apply enc_inj in E. subst old. exists st, aw. cbn. rewrite tset_eq. auto.
    + do 3 (right; split; [lia|]). right. split; [destruct aw; lia|lia].
  - right. split; [lia|]. right. split; [unfold lk; cbn; destruct (w_l old); [reflexivity|discriminate]|]. right. split; [lia|]. left. lia.
  - right. destruct IG as (_ & _ & _ & _ & G5 & _). destruct (w_l old) eqn:El; [|destruct (w_s old) eqn:Es]; cbn [orb] in *; unfold lk, try_new; rewrite El, ?Es; cbn [w_l w_k w_s w_n orb negb n_in n_rel n_w].
    + split; [lia|]. right. split; [lia|]. right. split; [lia|]. left. destruct aw; lia.
    + specialize (G5 eq_refl). rewrite G5 in *. split; [lia|]. right. split; [destruct aw; lia|]. right. split; [lia|]. left. destruct aw; lia.
    + split; [lia|]. left. destruct (w_k old); lia.
  - destruct (Z.eqb_spec (enc w) (enc old)) as [E|E]; [apply enc_inj in E; congruence|]. do 3 (right; split; [lia|]). right. split; [destruct aw; lia|lia].
  - right. split; [lia|]. right. split; [lia|]. left. lia.
  - rewrite Z.eqb_refl. do 4 (right; split; [lia|]). lia.
  - do 4 (right; split; [lia|]). lia.
  - (* the AddInt32 *) assert (E : w_l w = false /\ w_s w = true /\ w_k w = false).
    { destruct IG as (_ & _ & _ & _ & G5 & _ & G7 & _). destruct (w_l w), (w_s w); cbn in G7; try lia. auto. }
    destruct E as (E1 & E2 & E3). assert (Ew : w' = MW true false (negb (negb st || (w_n old =? 1))) (w_n w - 1)).
    { apply enc_inj. unfold enc in *. rewrite E1, E2, E3 in *. cbn [w_l w_k w_s w_n]. destruct (negb st || (w_n old =? 1)); cbn in *; lia. }
    subst w'. right. split; [lia|]. left. unfold lk. rewrite E1, E3. cbn. lia.
  - left. unfold unlock_next, free_next. repeat case_match; cbn; lia.
  - destruct IPt as (E1 & E2 & E3 & E4). right. split; [lia|]. left. unfold lk. cbn. rewrite E1, E2. lia.
  - destruct (Z.eqb_spec (enc w) (enc old)) as [E|E]; [apply enc_inj in E; congruence|].
    unfold free_next. case_match; cbn [n_in n_rel n_w n_r]; rewrite ?Z.eqb_refl; do 4 (right; split; [lia|]); lia.
  - do 4 (right; split; [lia|]). lia.
Qed.
(** a spin adds one step to what is left: the read of the word after it *)
Lemma mu_spin s t s' : mxinv N s -> mx_step N s t s' -> spins s t s' -> mu s' <= mu s + 1.
Proof.
  intros [IN _ _ _] HS (st & aw & E & E').
  assert (LT : (t < N)%nat) by (destruct (decide (t < N)%nat) as [L|L]; [exact L|]; rewrite IN in E by lia; discriminate).
  assert (C : s' = MX (x_w s) (x_sema s) (x_bad s) (tset (x_pc s) t (XLoad st aw))).
  { destruct HS; cbn [x_pc x_w x_sema x_bad] in *; rewrite ?tset_eq in E'; try congruence.
    destruct (w_l old || w_s old); congruence. }
  subst s'. unfold mu. cbn [x_pc x_w x_sema]. rewrite !ct_set by exact LT. rewrite E. cbn [n_in n_rel n_w n_r]. rewrite Z.eqb_refl. destruct aw; rewrite !Z.add_0_r, ?Z.sub_0_r, ?Z.add_simpl_r; lia.
Qed.
(** what can be done next is not only spinning *)
Lemma mx_can_move s t : mxinv N s -> x_pc s t <> XIdle -> (forall st, x_pc s t = XSem st -> 0 < x_sema s) ->
  exists s', mx_step N s t s' /\ ~ spins s t s'.
Proof.
  intros I Ht Hsem. cut (exists s', mx_step N s t s' /\ forall st aw, x_pc s t = XTry st aw (x_w s) -> x_pc s' t <> XLoad st aw).
  { intros (s' & A & B). exists s'. split; [exact A|]. intros (st & aw & Q1 & Q2). exact (B _ _ Q1 Q2). }
  pose proof (mv_N _ _ I) as IN. assert (LT : (t < N)%nat) by (destruct (decide (t < N)%nat) as [L|L]; [exact L|]; destruct Ht; apply IN; lia).
  pose proof (mv_g _ _ I) as G. pose proof (mv_p _ _ I t) as IPt. destruct s as [w a b pc]. cbn [x_w x_sema x_pc] in *.
  assert (D0 := ct_ge N n_delta pc t ltac:(intros []; cbn; lia) LT). assert (K0 := ct_ge N n_hold pc t ltac:(intros []; cbn; lia) LT).
  destruct (pc t) as [| |st aw|st aw old|st|st|st old| |old|] eqn:E; cbn in D0, K0, IPt; [congruence|..].
  all: try (cut (exists s', mx_step N (MX w a b pc) t s'); [intros (s' & Q); exists s'; split; [exact Q|discriminate]|]).
  - destruct (decide (enc w = 0)) as [Q|Q]; [apply (enc_inj mw0 w) in Q; subst w|]; eexists; [apply mx_fast; exact E|apply mx_slow; [exact E|intros ->; apply Q; reflexivity]].
  - eexists. eapply mx_load. exact E.
  - destruct (decide (enc w = enc old)) as [Q|Q].
    + apply enc_inj in Q; subst old. eexists. split; [eapply mx_cas; [exact E|apply IPt]|]. intros ? ? _. cbn. rewrite tset_eq. destruct (w_l w || w_s w); discriminate.
    + eexists. split; [eapply mx_cas_fail; [exact E|congruence]|]. intros ? ? [= -> -> ->]. congruence.
  - eexists. eapply (mx_sem _ w a b pc t st true); [exact E|apply (Hsem st); reflexivity|reflexivity].
  - destruct (w_s w) eqn:Es; [|eexists; eapply mx_woke; eassumption]. destruct (w_l w) eqn:El; [eexists; eapply mx_throw2; eauto|]. destruct (w_k w) eqn:Ek; [eexists; eapply mx_throw2; eauto|].
    destruct (decide (w_n w = 0)); eexists; [eapply mx_throw2; eauto|eapply mx_woke_st; eauto].
  - assert (Q : w_l w = false /\ w_s w = true /\ w_k w = false).
    { destruct G as (_ & _ & _ & _ & G5 & _ & G7 & _). destruct (w_l w), (w_s w); cbn in G7; try lia. auto. }
    destruct Q as (Q0 & Q1 & Q2). eexists. eapply (mx_delta _ w (MW true false (negb (negb st || (w_n old =? 1))) (w_n w - 1))); [exact E|].
    unfold enc. rewrite Q0, Q1, Q2. cbn [w_l w_k w_s w_n]. destruct (negb st || (w_n old =? 1)); cbn; lia.
  - assert (Q : w_l w = true) by (destruct G as (_ & _ & G3 & _); destruct (w_l w); [reflexivity|cbn in G3; lia]).
    eexists. eapply (mx_unlock _ w (MW false (w_k w) (w_s w) (w_n w))); [exact E|exact Q|]. unfold enc. cbn. rewrite Q. cbn. lia.
  - destruct (decide (enc w = enc old)) as [Q|Q]; [apply enc_inj in Q; subst old|]; eexists; [eapply mx_free; exact E|eapply mx_free_fail; [exact E|congruence]].
  - eexists. apply mx_rel. exact E.
Qed.
End drain.
