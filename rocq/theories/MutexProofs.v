(** What the bits of a sync.Mutex say. *)
From Verif Require Import Base Conc RWProofs MutexModel.
Local Open Scope Z.

Lemma enc_inj w w' : enc w' = enc w -> w' = w.
Proof. destruct w as [l k s n], w' as [l' k' s' n']. unfold enc. cbn. intros E. destruct l, k, s, l', k', s'; cbn in E; f_equal; try lia. Qed.

Definition n_hold (p : xpc) : Z := match p with XHold => 1 | _ => 0 end.
Definition n_rel (p : xpc) : Z := match p with XRel => 1 | _ => 0 end.
Definition n_woke (p : xpc) : Z := match p with XWoke _ => 1 | _ => 0 end.
Definition n_delta (p : xpc) : Z := match p with XDelta _ _ => 1 | _ => 0 end.
Definition n_aw (p : xpc) : Z := match p with XLoad _ true | XTry _ true _ => 1 | _ => 0 end.
Definition n_sem (p : xpc) : Z := match p with XSem _ => 1 | _ => 0 end.
Definition n_free (p : xpc) : Z := match p with XFree _ => 1 | _ => 0 end.

Section inv.
Context (N : nat).
Definition ct (f : xpc -> Z) (pc : nat -> xpc) : Z := csum N (fun t => f (pc t)).
Lemma ct_set f pc t p : (t < N)%nat -> ct f (tset pc t p) = ct f pc + f p - f (pc t).
Proof.
  intros Ht. unfold ct. rewrite (csum_set N (fun u => f (pc u)) (fun u => f (tset pc t p u)) t Ht); [rewrite tset_eq; reflexivity|].
  intros u Hu. rewrite tset_ne by auto. reflexivity.
Qed.
Lemma ct_nonneg f pc : (forall p, 0 <= f p) -> 0 <= ct f pc.
Proof. intros H. apply csum_nonneg. intros t. apply H. Qed.
Lemma ct_ge f pc t : (forall p, 0 <= f p) -> (t < N)%nat -> f (pc t) <= ct f pc.
Proof. intros H Ht. unfold ct. apply (csum_ge N (fun u => f (pc u)) t); [intros u; apply H|exact Ht]. Qed.

(** the word and the numbers of goroutines: have the mutex, are about to release the semaphore, are past it, are about to
    add, are awoke, wait for it, are about to wake somebody *)
Definition good (w : mw) (a h r k d aw s f : Z) : Prop :=
  0 <= a /\ 0 <= w_n w /\ h = Z.b2z (w_l w) /\
  a + r + k + d + aw = Z.b2z (w_k w) + Z.b2z (w_s w && negb (w_l w)) /\
  (w_s w = true -> w_k w = false) /\ aw <= Z.b2z (w_k w) /\ d <= Z.b2z (w_s w && negb (w_l w)) /\
  s + (if w_s w && negb (w_l w) then k + d else 0) = w_n w + (if w_k w then r + a else 0) /\
  (w_l w = false -> w_s w = false -> w_k w = false -> 0 < w_n w -> 0 < f).
Definition pgood (p : xpc) : Prop :=
  match p with XLoad st aw => st = true -> aw = true | XTry st aw old => (st = true -> aw = true) /\ (aw = true -> w_k old = true)
  | XFree old => w_l old = false /\ w_k old = false /\ w_s old = false /\ w_n old <> 0 | _ => True end.
Lemma pgood_free w : pgood (free_next w).
Proof. unfold free_next. destruct w as [l k s n]. cbn. destruct (Z.eqb_spec n 0), l, k, s; cbn; auto. Qed.
Lemma pgood_unlock w : pgood (unlock_next w).
Proof. unfold unlock_next. destruct (enc w =? 0); [exact I|]. destruct (w_s w); [exact I|]. apply pgood_free. Qed.
Record mxinv (s : mxstate) : Prop := {
  mv_N : forall t, (N <= t)%nat -> x_pc s t = XIdle;
  mv_p : forall t, pgood (x_pc s t);
  mv_b : x_bad s = false;
  mv_g : good (x_w s) (x_sema s) (ct n_hold (x_pc s)) (ct n_rel (x_pc s)) (ct n_woke (x_pc s)) (ct n_delta (x_pc s)) (ct n_aw (x_pc s)) (ct n_sem (x_pc s)) (ct n_free (x_pc s)) }.

Lemma mxinv_new : mxinv mx_new.
Proof.
  assert (Z0 : forall f, f XIdle = 0 -> ct f (fun _ => XIdle) = 0). { intros f E. unfold ct. induction N as [|M IH]; [reflexivity|]. rewrite csum_S, IH, E. reflexivity. }
  split; cbn; auto. rewrite !Z0 by reflexivity. unfold good. cbn. lia.
Qed.

Local Ltac ari IG := unfold good in *; cbn in *;
  let I1 := fresh "I1" in let I2 := fresh "I2" in destruct IG as (? & ? & ? & ? & I1 & ? & ? & ? & I2);
  try specialize (I1 eq_refl); try (lazymatch type of I1 with true = false => discriminate I1 end); try specialize (I2 eq_refl eq_refl eq_refl);
  repeat match goal with |- _ /\ _ => split end; intros; try discriminate; try lia; try (specialize (I2 ltac:(lia)); lia).
Local Ltac fin IG w := let l := fresh "l" in let k := fresh "k" in let s := fresh "s" in let n := fresh "n" in
  match goal with SET : forall (_ : mw) _, _, P0 : forall _ : xpc, _, IN : forall _, (_ <= _)%nat -> _, IP : forall _, pgood _ |- _ => clear SET P0 IN IP end;
  destruct w as [l k s n]; destruct l, k, s; cbn in *; try discriminate; ari IG.

Lemma mxinv_step s t s' : mxinv s -> mx_step N s t s' -> mxinv s'.
Proof.
  intros [IN IP IB IG] HS.
  assert (LT : x_pc s t <> XIdle -> (t < N)%nat) by (intros Q; destruct (decide (t < N)%nat) as [L|L]; [exact L|]; destruct Q; apply IN; lia).
  assert (P0 : forall p, 0 <= n_hold p /\ 0 <= n_rel p /\ 0 <= n_woke p /\ 0 <= n_delta p /\ 0 <= n_aw p /\ 0 <= n_sem p /\ 0 <= n_free p) by (intros p; destruct p as [| |? []|? [] ?| | | | | |]; cbn; lia).
  assert (B1 := ct_nonneg n_hold (x_pc s) (fun p => proj1 (P0 p))). assert (B2 := ct_nonneg n_rel (x_pc s) (fun p => proj1 (proj2 (P0 p)))).
  assert (B3 := ct_nonneg n_woke (x_pc s) ltac:(intros p; apply P0)). assert (B4 := ct_nonneg n_delta (x_pc s) ltac:(intros p; apply P0)).
  assert (B5 := ct_nonneg n_aw (x_pc s) ltac:(intros p; apply P0)). assert (B6 := ct_nonneg n_sem (x_pc s) ltac:(intros p; apply P0)). assert (B7 := ct_nonneg n_free (x_pc s) ltac:(intros p; apply P0)).
  assert (GE : forall f, (forall p, 0 <= f p) -> x_pc s t <> XIdle -> f (x_pc s t) <= ct f (x_pc s)) by (intros f Hf Q; apply ct_ge; auto).
  assert (G1 := GE n_hold ltac:(intros p; apply P0)). assert (G3 := GE n_woke ltac:(intros p; apply P0)). assert (G4 := GE n_delta ltac:(intros p; apply P0)).
  assert (G5 := GE n_aw ltac:(intros p; apply P0)). assert (G6 := GE n_rel ltac:(intros p; apply P0)).
  assert (G7 := GE n_sem ltac:(intros p; apply P0)). assert (G8 := GE n_free ltac:(intros p; apply P0)). clear GE.
  assert (SET : forall w a b p, s' = MX w a b (tset (x_pc s) t p) -> (t < N)%nat -> b = false -> pgood p ->
    good w a (ct n_hold (x_pc s) + n_hold p - n_hold (x_pc s t)) (ct n_rel (x_pc s) + n_rel p - n_rel (x_pc s t)) (ct n_woke (x_pc s) + n_woke p - n_woke (x_pc s t))
      (ct n_delta (x_pc s) + n_delta p - n_delta (x_pc s t)) (ct n_aw (x_pc s) + n_aw p - n_aw (x_pc s t)) (ct n_sem (x_pc s) + n_sem p - n_sem (x_pc s t))
      (ct n_free (x_pc s) + n_free p - n_free (x_pc s t)) -> mxinv s').
  { intros w a b p -> Ht -> HP HG. split; cbn [x_pc x_w x_sema x_bad].
    - intros u Hu. rewrite tset_ne by lia. apply IN. exact Hu.
    - intros u. destruct (tset_cases (x_pc s) t p u) as [[-> ->]|[_ ->]]; [exact HP|apply IP].
    - reflexivity.
    - rewrite !ct_set by exact Ht. exact HG. }
  pose proof (IP t) as IPt.
  destruct HS; cbn [x_pc x_w x_sema x_bad] in *; subst b.
  all: match goal with Q : @eq xpc (?f ?t) _ |- _ => rewrite Q in *; cbn [n_hold n_rel n_woke n_delta n_aw n_sem n_free pgood] in * end.
  all: try specialize (LT ltac:(discriminate)); try specialize (G1 ltac:(discriminate)); try specialize (G3 ltac:(discriminate)); try specialize (G4 ltac:(discriminate)); try specialize (G5 ltac:(discriminate));
       try specialize (G6 ltac:(discriminate)); try specialize (G7 ltac:(discriminate)); try specialize (G8 ltac:(discriminate)).
  all: try (eapply SET; [reflexivity|assumption|reflexivity|cbn; tauto|]; cbn [n_hold n_rel n_woke n_delta n_aw n_sem n_free]).
  - fin IG w.
  - clear SET P0. ari IG.
  - fin IG w.
  - eapply SET; [reflexivity|assumption|reflexivity| |].
    + cbn. split; [exact IPt|]. intros ->. destruct IG as (_ & _ & _ & _ & _ & Q & _). cbn in G5. destruct (w_k w); [reflexivity|cbn in Q; lia].
    + destruct aw; fin IG w.
  - destruct aw; fin IG w.
  - fin IG old.
  - exfalso. destruct IPt as [_ Q]. specialize (Q eq_refl). congruence.
  - (* the CompareAndSwap *) destruct IPt as [Q1 Q2]. eapply SET; [reflexivity|assumption|reflexivity|destruct (w_l old || w_s old); cbn; auto|].
    unfold try_new. destruct st; [rewrite (Q1 eq_refl) in *|destruct aw]; try specialize (Q2 eq_refl); fin IG old.
  - destruct aw; fin IG w.
  - fin IG w.
  - eapply SET; [reflexivity|assumption|reflexivity| |fin IG w]. cbn. split; [auto|]. intros _. destruct IG as (Qa & _ & _ & Q & _). rewrite H0 in Q. cbn in Q. destruct (w_k w); [reflexivity|cbn in Q; lia].
  - fin IG w.
  - exfalso. clear SET P0 IN IP. destruct w as [l k s n]; destruct l, k, s; cbn in *; try discriminate; try (destruct H1 as [Q|[Q|Q]]; try discriminate); ari IG.
  - (* the AddInt32 *) 
    assert (E : w_l w = false /\ w_s w = true /\ w_k w = false /\ 0 < w_n w) by fin IG w.
    destruct E as (E1 & E2 & E3 & E4). assert (Ew : w' = MW true false (negb (negb st || (w_n old =? 1))) (w_n w - 1)).
    { apply enc_inj. unfold enc in *. rewrite E1, E2, E3 in *. cbn [w_l w_k w_s w_n]. destruct (negb st || (w_n old =? 1)); cbn in *; lia. }
    rewrite Ew. destruct (negb st || (w_n old =? 1)); fin IG w.
  - (* Unlock *) assert (Ew : w' = MW false (w_k w) (w_s w) (w_n w)) by (apply enc_inj; unfold enc in *; rewrite H0 in *; cbn in *; lia).
    eapply SET; [reflexivity|assumption|reflexivity|apply pgood_unlock|].
    rewrite Ew. unfold unlock_next, free_next, enc. cbn [w_l w_k w_s w_n]. destruct w as [l k s n]. cbn in H0. subst l.
    destruct (Z.eqb_spec n 0) as [->|Nn]; destruct k, s; cbn [Z.b2z negb andb orb Z.mul Z.add Z.eqb] in *.
    all: repeat match goal with |- context [?x =? 0] => destruct (Z.eqb_spec x 0); try lia end.
    all: clear SET P0; ari IG.
  - exfalso. fin IG w.
  - destruct IPt as (E1 & E2 & E3 & E4). fin IG old.
  - eapply SET; [reflexivity|assumption|reflexivity|apply pgood_free|]. unfold free_next. destruct w as [l k s n].
    cbn [w_l w_k w_s w_n]. destruct (Z.eqb_spec n 0) as [->|Nn]; destruct l, k, s; cbn [negb andb orb] in *; clear SET P0; ari IG.
  - fin IG w.
Qed.

(** in starvation mode somebody is counted as waiting *)
Definition mxstarve (s : mxstate) : Prop :=
  (w_s (x_w s) = true -> 0 < w_n (x_w s)) /\ forall t st old, x_pc s t = XDelta st old -> 0 < w_n old <= w_n (x_w s).
Lemma mxstarve_step s t s' : mxinv s -> mxstarve s -> mx_step N s t s' -> mxstarve s'.
Proof.
  intros [IN IP IB IG] [S1 S2] HS.
  assert (LT : forall u, x_pc s u <> XIdle -> (u < N)%nat) by (intros u Q; destruct (decide (u < N)%nat) as [L|L]; [exact L|]; destruct Q; apply IN; lia).
  assert (D1 : forall u st old, x_pc s u = XDelta st old -> w_l (x_w s) = false /\ w_s (x_w s) = true /\ w_k (x_w s) = false).
  { intros u st old Q. assert (G : n_delta (x_pc s u) <= ct n_delta (x_pc s)) by (apply ct_ge; [intros []; cbn; lia|apply LT; rewrite Q; discriminate]). rewrite Q in G. cbn in G.
    destruct IG as (_ & _ & _ & _ & I5 & _ & I7 & _). destruct (w_l (x_w s)), (w_s (x_w s)); cbn in I7; try lia. auto. }
  assert (D2 : forall u v st old st2 old2, x_pc s u = XDelta st old -> x_pc s v = XDelta st2 old2 -> u = v).
  { intros u v st old st2 old2 Q1 Q2. destruct (decide (u = v)) as [E|E]; [exact E|exfalso].
    assert (C1 : ct n_delta (tset (x_pc s) u XIdle) = ct n_delta (x_pc s) - 1) by (rewrite ct_set by (apply LT; rewrite Q1; discriminate); rewrite Q1; cbn; lia).
    assert (C2 : n_delta (tset (x_pc s) u XIdle v) <= ct n_delta (tset (x_pc s) u XIdle)) by (apply ct_ge; [intros []; cbn; lia|apply LT; rewrite Q2; discriminate]).
    rewrite tset_ne, Q2 in C2 by auto. cbn in C2. destruct IG as (_ & _ & _ & _ & _ & _ & I7 & _). destruct (w_s (x_w s) && negb (w_l (x_w s))); cbn in I7; lia. }
  assert (KEEP : forall w a b p, s' = MX w a b (tset (x_pc s) t p) -> (w_s w = true -> 0 < w_n w) -> w_n (x_w s) <= w_n w ->
    (forall st old, p = XDelta st old -> 0 < w_n old <= w_n w) -> mxstarve s').
  { intros w a b p -> A B C. split; [exact A|]. intros u st old. cbn [x_pc x_w]. destruct (tset_cases (x_pc s) t p u) as [[-> ->]|[_ ->]]; [apply C|].
    intros Q. specialize (S2 _ _ _ Q). lia. }
  destruct IG as (_ & I2 & _).
  pose proof (IP t) as IPt.
  destruct HS; cbn [x_pc x_w x_sema x_bad] in *.
  all: try (eapply KEEP; [reflexivity|exact S1|lia|intros ? ? [=]]).
  all: try (split; assumption).
  - eapply KEEP; [reflexivity|discriminate|cbn; lia|intros ? ? [=]].
  - eapply KEEP; [reflexivity|cbn; exact S1|cbn; lia|intros ? ? [=]].
  - eapply KEEP; [reflexivity| | |destruct (w_l old || w_s old); intros ? ? [=]].
    + unfold try_new. cbn [w_s w_n]. destruct (w_s old); [intros _; specialize (S1 eq_refl); destruct (w_l old); cbn; lia|]. destruct st, (w_l old); cbn; try discriminate. lia.
    + unfold try_new. cbn [w_n]. destruct (w_l old || w_s old); lia.
  - subst old. specialize (S1 H0). lia.
  - destruct (D1 _ _ _ H) as (E1 & E2 & E3). pose proof (S2 _ _ _ H) as Q.
    assert (Ew : w' = MW true false (negb (negb st || (w_n old =? 1))) (w_n w - 1)).
    { apply enc_inj. unfold enc in *. rewrite E1, E2, E3 in *. cbn [w_l w_k w_s w_n]. destruct (negb st || (w_n old =? 1)); cbn in *; lia. }
    subst w'. split; cbn [x_w x_pc w_s w_n].
    + destruct (Z.eqb_spec (w_n old) 1); [rewrite orb_true_r; discriminate|]. lia.
    + intros u st2 old2. destruct (tset_cases pc t XHold u) as [[-> ->]|[Nu ->]]; [discriminate|]. intros Q2. destruct Nu. eapply D2; eassumption.
  - assert (Ew : w' = MW false (w_k w) (w_s w) (w_n w)) by (apply enc_inj; unfold enc in *; rewrite H0 in *; cbn in *; lia). subst w'.
    eapply KEEP; [reflexivity|exact S1|cbn; lia|]. unfold unlock_next, free_next. intros ? ?. repeat case_match; discriminate.
  - rewrite H in IPt. destruct IPt as (E1 & E2 & E3 & E4). split; cbn [x_w x_pc w_s w_n].
    + congruence.
    + intros u st2 old2. destruct (tset_cases pc t XRel u) as [[-> ->]|[Nu ->]]; [discriminate|]. intros Q2. destruct (D1 _ _ _ Q2) as (_ & Q & _). congruence.
  - unfold free_next in *. repeat case_match; discriminate.
Qed.
End inv.
