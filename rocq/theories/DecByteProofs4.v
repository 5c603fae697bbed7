From Verif Require Import Base Conc DecModel DecProofs DecProofs2 DecProofs3 DecByteModel DecByteProofs DecByteProofs2 DecByteProofs3.
Local Open Scope Z.

Section proofs.
Context (msg : nat -> list Z).
Lemma replay size tr c l c' s s' : cinv msg size tr c -> sim msg c s -> d_step msg c l c' -> b_step msg s l s' ->
  (forall t, c_w c' t = absw (b_w s' t)) -> c_r c' = absr (b_r s') -> sim msg c' s'.
Proof.
  intros I S D B E1 E2. destruct (sim_step msg size tr c s l s' I S B) as [(c2 & D2 & S2)|[-> S2]].
  - replace c' with c2; [exact S2|]. destruct S2 as (buf & own & _ & W & R & _). apply (d_det msg c l); [exact D2|exact D| |congruence]. intros t. rewrite W, E1. reflexivity.
  - exfalso. destruct S2 as (buf & own & _ & W & R & _). apply (tau_changes msg c c' D); [|congruence]. intros t. rewrite W, E1. reflexivity.
Qed.
Lemma stutter size tr c s s' : cinv msg size tr c -> sim msg c s -> b_step msg s LDTau s' ->
  (forall t, absw (b_w s' t) = absw (b_w s t)) -> absr (b_r s') = absr (b_r s) -> sim msg c s'.
Proof.
  intros I S B E1 E2. destruct (sim_step msg size tr c s LDTau s' I S B) as [(c2 & D2 & S2)|[_ S2]]; [|exact S2].
  exfalso. destruct S2 as (buf & own & _ & W & R & _). destruct S as (buf' & own' & _ & W' & R' & _). apply (tau_changes msg c c2 D2); [|congruence]. intros t. rewrite W, W', E1. reflexivity.
Qed.
Definition at_rest (s : bdec) : Prop := (forall t, exists p, b_w s t = BW p) /\ ((exists p, b_r s = BR p) \/ exists a n, b_r s = BUse a n).
(** from [s] to [s'] nobody but [t] has moved, and nothing is visible *)
Definition silent (t : nat) (s s' : bdec) : Prop :=
  exists tr, steps (b_step msg) s tr s' /\ visible tr = [] /\ b_d s' = b_d s /\ b_r s' = b_r s /\ (forall u, u <> t -> b_w s' u = b_w s u).
Lemma silent_trans t s s1 s2 : silent t s s1 -> silent t s1 s2 -> silent t s s2.
Proof.
  intros (tr1 & A1 & A2 & A3 & A4 & A5) (tr2 & B1 & B2 & B3 & B4 & B5). exists (tr1 ++ tr2). split; [eapply steps_app; eassumption|]. split; [rewrite visible_app, A2, B2; reflexivity|]. split; [congruence|]. split; [congruence|].
  intros u Hu. rewrite B5, A5 by exact Hu. reflexivity.
Qed.
Lemma silent_one t d m w r m' p : b_step msg (BD d m w r) LDTau (BD d m' (tset w t p) r) -> silent t (BD d m w r) (BD d m' (tset w t p) r).
Proof.
  intros H. exists [LDTau]. split; [eapply steps_cons; [exact H|constructor]|]. split; [reflexivity|]. split; [reflexivity|]. split; [reflexivity|]. intros u Hu. cbn [b_w]. apply tset_ne. exact Hu.
Qed.
Lemma stutter_w size tr c t d m w r m' p : cinv msg size tr c -> sim msg c (BD d m w r) -> b_step msg (BD d m w r) LDTau (BD d m' (tset w t p) r) -> absw p = absw (w t) -> sim msg c (BD d m' (tset w t p) r).
Proof. intros I S B E. eapply stutter; [exact I|exact S|exact B| |reflexivity]. intros u. cbn [b_w]. destruct (tset_cases w t p u) as [[-> ->]|[_ ->]]; [exact E|reflexivity]. Qed.
Lemma run_bytes size tr c t ts a cp : cinv msg size tr c -> forall k, (k <= length (msg t))%nat -> forall s done, sim msg c s -> b_w s t = BBytes ts a cp done ->
  exists s' done', silent t s s' /\ sim msg c s' /\ b_w s' t = BBytes ts a cp done' /\ forall j, (j < k)%nat -> j ∈ done'.
Proof.
  intros I. induction k as [|k IH]; intros Hk s done S W.
  - exists s, done. split; [exists []; repeat split; constructor|]. split; [exact S|]. split; [exact W|]. lia.
  - destruct (IH ltac:(lia) s done S W) as (s1 & done1 & N1 & S1 & W1 & D1). destruct s1 as [d m w r]. cbn [b_w] in W1.
    pose proof (bs_byte msg d m w r t ts a cp done1 k W1 ltac:(lia)) as B. eexists _, (k :: done1). split; [eapply silent_trans; [exact N1|apply silent_one, B]|]. split; [eapply stutter_w; [exact I|exact S1|exact B|rewrite W1; reflexivity]|].
    split; [cbn [b_w]; apply tset_eq|]. intros j Hj. destruct (decide (j = k)) as [->|]; [left|right; apply D1; lia].
Qed.
Lemma run_copy size tr c t ts s : cinv msg size tr c -> sim msg c s -> b_w s t = BW (WCopy ts) ->
  exists s' a cp, silent t s s' /\ sim msg c s' /\ b_w s' t = BHead2 ts a cp.
Proof.
  intros I S W. destruct s as [d m w r]. cbn [b_w] in W.
  pose proof (bs_ptr msg d m w r t ts W) as B1. pose proof (stutter_w _ _ _ _ _ _ _ _ _ _ I S B1 ltac:(rewrite W; reflexivity)) as S1. apply silent_one in B1 as N1.
  set (w1 := tset w t (BCap ts (b_ptr m (slot d ts)))) in *. assert (W1 : w1 t = BCap ts (b_ptr m (slot d ts))) by apply tset_eq. clearbody w1.
  assert (R : exists s2 a cp, silent t (BD d m w1 r) s2 /\ sim msg c s2 /\ b_w s2 t = BBytes ts a cp []).
  { destruct (le_lt_dec (length (msg t)) (b_cap m (slot d ts))) as [L|L].
    - pose proof (bs_room msg d m w1 r t ts _ W1 L) as B2. eexists _, _, _. split; [apply silent_one, B2|]. split; [eapply stutter_w; [exact I|exact S1|exact B2|rewrite W1; reflexivity]|cbn [b_w]; apply tset_eq].
    - pose proof (bs_grow msg d m w1 r t ts _ (length (msg t)) W1 ltac:(lia)) as B2. eexists _, _, _. split; [apply silent_one, B2|]. split; [eapply stutter_w; [exact I|exact S1|exact B2|rewrite W1; reflexivity]|cbn [b_w]; apply tset_eq]. }
  destruct R as (s2 & a & cp & N2 & S2 & W2). destruct (run_bytes size tr c t ts a cp I (length (msg t)) ltac:(lia) s2 [] S2 W2) as (s3 & done & N3 & S3 & W3 & D3). destruct s3 as [d3 m3 w3 r3]. cbn [b_w] in W3.
  pose proof (bs_copied msg d3 m3 w3 r3 t ts a cp done W3 D3) as B4. pose proof (stutter_w _ _ _ _ _ _ _ _ _ _ I S3 B4 ltac:(rewrite W3; reflexivity)) as S4. apply silent_one in B4 as N4.
  set (w4 := tset w3 t (BHead ts a cp)) in *. assert (W4 : w4 t = BHead ts a cp) by apply tset_eq. clearbody w4.
  pose proof (bs_head msg d3 m3 w4 r3 t ts a cp W4) as B5. pose proof (stutter_w _ _ _ _ _ _ _ _ _ _ I S4 B5 ltac:(rewrite W4; reflexivity)) as S5. apply silent_one in B5 as N5.
  set (w5 := tset w4 t (BHead1 ts a cp)) in *. assert (W5 : w5 t = BHead1 ts a cp) by apply tset_eq. clearbody w5.
  pose proof (bs_head1 msg d3 (set_ptr m3 (slot d3 ts) a) w5 r3 t ts a cp W5) as B6. pose proof (stutter_w _ _ _ _ _ _ _ _ _ _ I S5 B6 ltac:(rewrite W5; reflexivity)) as S6. apply silent_one in B6 as N6.
  eexists _, a, cp. split; [|split; [exact S6|cbn [b_w]; apply tset_eq]].
  eapply silent_trans; [exact N1|]. eapply silent_trans; [exact N2|]. eapply silent_trans; [exact N3|]. eapply silent_trans; [exact N4|]. eapply silent_trans; [exact N5|exact N6].
Qed.
Lemma run_look size tr c d m w a n : cinv msg size tr c -> forall k got, n = (length got + k)%nat -> sim msg c (BD d m w (BLook a n got)) ->
  exists got', steps (b_step msg) (BD d m w (BLook a n got)) (repeat LDTau k) (BD d m w (BLook a n got')) /\ length got' = n /\ sim msg c (BD d m w (BLook a n got')).
Proof.
  intros I. induction k as [|k IH]; intros got E S; [exists got; split; [constructor|]; split; [lia|exact S]|].
  pose proof (bs_look msg d m w a n got ltac:(lia)) as B. destruct (IH (got ++ [b_mem m a (length got)])) as (got' & A1 & A2 & A3).
  - rewrite app_length. cbn. lia.
  - eapply stutter; [exact I|exact S|exact B|reflexivity|reflexivity].
  - exists got'. split; [cbn [repeat]; eapply steps_cons; [exact B|exact A1]|]. auto.
Qed.
Lemma visible_taus k : visible (repeat LDTau k) = [].
Proof. induction k as [|k IH]; [reflexivity|exact IH]. Qed.
Lemma complete_step size tr c l c' s : cinv msg size tr c -> sim msg c s -> at_rest s -> d_step msg c l c' ->
  exists tr2 s', steps (b_step msg) s tr2 s' /\ visible tr2 = visible [l] /\ sim msg c' s' /\ at_rest s'.
Proof.
  intros I S [RW RR] D. destruct s as [d m w r]. pose proof S as (buf & own & E1 & E2 & E3 & M). cbn [b_d b_w b_r] in *.
  assert (PW : forall t p, c_w c t = p -> w t = BW p) by (intros t p H; destruct (RW t) as [q Hq]; rewrite E2, Hq in H; cbn in H; congruence).
  assert (PR : forall p, c_r c = p -> p <> REmpty -> r = BR p) by (intros p H N; destruct RR as [[q Hq]|(a & n & Hq)]; rewrite E3, Hq in H; cbn in H; congruence).
  assert (ONE : forall d' m' t p', b_step msg (BD d m w r) l (BD d' m' (tset w t (BW p')) r) -> (forall u, c_w c' u = tset (c_w c) t p' u) -> c_r c' = c_r c ->
    exists tr2 s', steps (b_step msg) (BD d m w r) tr2 s' /\ visible tr2 = visible [l] /\ sim msg c' s' /\ at_rest s').
  { intros d' m' t p' B F G. exists [l], (BD d' m' (tset w t (BW p')) r). split; [eapply steps_cons; [exact B|constructor]|]. split; [reflexivity|]. split.
    - eapply replay; [exact I|exact S|exact D|exact B| |cbn [b_r]; congruence]. intros u. rewrite F. cbn [b_w]. destruct (decide (u = t)) as [->|N]; [rewrite !tset_eq; reflexivity|rewrite !tset_ne by exact N; apply E2].
    - split; [|exact RR]. intros u. cbn [b_w]. destruct (tset_cases w t (BW p') u) as [[_ ->]|[_ ->]]; eauto. }
  assert (RD : forall d' p', b_step msg (BD d m w r) l (BD d' m w (BR p')) -> (forall u, c_w c' u = c_w c u) -> c_r c' = p' ->
    exists tr2 s', steps (b_step msg) (BD d m w r) tr2 s' /\ visible tr2 = visible [l] /\ sim msg c' s' /\ at_rest s').
  { intros d' p' B F G. exists [l], (BD d' m w (BR p')). split; [eapply steps_cons; [exact B|constructor]|]. split; [reflexivity|]. split.
    - eapply replay; [exact I|exact S|exact D|exact B| |exact G]. intros u. rewrite F. apply E2.
    - split; [exact RW|]. left. eauto. }
  destruct D; cbn [c_d c_w c_r] in *; subst d0.
  - eapply ONE; [apply (bs_write msg); [apply PW; eassumption|eassumption]|reflexivity|reflexivity].
  - eapply ONE; [apply (bs_write_empty msg); [apply PW; eassumption|eassumption]|reflexivity|reflexivity].
  - eapply ONE; [apply (bs_add msg); apply PW; eassumption|reflexivity|reflexivity].
  - eapply ONE; [eapply (bs_load_empty msg); [apply PW; eassumption|assumption]|reflexivity|reflexivity].
  - eapply ONE; [eapply (bs_load_busy msg); [apply PW; eassumption|assumption]|reflexivity|reflexivity].
  - eapply ONE; [eapply (bs_load_full msg); [apply PW; eassumption|assumption|assumption]|reflexivity|reflexivity].
  - eapply ONE; [eapply (bs_cas msg); [apply PW; eassumption|assumption]|reflexivity|reflexivity].
  - eapply ONE; [eapply (bs_cas_fail msg); [apply PW; eassumption|assumption]|reflexivity|reflexivity].
  - (* copy *) destruct (run_copy size tr _ t ts (BD d m w r) I S (PW _ _ H)) as (s1 & a & cp & (tr1 & N1 & N2 & N3 & N4 & N5) & S1 & W1). destruct s1 as [d1 m1 w1 r1]. cbn [b_d b_r b_w] in *. subst d1 r1.
    pose proof (bs_head2 msg d m1 w1 r t ts a cp W1) as B. exists (tr1 ++ [LDTau]). eexists. split; [econstructor; [exact N1|exact B]|]. split; [rewrite visible_app, N2; reflexivity|]. split.
    + eapply replay; [exact I|exact S1|apply ds_copy; exact H|exact B| |exact E3]. intros u. cbn [b_w c_w]. destruct (decide (u = t)) as [->|N]; [rewrite !tset_eq; reflexivity|rewrite !tset_ne by exact N; rewrite N5 by exact N; apply E2].
    + split; [|exact RR]. intros u. cbn [b_w]. destruct (tset_cases w1 t (BW (WStore ts)) u) as [[_ ->]|[Nu ->]]; [eauto|]. rewrite N5 by exact Nu. apply RW.
  - eapply ONE; [apply (bs_store msg); apply PW; eassumption|reflexivity|reflexivity].
  - eapply ONE; [apply (bs_len msg); apply PW; eassumption|reflexivity|reflexivity].
  - eapply ONE; [apply (bs_drop msg); [apply PW; eassumption|assumption]|reflexivity|reflexivity].
  - eapply ONE; [apply (bs_retry msg); [apply PW; eassumption|assumption]|reflexivity|reflexivity].
  - (* none *) rewrite (PR _ eq_refl ltac:(discriminate)) in *. eapply RD; [apply bs_next_none; exact H|reflexivity|reflexivity].
  - rewrite (PR _ eq_refl ltac:(discriminate)) in *. eapply RD; [apply bs_next; exact H|reflexivity|reflexivity].
  - rewrite (PR _ eq_refl ltac:(discriminate)) in *. eapply RD; [apply bs_found; assumption|reflexivity|reflexivity].
  - (* view *) rewrite (PR _ eq_refl ltac:(discriminate)) in *. clear ONE RD PR.
    pose proof (bs_vptr msg d m w) as B1. assert (S1 : sim msg (CD (with_buf d buf) w0 RView) (BD d m w (BLen (b_ptr m (slot d (d_read d)))))) by (eapply stutter; [exact I|exact S|exact B1|reflexivity|reflexivity]).
    pose proof (bs_vlen msg d m w (b_ptr m (slot d (d_read d)))) as B2. pose proof (stutter _ _ _ _ _ I S1 B2 ltac:(reflexivity) ltac:(reflexivity)) as S2.
    destruct (run_look size tr _ d m w _ (b_hlen m (slot d (d_read d))) I _ [] eq_refl S2) as (got & L1 & L2 & S3).
    pose proof (bs_seen msg d m w (b_ptr m (slot d (d_read d))) _ got L2) as B4. destruct (sim_step msg size tr _ _ _ _ I S3 B4) as [(c2 & D2 & S4)|[E _]]; [|discriminate].
    exists (LDTau :: LDTau :: repeat LDTau (b_hlen m (slot d (d_read d))) ++ [LView got]). eexists. split; [eapply steps_cons; [exact B1|]; eapply steps_cons; [exact B2|]; econstructor; [exact L1|exact B4]|].
    split; [change (visible (repeat LDTau (b_hlen m (slot d (d_read d))) ++ [LView got]) = visible [LView (d_buf (with_buf d buf) (slot (with_buf d buf) (d_read (with_buf d buf))))]); rewrite visible_app, visible_taus|].
    + inversion D2. reflexivity.
    + inversion D2; subst. split; [exact S4|]. split; [exact RW|right; cbn [b_r]; eauto].
  - (* empty *) assert (exists a n, r = BUse a n) as (a & n & ->).
    { destruct RR as [[p ->]|R]; [|exact R]. cbn in E3. subst p. pose proof (m_view _ _ _ _ M) as V. cbn in V. congruence. }
    eapply RD; [apply bs_empty|reflexivity|reflexivity].
  - rewrite (PR _ eq_refl ltac:(discriminate)) in *. eapply RD; [apply bs_dec|reflexivity|reflexivity].
Qed.
Lemma complete_steps size tr c : 0 < size < 2^64 -> steps (d_step msg) (d_init size) tr c -> num (adders tr) <= 2^64 - 2 ->
  exists tr' s, steps (b_step msg) (b_init size) tr' s /\ visible tr' = visible tr /\ sim msg c s /\ at_rest s.
Proof.
  intros Hs H. remember (d_init size) as s0 eqn:E. induction H as [c|c tr c1 l c2 H IH Hl]; intros Ha; subst.
  - exists [], (b_init size). split; [constructor|]. split; [reflexivity|]. split; [apply sim_init|]. split; [intros t; eexists; reflexivity|left; eexists; reflexivity].
  - pose proof (adders_prefix tr [l]). destruct (IH eq_refl ltac:(lia)) as (tr' & s & St & V & S & R). assert (I : cinv msg size tr c1) by (apply cinv_steps; [exact Hs|exact H|lia]).
    destruct (complete_step size tr c1 l c2 s I S R Hl) as (tr2 & s2 & A1 & A2 & A3 & A4). exists (tr' ++ tr2), s2. split; [eapply steps_app; eassumption|]. split; [rewrite !visible_app, V, A2; reflexivity|]. auto.
Qed.
End proofs.
