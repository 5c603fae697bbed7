From Verif Require Import Base Conc DecModel DecProofs DecProofs2 DecProofs3 DecByteModel DecByteProofs.
Local Open Scope Z.

Section proofs.
Context (msg : nat -> list Z).
Ltac ts := repeat match goal with
  | |- context [tset _ ?t _ ?u] => destruct (decide (u = t)) as [->|]; [rewrite ?tset_eq in *|rewrite ?tset_ne in * by assumption]
  | H : context [tset _ ?t _ ?u] |- _ => destruct (decide (u = t)) as [->|]; [rewrite ?tset_eq in *|rewrite ?tset_ne in * by assumption]
  end.
Ltac byp := repeat match goal with H : context [zset _ ?i _ ?j] |- _ => destruct (Z.eq_dec j i) as [?|?]; [subst|]; rewrite ?zset_eq, ?zset_ne in H by assumption end.
(** steps outside line 60 and the callback *)
Ltac frame M := eapply (minv_frame msg); [exact M|reflexivity|reflexivity| | | |];
  [ intros u; cbn [b_w]; ts; [right; split; eexists; [reflexivity|eassumption]|left; reflexivity]
  | intros u; cbn [b_w]; ts; intros; first [assumption | congruence | apply (m_some _ _ _ _ M u); cbn [b_w]; congruence | apply (m_some _ _ _ _ M); cbn [b_w]; congruence]
  | intros i [(u & us & FA & FB)|(FA & FB & FC)]; cbn [b_w b_d b_r] in *; [ts; [try discriminate|]; left; eauto|right; eauto]
  | try exact (m_view _ _ _ _ M) ].
Lemma sim_step size tr c s l s' : cinv msg size tr c -> sim msg c s -> b_step msg s l s' ->
  (exists c', d_step msg c l c' /\ sim msg c' s') \/ (l = LDTau /\ sim msg c s').
Proof.
  intros I S H. pose proof (sim_excl msg size tr c s I S) as X. destruct S as (buf & own & E1 & E2 & E3 & M). destruct c as [dc wc rc]. cbn [c_d c_w c_r] in *. subst dc rc.
  assert (AW : forall w t p, (forall t, wc t = absw (w t)) -> forall u, tset wc t (absw p) u = absw (tset w t p u)) by (intros w t p Hw u; ts; auto).
  destruct H; cbn [b_d b_m b_w b_r] in *.
  all: try match goal with H : ?f ?t = BW _ |- _ => pose proof (E2 t) as Et; rewrite H in Et; cbn [absw] in Et end.
  - left. eexists. split; [apply ds_write; eassumption|]. exists buf, own. split; [reflexivity|]. split; [apply (AW w t (BW WAdd) E2)|]. split; [reflexivity|]. frame M.
  - left. eexists. split; [apply ds_write_empty; eassumption|]. exists buf, own. split; [reflexivity|]. split; [apply (AW w t (BW WDropped) E2)|]. split; [reflexivity|]. frame M.
  - left. eexists. split; [apply ds_add; eassumption|]. exists buf, own. split; [reflexivity|]. split; [apply (AW w t (BW (WLoad _)) E2)|]. split; [reflexivity|]. frame M.
  - left. eexists. split; [eapply ds_load_empty; eassumption|]. exists buf, own. split; [reflexivity|]. split; [apply (AW w t (BW _) E2)|]. split; [reflexivity|]. frame M.
  - left. eexists. split; [eapply ds_load_busy; eassumption|]. exists buf, own. split; [reflexivity|]. split; [apply (AW w t (BW _) E2)|]. split; [reflexivity|]. frame M.
  - left. eexists. split; [eapply ds_load_full; eassumption|]. exists buf, own. split; [reflexivity|]. split; [apply (AW w t (BW _) E2)|]. split; [reflexivity|]. frame M.
  - left. eexists. split; [eapply ds_cas; eassumption|]. exists buf, own. split; [reflexivity|]. split; [apply (AW w t (BW _) E2)|]. split; [reflexivity|]. frame M.
    cbn [with_lock d_lock] in *. rewrite zset_ne in FA, FB by (intros ->; rewrite zset_eq in FB; congruence). auto.
  - left. eexists. split; [eapply ds_cas_fail; eassumption|]. exists buf, own. split; [reflexivity|]. split; [apply (AW w t (BW _) E2)|]. split; [reflexivity|]. frame M.
  - (* ptr *) right. split; [reflexivity|]. exists buf, own. split; [reflexivity|]. split.
    { intros u. cbn [b_w]. ts; [rewrite E2, H; reflexivity|apply E2]. }
    split; [reflexivity|]. destruct M as [M1 M2 M3 M4 M5 M6 M7 M8 M9 M10 M11]. constructor; cbn [b_d b_m b_w b_r] in *; try assumption.
    + intros i Hi. apply M3. intros u us Hu. apply (Hi u). ts; [rewrite H in Hu; discriminate|exact Hu].
    + intros u us a Hu. ts; [injection Hu as <- <-; reflexivity|eapply M4; exact Hu].
    + intros u us a c done Hu. ts; [discriminate|eapply M5; exact Hu].
    + intros u us a c Hu. ts; [destruct Hu as [Hu|[Hu|Hu]]; discriminate|eapply M6; exact Hu].
    + intros u us a c Hu. ts; [destruct Hu as [Hu|Hu]; discriminate|eapply M7; exact Hu].
    + intros u us a c Hu. ts; [discriminate|eapply M8; exact Hu].
    + intros u H1 H2. ts; apply M9; congruence.
    + intros i [(u & us & H1 & H2)|F]; apply M10; [left; cbn [b_w b_d] in *; ts; [discriminate|eauto]|right; exact F].
  - (* room *) right. split; [reflexivity|]. exists buf, own. split; [reflexivity|]. split.
    { intros u. cbn [b_w]. ts; [rewrite E2, H; reflexivity|apply E2]. }
    split; [reflexivity|]. assert (HC := clean (BD d m w r) (slot d ts) t ts X ltac:(cbn; rewrite H; reflexivity) ltac:(cbn; rewrite H; reflexivity) eq_refl).
    destruct M as [M1 M2 M3 M4 M5 M6 M7 M8 M9 M10 M11]. pose proof (M3 _ HC) as [_ HO]. constructor; cbn [b_d b_m b_w b_r] in *; try assumption.
    + intros i Hi. apply M3. intros u us Hu. apply (Hi u). ts; [rewrite H in Hu; discriminate|exact Hu].
    + intros u us b Hu. ts; [discriminate|eapply M4; exact Hu].
    + intros u us b c done Hu. ts; [|eapply M5; exact Hu]. injection Hu as <- <- <- <-. rewrite (M4 _ _ _ H). assert (msg t <> []) by (apply M9; congruence). assert (CP : (0 < b_cap m (slot d ts))%nat) by (destruct (msg t); [congruence|cbn in *; lia]). split; [apply HO, CP|]. split; [split; [assumption|apply HO, CP]|intros j Hj; inversion Hj].
    + intros u us b c Hu. ts; [destruct Hu as [Hu|[Hu|Hu]]; discriminate|eapply M6; exact Hu].
    + intros u us b c Hu. ts; [destruct Hu as [Hu|Hu]; discriminate|eapply M7; exact Hu].
    + intros u us b c Hu. ts; [discriminate|eapply M8; exact Hu].
    + intros u H1 H2. ts; apply M9; congruence.
    + intros i [(u & us & H1 & H2)|F]; apply M10; [left; cbn [b_w b_d] in *; ts; [discriminate|eauto]|right; exact F].
  - (* grow *) right. split; [reflexivity|]. exists buf, (zset own (slot d ts) (Some (b_next m))). split; [reflexivity|]. split.
    { intros u. cbn [b_w]. ts; [rewrite E2, H; reflexivity|apply E2]. }
    split; [reflexivity|].
    assert (OTH : forall u us, u <> t -> holder (absw (w u)) = Some us -> slot d us <> slot d ts).
    { intros u us N Hu E. apply N. destruct X as [X1 _]. apply (X1 u t us ts Hu); [cbn; rewrite H; reflexivity|exact E]. }
    destruct M as [M1 M2 M3 M4 M5 M6 M7 M8 M9 M10 M11]. constructor; cbn [b_d b_m b_w b_r alloc b_ptr b_hlen b_cap b_mem b_size b_next] in *; try assumption.
    + intros i j b. unfold zset. destruct (Z.eqb_spec i (slot d ts)), (Z.eqb_spec j (slot d ts)); subst; intros A B; try reflexivity; [| |eapply M1; eassumption].
      * injection A as <-. apply M2 in B. lia.
      * injection B as <-. apply M2 in A. lia.
    + intros i b. unfold zset. destruct (Z.eqb_spec i (slot d ts)); intros A; [injection A as <-; lia|]. apply M2 in A. lia.
    + intros i Hi. assert (i <> slot d ts) by (intros ->; eapply (Hi t); [rewrite tset_eq|]; reflexivity). rewrite zset_ne by assumption. destruct (M3 i) as [Q1 Q2]; [intros u us Hu; apply (Hi u); ts; [rewrite H in Hu; discriminate|exact Hu]|]. split; [exact Q1|]. intros Q3. destruct (Q2 Q3) as [Q4 Q5]. split; [exact Q4|]. apply M2 in Q4. rewrite tset_ne by lia. exact Q5.
    + intros u us b Hu. ts; [discriminate|eapply M4; exact Hu].
    + intros u us b c' done Hu. destruct (decide (u = t)) as [->|]; [rewrite tset_eq in Hu; injection Hu as <- <- <- <-; rewrite zset_eq; split; [reflexivity|]; split; [rewrite tset_eq; lia|intros j Hj; inversion Hj]|]. rewrite (tset_ne w) in Hu by assumption.
      rewrite zset_ne by (apply (OTH u); [assumption|rewrite Hu; reflexivity]). destruct (M5 _ _ _ _ _ Hu) as (Q1 & Q2 & Q3). split; [exact Q1|]. apply M2 in Q1. rewrite tset_ne by lia. split; [exact Q2|exact Q3].
    + intros u us b c' Hu. destruct (decide (u = t)) as [->|]; [rewrite tset_eq in Hu; destruct Hu as [Hu|[Hu|Hu]]; discriminate|]. rewrite (tset_ne w) in Hu by assumption. rewrite zset_ne by (apply (OTH u); [assumption|destruct Hu as [Hu|[Hu|Hu]]; rewrite Hu; reflexivity]). destruct (M6 _ _ _ _ Hu) as (Q1 & Q2 & Q3). split; [exact Q1|]. apply M2 in Q1. rewrite tset_ne by lia. split; [exact Q2|exact Q3].
    + intros u us b c' Hu. ts; [destruct Hu as [Hu|Hu]; discriminate|eapply M7; exact Hu].
    + intros u us b c' Hu. ts; [discriminate|eapply M8; exact Hu].
    + intros u H1 H2. ts; apply M9; congruence.
    + intros i [(u & us & H1 & H2)|F]; apply M10; [left; cbn [b_w b_d] in *; ts; [discriminate|eauto]|right; exact F].
  - (* byte *) right. split; [reflexivity|]. exists buf, own. split; [reflexivity|]. split.
    { intros u. cbn [b_w]. ts; [rewrite E2, H; reflexivity|apply E2]. }
    split; [reflexivity|].
    assert (OTH : forall u us, u <> t -> holder (absw (w u)) = Some us -> slot d us <> slot d ts).
    { intros u us N Hu E. apply N. destruct X as [X1 _]. apply (X1 u t us ts Hu); [cbn; rewrite H; reflexivity|exact E]. }
    destruct (m_bytes _ _ _ _ M _ _ _ _ _ H) as (HO & HL & HD). cbn [b_d b_m] in *.
    assert (FR : forall i n, (forall u us, dirty (w u) = Some us -> slot d us <> i) -> slot d ts <> i -> (n <= b_hlen m i)%nat -> bytes (set_byte m a j (nth j (msg t) 0)) (b_ptr m i) n = bytes m (b_ptr m i) n).
    { intros i n C N L. exact (bytes_frame msg (BD d m w r) buf own i a j _ n (slot d ts) M C HO N L). }
    assert (FO : forall i b q, own i = Some b -> i <> slot d ts -> b_mem (set_byte m a j (nth j (msg t) 0)) b q = b_mem m b q).
    { intros i b q Hi N. cbn. destruct (decide (b = a /\ q = j)) as [[-> _]|]; [|reflexivity]. exfalso. apply N. exact (m_inj _ _ _ _ M _ _ _ Hi HO). }
    assert (FF : forall i, filled (BD d m w r) i -> content (set_byte m a j (nth j (msg t) 0)) i = content m i).
    { intros i F. unfold content. apply FR; [exact (filled_clean _ _ X F)| |lia]. eapply (not_filled (BD d m w r) t ts i X); [cbn; rewrite H; reflexivity|cbn; congruence|exact F]. }
    assert (FV : absr r = RView \/ absr r = REmpty -> forall n, (n <= b_hlen m (slot d (d_read d)))%nat -> bytes (set_byte m a j (nth j (msg t) 0)) (b_ptr m (slot d (d_read d))) n = bytes m (b_ptr m (slot d (d_read d))) n).
    { intros V n L. apply FR; [exact (view_clean (BD d m w r) X V)| |exact L]. apply (view_clean (BD d m w r) X V t). cbn. rewrite H. reflexivity. }
    destruct M as [M1 M2 M3 M4 M5 M6 M7 M8 M9 M10 M11]. constructor; cbn [b_d b_m b_w b_r] in *; try assumption.
    + intros i Hi. apply M3. intros u us Hu. destruct (decide (u = t)) as [->|]; [|apply (Hi u); rewrite tset_ne by assumption; exact Hu]. apply (Hi t). rewrite tset_eq. rewrite H in Hu. exact Hu.
    + intros u us b Hu. ts; [discriminate|eapply M4; exact Hu].
    + intros u us b c' done' Hu. ts; [injection Hu as <- <- <- <-; split; [exact HO|]; split; [exact HL|]|].
      * intros q Hq. cbn. destruct (decide (a = a /\ q = j)) as [[_ ->]|Nq]; [reflexivity|]. apply HD. apply elem_of_cons in Hq as [->|Hq]; [tauto|exact Hq].
      * destruct (M5 _ _ _ _ _ Hu) as (A & B & C). split; [exact A|]. split; [exact B|]. intros q Hq. rewrite (FO (slot d us)); [apply C; exact Hq|exact A|]. apply (OTH u); [assumption|rewrite Hu; reflexivity].
    + intros u us b c' Hu. ts; [destruct Hu as [Hu|[Hu|Hu]]; discriminate|]. destruct (M6 _ _ _ _ Hu) as (A & B & C). split; [exact A|]. split; [exact B|]. rewrite <- C at 2. apply bytes_ext. intros q _. apply (FO (slot d us)); [exact A|]. apply (OTH u); [assumption|destruct Hu as [Hu|[Hu|Hu]]; rewrite Hu; reflexivity].
    + intros u us b c' Hu. ts; [destruct Hu as [Hu|Hu]; discriminate|eapply M7; exact Hu].
    + intros u us b c' Hu. ts; [discriminate|eapply M8; exact Hu].
    + intros u H1 H2. ts; apply M9; congruence.
    + intros i F. assert (F' : filled (BD d m w r) i) by (destruct F as [(u & us & H1 & H2)|F]; [left; cbn [b_w b_d] in *; ts; [discriminate|eauto]|right; exact F]). rewrite FF by exact F'. apply M10. exact F'.
    + unfold rview in *. cbn [b_r b_m b_d] in *. destruct r as [| |b n got|]; try exact M11. cbn [b_ptr b_hlen set_byte] in *. destruct M11 as (-> & -> & L & G). split; [reflexivity|]. split; [reflexivity|]. split; [exact L|].
      rewrite G at 1. symmetry. apply FV; [left; reflexivity|exact L].
  - (* copied *) right. split; [reflexivity|]. exists buf, own. split; [reflexivity|]. split.
    { intros u. cbn [b_w]. ts; [rewrite E2, H; reflexivity|apply E2]. }
    split; [reflexivity|]. destruct M as [M1 M2 M3 M4 M5 M6 M7 M8 M9 M10 M11]. constructor; cbn [b_d b_m b_w b_r] in *; try assumption.
    + intros i Hi. apply M3. intros u us Hu. destruct (decide (u = t)) as [->|]; [|apply (Hi u); rewrite tset_ne by assumption; exact Hu]. apply (Hi t). rewrite tset_eq. rewrite H in Hu. exact Hu.
    + intros u us b Hu. ts; [discriminate|eapply M4; exact Hu].
    + intros u us b c' done' Hu. ts; [discriminate|eapply M5; exact Hu].
    + intros u us b c' Hu. ts; [|eapply M6; exact Hu]. destruct Hu as [Hu|[Hu|Hu]]; try discriminate. injection Hu as <- <- <-. destruct (M5 _ _ _ _ _ H) as (A & B & C). split; [exact A|]. split; [exact B|].
      apply bytes_nth. intros j Hj. apply C. auto.
    + intros u us b c' Hu. ts; [destruct Hu as [Hu|Hu]; discriminate|eapply M7; exact Hu].
    + intros u us b c' Hu. ts; [discriminate|eapply M8; exact Hu].
    + intros u H1 H2. ts; apply M9; congruence.
    + intros i [(u & us & H1 & H2)|F]; apply M10; [left; cbn [b_w b_d] in *; ts; [discriminate|eauto]|right; exact F].
  - (* head *) right. split; [reflexivity|]. exists buf, own. split; [reflexivity|]. split.
    { intros u. cbn [b_w]. ts; [rewrite E2, H; reflexivity|apply E2]. }
    split; [reflexivity|].
    assert (OTH : forall u us, u <> t -> holder (absw (w u)) = Some us -> slot d us <> slot d ts).
    { intros u us N Hu E. apply N. destruct X as [X1 _]. apply (X1 u t us ts Hu); [cbn; rewrite H; reflexivity|exact E]. }
    assert (VW : absr r = RView \/ absr r = REmpty -> slot d (d_read d) <> slot d ts) by (intros V E; apply (view_clean (BD d m w r) X V t ts); [cbn; rewrite H; reflexivity|auto]).
    assert (FF : forall i, filled (BD d m w r) i -> i <> slot d ts).
    { intros i F E. eapply (not_filled (BD d m w r) t ts i X); [cbn; rewrite H; reflexivity|cbn; congruence|exact F|auto]. }
    destruct M as [M1 M2 M3 M4 M5 M6 M7 M8 M9 M10 M11]. constructor; cbn [b_d b_m b_w b_r set_ptr b_ptr b_hlen b_cap b_mem b_next] in *; try assumption.
    + intros i Hi. assert (i <> slot d ts) by (intros ->; eapply (Hi t); [rewrite tset_eq|]; reflexivity). rewrite zset_ne by assumption. apply M3. intros u us Hu. destruct (decide (u = t)) as [->|]; [rewrite H in Hu; injection Hu as <-; auto|]. apply (Hi u). rewrite tset_ne by assumption. exact Hu.
    + intros u us b Hu. ts; [discriminate|]. rewrite zset_ne by (apply (OTH u); [assumption|rewrite Hu; reflexivity]). eapply M4; exact Hu.
    + intros u us b c' done' Hu. ts; [discriminate|eapply M5; exact Hu].
    + intros u us b c' Hu. ts; [|eapply M6; exact Hu]. destruct Hu as [Hu|[Hu|Hu]]; try discriminate. injection Hu as <- <- <-. eapply M6. left. exact H.
    + intros u us b c' Hu. ts; [destruct Hu as [Hu|Hu]; [injection Hu as <- <- <-; apply zset_eq|discriminate]|]. rewrite zset_ne by (apply (OTH u); [assumption|destruct Hu as [Hu|Hu]; rewrite Hu; reflexivity]). eapply M7; exact Hu.
    + intros u us b c' Hu. ts; [discriminate|eapply M8; exact Hu].
    + intros u H1 H2. ts; apply M9; congruence.
    + intros i F. assert (F' : filled (BD d m w r) i) by (destruct F as [(u & us & H1 & H2)|F]; [left; cbn [b_w b_d] in *; ts; [discriminate|eauto]|right; exact F]). rewrite <- (M10 i F'). unfold content. cbn. rewrite zset_ne by (apply FF; exact F'). reflexivity.
    + unfold rview in *. cbn [b_r b_m b_d set_ptr b_ptr b_hlen] in *. destruct r; try exact M11; rewrite zset_ne by (apply VW; cbn; auto); exact M11.
  - (* head1 *) right. split; [reflexivity|]. exists buf, own. split; [reflexivity|]. split.
    { intros u. cbn [b_w]. ts; [rewrite E2, H; reflexivity|apply E2]. }
    split; [reflexivity|].
    assert (OTH : forall u us, u <> t -> holder (absw (w u)) = Some us -> slot d us <> slot d ts).
    { intros u us N Hu E. apply N. destruct X as [X1 _]. apply (X1 u t us ts Hu); [cbn; rewrite H; reflexivity|exact E]. }
    assert (VW : absr r = RView \/ absr r = REmpty -> slot d (d_read d) <> slot d ts) by (intros V E; apply (view_clean (BD d m w r) X V t ts); [cbn; rewrite H; reflexivity|auto]).
    assert (FF : forall i, filled (BD d m w r) i -> i <> slot d ts).
    { intros i F E. eapply (not_filled (BD d m w r) t ts i X); [cbn; rewrite H; reflexivity|cbn; congruence|exact F|auto]. }
    destruct M as [M1 M2 M3 M4 M5 M6 M7 M8 M9 M10 M11]. constructor; cbn [b_d b_m b_w b_r set_hlen b_ptr b_hlen b_cap b_mem b_next] in *; try assumption.
    + intros i Hi. assert (i <> slot d ts) by (intros ->; eapply (Hi t); [rewrite tset_eq|]; reflexivity). rewrite zset_ne by assumption. apply M3. intros u us Hu. destruct (decide (u = t)) as [->|]; [rewrite H in Hu; injection Hu as <-; auto|]. apply (Hi u). rewrite tset_ne by assumption. exact Hu.
    + intros u us b Hu. ts; [discriminate|eapply M4; exact Hu].
    + intros u us b c' done' Hu. ts; [discriminate|eapply M5; exact Hu].
    + intros u us b c' Hu. ts; [|eapply M6; exact Hu]. destruct Hu as [Hu|[Hu|Hu]]; try discriminate. injection Hu as <- <- <-. eapply M6. right; left. exact H.
    + intros u us b c' Hu. ts; [destruct Hu as [Hu|Hu]; [discriminate|]; injection Hu as <- <- <-; eapply M7; left; exact H|]. eapply M7; exact Hu.
    + intros u us b c' Hu. ts; [injection Hu as <- <- <-; apply zset_eq|]. rewrite zset_ne by (apply (OTH u); [assumption|rewrite Hu; reflexivity]). eapply M8; exact Hu.
    + intros u H1 H2. ts; apply M9; congruence.
    + intros i F. assert (F' : filled (BD d m w r) i) by (destruct F as [(u & us & H1 & H2)|F]; [left; cbn [b_w b_d] in *; ts; [discriminate|eauto]|right; exact F]). rewrite <- (M10 i F'). unfold content. cbn. rewrite zset_ne by (apply FF; exact F'). reflexivity.
    + unfold rview in *. cbn [b_r b_m b_d set_hlen b_ptr b_hlen] in *. destruct r; try exact M11; rewrite zset_ne by (apply VW; cbn; auto); exact M11.
  - (* head2 *) left. pose proof (E2 t) as Et. rewrite H in Et. cbn [absw] in Et. eexists. split; [eapply ds_copy; exact Et|]. exists (zset buf (slot d ts) (msg t)), own. split; [reflexivity|]. split.
    { apply (AW w t (BW (WStore ts)) E2). }
    split; [reflexivity|].
    assert (OTH : forall u us, u <> t -> holder (absw (w u)) = Some us -> slot d us <> slot d ts).
    { intros u us N Hu E. apply N. destruct X as [X1 _]. apply (X1 u t us ts Hu); [cbn; rewrite H; reflexivity|exact E]. }
    assert (FF : forall i, filled (BD d m w r) i -> i <> slot d ts).
    { intros i F E. eapply (not_filled (BD d m w r) t ts i X); [cbn; rewrite H; reflexivity|cbn; congruence|exact F|auto]. }
    destruct M as [M1 M2 M3 M4 M5 M6 M7 M8 M9 M10 M11]. constructor; cbn [b_d b_m b_w b_r set_cap b_ptr b_hlen b_cap b_mem b_next] in *; try assumption.
    + intros i Hi. destruct (Z.eq_dec i (slot d ts)) as [->|N].
      * rewrite zset_eq. destruct (M6 _ _ _ _ (or_intror (or_intror H))) as (A & [B B'] & _). rewrite (M8 _ _ _ _ H), (M7 _ _ _ _ (or_intror H)). split; [exact B|]. intros _. split; [exact A|exact B'].
      * rewrite zset_ne by exact N. apply M3. intros u us Hu. destruct (decide (u = t)) as [->|]; [rewrite H in Hu; injection Hu as <-; auto|]. apply (Hi u). rewrite tset_ne by assumption. exact Hu.
    + intros u us b Hu. ts; [discriminate|eapply M4; exact Hu].
    + intros u us b c' done' Hu. ts; [discriminate|eapply M5; exact Hu].
    + intros u us b c' Hu. ts; [destruct Hu as [Hu|[Hu|Hu]]; discriminate|eapply M6; exact Hu].
    + intros u us b c' Hu. ts; [destruct Hu as [Hu|Hu]; discriminate|eapply M7; exact Hu].
    + intros u us b c' Hu. ts; [discriminate|eapply M8; exact Hu].
    + intros u H1 H2. ts; apply M9; congruence.
    + intros i F. destruct (Z.eq_dec i (slot d ts)) as [->|N].
      * rewrite zset_eq. unfold content. cbn. destruct (M6 _ _ _ _ (or_intror (or_intror H))) as (_ & _ & C). rewrite (M8 _ _ _ _ H), (M7 _ _ _ _ (or_intror H)). exact C.
      * rewrite zset_ne by exact N. apply M10. destruct F as [(u & us & H1 & H2)|F]; [left; cbn [b_w b_d] in *; ts; [injection H1 as <-; congruence|eauto]|right; exact F].
  - (* store *) left. eexists. split; [eapply ds_store; eassumption|]. exists buf, own. split; [reflexivity|]. split; [apply (AW w t (BW _) E2)|]. split; [reflexivity|].
    eapply (minv_frame msg); [exact M|reflexivity|reflexivity| | | |].
    + intros u; cbn [b_w]; ts; [right; split; eexists; [reflexivity|eassumption]|left; reflexivity].
    + intros u; cbn [b_w]; ts; intros; apply (m_some _ _ _ _ M); cbn [b_w]; congruence.
    + intros i [(u & us & H1 & H2)|(H1 & H2 & H3)]; cbn [b_w b_d b_r] in *; [ts; [discriminate|]; left; eauto|]. cbn [with_lock d_lock] in *. destruct (Z.eq_dec i (slot d ts)) as [->|N]; [left; eauto|]. rewrite zset_ne in H1, H2 by exact N. right. eauto.
    + exact (m_view _ _ _ _ M).
  - left. eexists. split; [eapply ds_len; eassumption|]. exists buf, own. split; [reflexivity|]. split; [apply (AW w t (BW _) E2)|]. split; [reflexivity|]. frame M.
  - left. eexists. split; [eapply ds_drop; eassumption|]. exists buf, own. split; [reflexivity|]. split; [apply (AW w t (BW _) E2)|]. split; [reflexivity|]. frame M.
  - left. eexists. split; [eapply ds_retry; eassumption|]. exists buf, own. split; [reflexivity|]. split; [apply (AW w t (BW _) E2)|]. split; [reflexivity|]. frame M.
  - (* none *) left. eexists. split; [apply ds_next_none; exact H|]. exists buf, own. split; [reflexivity|]. split; [exact E2|]. split; [reflexivity|exact M].
  - (* next *) left. eexists. split; [apply ds_next; exact H|]. exists buf, own. split; [reflexivity|]. split; [exact E2|]. split; [reflexivity|]. eapply (minv_frame msg); [exact M|reflexivity|reflexivity|auto|exact (m_some _ _ _ _ M)| |discriminate].
    intros i [F|(H1 & H2 & H3)]; [left; exact F|right]. split; [exact H1|]. split; [exact H2|]. discriminate.
  - (* found *) left. eexists. split; [apply ds_found; assumption|]. exists buf, own. split; [reflexivity|]. split; [exact E2|]. split; [reflexivity|]. eapply (minv_frame msg); [exact M|reflexivity|reflexivity|auto|exact (m_some _ _ _ _ M)| |discriminate].
    intros i [F|(H1 & H2 & H3)]; [left; exact F|right]. split; [exact H1|]. split; [exact H2|]. discriminate.
  - (* vptr *) right. split; [reflexivity|]. exists buf, own. split; [reflexivity|]. split; [exact E2|]. split; [reflexivity|]. eapply (minv_frame msg); [exact M|reflexivity|reflexivity|auto|exact (m_some _ _ _ _ M)| |reflexivity].
    intros i [F|(H1 & H2 & H3)]; [left; exact F|right]. split; [exact H1|]. split; [exact H2|]. discriminate.
  - (* vlen *) right. split; [reflexivity|]. exists buf, own. split; [reflexivity|]. split; [exact E2|]. split; [reflexivity|]. eapply (minv_frame msg); [exact M|reflexivity|reflexivity|auto|exact (m_some _ _ _ _ M)| |].
    + intros i [F|(H1 & H2 & H3)]; [left; exact F|right]. split; [exact H1|]. split; [exact H2|]. discriminate.
    + pose proof (m_view _ _ _ _ M) as V. cbn in *. split; [exact V|]. split; [reflexivity|]. split; [lia|reflexivity].
  - (* look *) right. split; [reflexivity|]. exists buf, own. split; [reflexivity|]. split; [exact E2|]. split; [reflexivity|]. eapply (minv_frame msg); [exact M|reflexivity|reflexivity|auto|exact (m_some _ _ _ _ M)| |].
    + intros i [F|(H1 & H2 & H3)]; [left; exact F|right]. split; [exact H1|]. split; [exact H2|]. discriminate.
    + pose proof (m_view _ _ _ _ M) as V. unfold rview in *. cbn [b_r b_m b_d] in *. destruct V as (V1 & V2 & V3 & V4). split; [exact V1|]. split; [exact V2|]. rewrite app_length. cbn [length]. split; [lia|]. rewrite Nat.add_1_r, <- bytes_snoc, <- V4. reflexivity.
  - (* seen *) left. pose proof (m_view _ _ _ _ M) as V. unfold rview in V. cbn [b_r b_m b_d] in V. destruct V as (V1 & V2 & V3 & V4).
    assert (FD : filled (BD d m w (BLook a n got)) (slot d (d_read d))).
    { right. destruct X as (_ & _ & X3). cbn in X3. destruct (X3 (or_introl eq_refl)) as [A B]. split; [exact A|]. split; [exact B|]. discriminate. }
    pose proof (m_full _ _ _ _ M _ FD) as C. unfold content in C. cbn [b_m] in C. rewrite <- V1, <- V2, <- H, <- V4 in C. exists (CD (with_buf d buf) wc REmpty). split.
    + rewrite C. apply (ds_view msg (with_buf d buf)).
    + exists buf, own. split; [reflexivity|]. split; [exact E2|]. split; [reflexivity|]. eapply (minv_frame msg); [exact M|reflexivity|reflexivity|auto|exact (m_some _ _ _ _ M)| |cbn; split; assumption].
      intros i [F|(H1 & H2 & H3)]; [left; exact F|right]. split; [exact H1|]. split; [exact H2|]. discriminate.
  - (* use *) right. split; [reflexivity|]. exists buf, own. split; [reflexivity|]. split; [exact E2|]. split; [reflexivity|].
    pose proof (m_view _ _ _ _ M) as V. unfold rview in V. cbn [b_r b_m b_d] in V. destruct V as (V1 & V2).
    assert (VC := view_clean (BD d m w (BUse a n)) X (or_intror eq_refl)). cbn [b_w b_d] in VC.
    destruct (m_hdr _ _ _ _ M _ VC) as [HL HO]. cbn [b_m] in HL, HO. destruct (HO ltac:(lia)) as [HO' _]. clear HO. rename HO' into HO. rewrite <- V1 in HO.
    assert (OTH : forall u us, holder (absw (w u)) = Some us -> slot d us <> slot d (d_read d)).
    { intros u us Hu E. destruct X as (_ & X2 & X3). cbn [b_d b_w b_r absr] in *. destruct (X3 (or_intror eq_refl)) as [_ B]. apply B. rewrite <- E. apply (X2 u). exact Hu. }
    assert (FO : forall i b q, own i = Some b -> i <> slot d (d_read d) -> b_mem (set_byte m a j v) b q = b_mem m b q).
    { intros i b q Hi N. cbn. destruct (decide (b = a /\ q = j)) as [[-> _]|]; [|reflexivity]. exfalso. apply N. exact (m_inj _ _ _ _ M _ _ _ Hi HO). }
    assert (FF : forall i, filled (BD d m w (BUse a n)) i -> content (set_byte m a j v) i = content m i).
    { intros i F. assert (N : slot d (d_read d) <> i).
      { destruct F as [(u & us & H1 & H2)|(_ & _ & F)]; cbn [b_w b_d b_r] in *; [intros E; apply (OTH u us); [rewrite H1; reflexivity|congruence]|intros E; exact (F _ _ eq_refl (eq_sym E))]. }
      unfold content. apply (bytes_frame msg (BD d m w (BUse a n)) buf own i a j v _ (slot d (d_read d)) M); [exact (filled_clean _ _ X F)|exact HO|exact N|cbn; lia]. }
    destruct M as [M1 M2 M3 M4 M5 M6 M7 M8 M9 M10 M11]. constructor; cbn [b_d b_m b_w b_r] in *; try assumption.
    + intros u us b c' done' Hu. destruct (M5 _ _ _ _ _ Hu) as (A & B & C). split; [exact A|]. split; [exact B|]. intros q Hq. rewrite (FO (slot d us)); [apply C; exact Hq|exact A|]. apply (OTH u). rewrite Hu. reflexivity.
    + intros u us b c' Hu. destruct (M6 _ _ _ _ Hu) as (A & B & C). split; [exact A|]. split; [exact B|]. rewrite <- C at 2. apply bytes_ext. intros q _. apply (FO (slot d us)); [exact A|]. apply (OTH u). destruct Hu as [Hu|[Hu|Hu]]; rewrite Hu; reflexivity.
    + intros i F. rewrite FF by exact F. apply M10. exact F.
  - (* empty *) left. eexists. split; [apply ds_empty|]. exists buf, own. split; [reflexivity|]. split; [exact E2|]. split; [reflexivity|]. eapply (minv_frame msg); [exact M|reflexivity|reflexivity|auto|exact (m_some _ _ _ _ M)| |discriminate].
    intros i [F|(H1 & H2 & H3)]; [left; exact F|right]. cbn [b_d b_r with_lock d_lock] in *. assert (N : i <> slot d (d_read d)) by (intros ->; rewrite zset_eq in H1; congruence). rewrite zset_ne in H1, H2 by exact N. split; [exact H1|]. split; [exact H2|]. intros; exact N.
  - (* dec *) left. eexists. split; [apply ds_dec|]. exists buf, own. split; [reflexivity|]. split; [exact E2|]. split; [reflexivity|]. eapply (minv_frame msg); [exact M|reflexivity|reflexivity|auto|exact (m_some _ _ _ _ M)| |discriminate].
    intros i [F|(H1 & H2 & H3)]; [left; exact F|right]. split; [exact H1|]. split; [exact H2|]. discriminate.
Qed.
End proofs.
