From Verif Require Import Base Conc PoolModel PoolProofs PoolMuModel.
Local Open Scope Z.

(** *** who is inside, and where *)
Inductive pos := PNone | PRun (t : nat) (q : rpos) | PGor (g : nat) (q : gpos) | PCol (q : cpos) | PWork (u : nat) (q : wpos).
Definition fpos (f : fstate) : pos :=
  match f_mu f with
  | None => PNone
  | Some (HRun t) => PRun t (f_run f t)
  | Some (HGor g) => PGor g (f_gor f g)
  | Some HCol => PCol (f_col f)
  | Some (HWork u) => PWork u (f_wk f u)
  end.
Definition tts (s : pstate) : list Z := map (p_tt s) (p_dobby s).

(** what is known at each place *)
Definition facts (p : pos) (s : pstate) : Prop :=
  match p with
  | PNone => True
  | PRun t q => p_job s t = JLock /\
      match q with
      | ROut => False
      | RChk => True
      | RLen => p_max s <> -1
      | RTake => p_max s <> -1 /\ p_dobby s <> []
      | RShrink w => p_max s <> -1 /\ exists d, p_dobby s = d ++ [w]
      | RCap => p_max s <> -1 /\ p_dobby s = []
      | RInc => p_max s <> -1 /\ p_dobby s = [] /\ p_workers s < p_max s
      | RGet | RMake _ => p_max s <> -1 /\ p_dobby s = [] /\ p_workers s - 1 < p_max s
      | RGo _ => p_gor s (p_ng s) = GNone
      | RSend _ => True
      | RFalse => p_max s = -1 \/ p_max s <> -1 /\ p_dobby s = [] /\ p_max s <= p_workers s
      end
  | PGor g q =>
      match q with
      | GOut => False
      | FChk => exists w c, p_gor s g = GLock w c
      | FDec => p_max s = -1 /\ exists w c, p_gor s g = GLock w c
      | FApp => p_max s <> -1 /\ exists w c, p_gor s g = GLock w c
      | FStop | FKeep => exists w c, p_gor s g = GLock w c
      | XDec | XUnl => p_gor s g = GExit
      end
  | PCol q =>
      match q with
      | COut | CTick => False
      | CChk => p_col s = CWait
      | CNow => p_col s = CWait /\ p_max s <> -1
      | CProbe _ l r => p_max s <> -1 /\ (l <= r <= length (p_dobby s))%nat
      | CBuf l | CCopy l _ | CTrunc l _ => (l <= length (p_dobby s))%nat
      | CUnl _ => True
      | CSMax => p_col s = CStop
      | CAll ws => p_max s = -1 /\ closable (p_obj s) (p_closed s) ws
      end
  | PWork u q => match q with WRead => True | WUnl n => n = p_workers s | _ => False end
  end.
(** how far the memory is ahead of the atomic state, or behind it *)
Definition dw (p : pos) : Z := match p with PRun _ RGet | PRun _ (RMake _) => 1 | _ => 0 end.
Definition dg (p : pos) : nat := match p with PRun _ (RGo _) => 1%nat | _ => 0%nat end.
Definition probed (s : pstate) (now : Z) (l r : nat) : nat := bsearch (r - l) (tts s) now l r.
Definition vd (p : pos) (s : pstate) : list nat :=
  match p with
  | PCol (CProbe now l r) => drop (probed s now l r) (p_dobby s)
  | PCol (CBuf l) | PCol (CCopy l _) => drop l (p_dobby s)
  | PCol (CTrunc l _) => take (length (p_dobby s) - l) (p_dobby s)
  | _ => p_dobby s
  end.
Definition vcol (p : pos) (s : pstate) : cpc :=
  match p with
  | PCol (CProbe now l r) => CDrain (take (probed s now l r) (p_dobby s))
  | PCol (CBuf l) => CDrain (take l (p_dobby s))
  | PCol (CCopy _ buf) | PCol (CTrunc _ buf) | PCol (CUnl buf) => CDrain buf
  | PCol (CAll _) => CDead
  | _ => p_col s
  end.
Definition xs (p : pos) : list nat := match p with PCol (CAll ws) => ws | _ => [] end.
Definition ovg (p : pos) (s : pstate) : option (nat * gpc) :=
  match p with
  | PRun _ (RGo w) => Some (p_ng s, GStart w)
  | PGor g FStop | PGor g XUnl => Some (g, GDone)
  | PGor g FKeep => match p_gor s g with GLock w c => Some (g, GRecv w c) | _ => None end
  | _ => None
  end.
Definition ovj (p : pos) : option (nat * jpc) :=
  match p with PRun t (RGo w) | PRun t (RSend w) => Some (t, JSend w) | _ => None end.
Definition ov {A} (o : option (nat * A)) (f : nat -> A) : nat -> A := match o with Some (i, x) => tset f i x | None => f end.
Definition prn (p : pos) (s a : pstate) : Prop :=
  match p with
  | PRun _ (RMake w) => (p_nobj s = S w /\ p_nobj a = w /\ p_pool a = p_pool s) \/
      (p_nobj a = p_nobj s /\ exists p1 p2, p_pool s = p1 ++ p2 /\ p_pool a = p1 ++ w :: p2)
  | _ => p_nobj a = p_nobj s /\ p_pool a = p_pool s
  end.

Record RelP (p : pos) (s a : pstate) : Prop := {
  e_facts : facts p s;
  e_max : p_max a = p_max s;
  e_stop : p_stop a = p_stop s;
  e_workers : p_workers a = p_workers s - dw p;
  e_dobby : p_dobby a = vd p s;
  e_prn : prn p s a;
  e_obj : forall w, p_obj a w = p_obj s w;
  e_tt : forall w, p_tt a w = p_tt s w;
  e_nch : p_nch a = p_nch s;
  e_ng : p_ng a = (p_ng s + dg p)%nat;
  e_buf : forall c, p_buf a c = p_buf s c;
  e_closed : forall c, p_closed a c = close_all (p_obj s) (xs p) (p_closed s) c;
  e_gor : forall g, p_gor a g = ov (ovg p s) (p_gor s) g;
  e_job : forall t, p_job a t = ov (ovj p) (p_job s) t;
  e_st : forall u, p_st a u = p_st s u;
  e_col : p_col a = vcol p s;
  e_clock : p_clock a = p_clock s;
  e_started : forall t, p_started a t = p_started s t }.

Lemma close_all_nil obj closed c : close_all obj [] closed c = closed c.
Proof. unfold close_all. cbn. apply orb_false_r. Qed.
Lemma ovg_pc p s g x : facts p s -> ovg p s = Some (g, x) -> p_gor s g = GNone \/ (exists w c, p_gor s g = GLock w c) \/ p_gor s g = GExit.
Proof.
  destruct p as [|t [] | h [] | |]; cbn; try discriminate.
  - intros [_ H] [= <- _]. left. exact H.
  - intros (w & c & H) [= <- _]. right. left. eauto.
  - intros (w & c & H). rewrite H. intros [= <- _]. right. left. eauto.
  - intros H [= <- _]. right. right. exact H.
Qed.
Lemma ovj_pc p s t x : facts p s -> ovj p = Some (t, x) -> p_job s t = JLock.
Proof. destruct p as [|u [] | | |]; cbn; try discriminate; intros [H _] [= <- _]; exact H. Qed.
Lemma gor_same p s a g : RelP p s a -> p_gor s g <> GNone -> (forall w c, p_gor s g <> GLock w c) -> p_gor s g <> GExit -> p_gor a g = p_gor s g.
Proof.
  intros R N1 N2 N3. rewrite (e_gor _ _ _ R). destruct (ovg p s) as [[h x]|] eqn:E; [|reflexivity]. cbn.
  rewrite tset_ne; [reflexivity|]. intros ->. destruct (ovg_pc p s h x (e_facts _ _ _ R) E) as [?|[(w & c & ?)|?]]; [tauto|eapply N2; eassumption|tauto].
Qed.
Lemma job_same p s a t : RelP p s a -> p_job s t <> JLock -> p_job a t = p_job s t.
Proof.
  intros R N. rewrite (e_job _ _ _ R). destruct (ovj p) as [[h x]|] eqn:E; [|reflexivity]. cbn.
  rewrite tset_ne; [reflexivity|]. intros ->. pose proof (ovj_pc p s h x (e_facts _ _ _ R) E). tauto.
Qed.
Lemma ov_tset {A} (o : option (nat * A)) (f f' : nat -> A) i x j :
  (forall k y, o = Some (k, y) -> k <> i) -> f j = ov o f' j -> tset f i x j = ov o (tset f' i x) j.
Proof.
  intros H E. destruct o as [[k y]|]; cbn in *; unfold tset in *; [|case_decide; [reflexivity|exact E]].
  specialize (H k y eq_refl). repeat case_decide; try congruence.
Qed.

(** *** steps outside the critical sections *)
Definition stable (p : gpc) : Prop := p = GNone \/ (exists w c, p = GLock w c) \/ p = GExit.
Record still (s s' : pstate) : Prop := {
  k_max : p_max s' = p_max s;
  k_dobby : p_dobby s' = p_dobby s;
  k_workers : p_workers s' = p_workers s;
  k_ng : p_ng s' = p_ng s;
  k_obj : p_obj s' = p_obj s;
  k_closed : p_closed s' = p_closed s;
  k_col : p_col s' = p_col s;
  k_job : forall t, p_job s t = JLock -> p_job s' t = JLock;
  k_gor : forall g, stable (p_gor s g) -> p_gor s' g = p_gor s g }.
Lemma facts_still p s s' : still s s' -> facts p s -> facts p s'.
Proof.
  intros K. destruct p as [|t q|g q|q|u q]; cbn [facts]; [tauto| | | |].
  - intros [H1 H2]. split; [apply (k_job _ _ K), H1|]. rewrite ?(k_max _ _ K), ?(k_dobby _ _ K), ?(k_workers _ _ K), ?(k_ng _ _ K).
    destruct q; try exact H2. rewrite (k_gor _ _ K); [exact H2|left; exact H2].
  - rewrite ?(k_max _ _ K). destruct q; try tauto.
    + intros (w & c & H). exists w, c. rewrite (k_gor _ _ K); [exact H|right; left; eauto].
    + intros (M & w & c & H). split; [exact M|]. exists w, c. rewrite (k_gor _ _ K); [exact H|right; left; eauto].
    + intros (w & c & H). exists w, c. rewrite (k_gor _ _ K); [exact H|right; left; eauto].
    + intros (M & w & c & H). split; [exact M|]. exists w, c. rewrite (k_gor _ _ K); [exact H|right; left; eauto].
    + intros (w & c & H). exists w, c. rewrite (k_gor _ _ K); [exact H|right; left; eauto].
    + intros H. rewrite (k_gor _ _ K); [exact H|right; right; exact H].
    + intros H. rewrite (k_gor _ _ K); [exact H|right; right; exact H].
  - rewrite ?(k_max _ _ K), ?(k_dobby _ _ K), ?(k_col _ _ K), ?(k_obj _ _ K), ?(k_closed _ _ K). tauto.
  - rewrite ?(k_workers _ _ K). tauto.
Qed.
Lemma ovg_still p s s' : still s s' -> facts p s -> ovg p s' = ovg p s.
Proof.
  intros K. destruct p as [|t [] |g []| |]; cbn; try reflexivity.
  - intros _. rewrite (k_ng _ _ K). reflexivity.
  - intros (w & c & H). rewrite (k_gor _ _ K); [reflexivity|right; left; eauto].
Qed.
Lemma vd_still p s s' : still s s' -> tts s' = tts s -> vd p s' = vd p s /\ vcol p s' = vcol p s.
Proof.
  intros K E. destruct p as [|t q|g q|[]|u q]; cbn; unfold probed; rewrite ?E, ?(k_dobby _ _ K), ?(k_col _ _ K); split; reflexivity.
Qed.
Lemma still_tts s s' : still s s' -> p_tt s' = p_tt s -> tts s' = tts s.
Proof. intros K E. unfold tts. rewrite E, (k_dobby _ _ K). reflexivity. Qed.

Lemma frame p s s' a a' : RelP p s a -> still s s' -> (tts s' = tts s \/ vd p s' = vd p s /\ vcol p s' = vcol p s) ->
  p_stop a' = p_stop s' -> p_max a' = p_max a -> p_workers a' = p_workers a -> p_dobby a' = p_dobby a ->
  p_pool s' = p_pool s -> p_nobj s' = p_nobj s -> p_pool a' = p_pool a -> p_nobj a' = p_nobj a -> p_obj a' = p_obj a ->
  (forall w, p_tt a' w = p_tt s' w) -> p_nch s' = p_nch s -> p_nch a' = p_nch a -> p_ng a' = p_ng a ->
  (forall c, p_buf a' c = p_buf s' c) -> p_closed a' = p_closed a ->
  (forall g, p_gor a' g = ov (ovg p s) (p_gor s') g) -> (forall t, p_job a' t = ov (ovj p) (p_job s') t) ->
  (forall u, p_st a' u = p_st s' u) -> p_col a' = p_col a -> p_clock a' = p_clock s' -> (forall t, p_started a' t = p_started s' t) ->
  RelP p s' a'.
Proof.
  intros R K V. intros. pose proof (facts_still p s s' K (e_facts _ _ _ R)) as F. pose proof (ovg_still p s s' K (e_facts _ _ _ R)) as G.
  assert (vd p s' = vd p s /\ vcol p s' = vcol p s) as [V1 V2]. { destruct V as [V|V]; [|exact V]. apply vd_still; assumption. }
  constructor; try assumption.
  - rewrite H0, (k_max _ _ K). apply R.
  - rewrite H1, (k_workers _ _ K). apply R.
  - rewrite H2, V1. apply R.
  - pose proof (e_prn _ _ _ R) as P. unfold prn in *. rewrite H3, H4, H5, H6. exact P.
  - intros w. rewrite H7, (k_obj _ _ K). apply R.
  - rewrite H10, H9. apply R.
  - rewrite H11, (k_ng _ _ K). apply R.
  - intros c. rewrite H13, (k_obj _ _ K), (k_closed _ _ K). apply R.
  - intros g. rewrite G. apply H14.
  - rewrite H17, V2. apply R.
Qed.

Section step.
Context (idle : Z).
Lemma gor_new p s a g x h : RelP p s a -> ~ stable (p_gor s g) -> tset (p_gor a) g x h = ov (ovg p s) (tset (p_gor s) g x) h.
Proof.
  intros R N. apply ov_tset; [|apply R]. intros k y E ->. apply N. exact (ovg_pc p s g y (e_facts _ _ _ R) E).
Qed.
Lemma job_new p s a t x h : RelP p s a -> p_job s t <> JLock -> tset (p_job a) t x h = ov (ovj p) (tset (p_job s) t x) h.
Proof.
  intros R N. apply ov_tset; [|apply R]. intros k y E ->. apply N. exact (ovj_pc p s t y (e_facts _ _ _ R) E).
Qed.
Lemma gor_eq p s a g : RelP p s a -> ~ stable (p_gor s g) -> p_gor a g = p_gor s g.
Proof. intros R N. apply (gor_same p s a g R); unfold stable in N; firstorder. Qed.
Lemma stable_ne q : match q with GNone | GLock _ _ | GExit => False | _ => True end -> ~ stable q.
Proof. intros H [->|[(w & c & ->)| ->]]; exact H. Qed.
Lemma tset_ext {A} (f f' : nat -> A) i x j : f j = f' j -> tset f i x j = tset f' i x j.
Proof. unfold tset. case_decide; congruence. Qed.
Lemma closed_mono p s a c : RelP p s a -> p_closed s c = true -> p_closed a c = true.
Proof. intros R H. rewrite (e_closed _ _ _ R). apply close_all_true. left. exact H. Qed.
Lemma bsearch_fuel fuel fuel' l0 now l r : (r - l <= fuel)%nat -> (r - l <= fuel')%nat -> bsearch fuel l0 now l r = bsearch fuel' l0 now l r.
Proof.
  revert fuel' l r. induction fuel as [|fuel IH]; intros [|fuel'] l r H H'; cbn [bsearch]; try reflexivity.
  - rewrite decide_False by lia. reflexivity.
  - rewrite decide_False by lia. reflexivity.
  - case_decide as D; [|reflexivity]. pose proof (Nat.div_lt_upper_bound (l + r) 2 r ltac:(lia) ltac:(lia)) as B. pose proof (Nat.div_le_lower_bound (l + r) 2 l ltac:(lia) ltac:(lia)) as B'.
    destruct (nth _ _ _ <? now); apply IH; lia.
Qed.
Lemma bsearch_range fuel l0 now l r : (l <= r)%nat -> (l <= bsearch fuel l0 now l r <= r)%nat.
Proof.
  revert l r. induction fuel as [|fuel IH]; intros l r H; cbn [bsearch]; [lia|].
  case_decide as D; [|lia]. pose proof (Nat.div_lt_upper_bound (l + r) 2 r ltac:(lia) ltac:(lia)) as B. pose proof (Nat.div_le_lower_bound (l + r) 2 l ltac:(lia) ltac:(lia)) as B'.
  destruct (nth _ _ _ <? now); [pose proof (IH (S (Nat.div (l + r) 2)) r ltac:(lia))|pose proof (IH l (Nat.div (l + r) 2) ltac:(lia))]; lia.
Qed.
Lemma map_tset_notin (f : nat -> Z) w x d : w ∉ d -> map (tset f w x) d = map f d.
Proof.
  induction d as [|v d IH]; intros H; [reflexivity|]. cbn. rewrite not_elem_of_cons in H. rewrite IH by tauto. rewrite tset_ne by (intros ->; tauto). reflexivity.
Qed.
Lemma tt_view p s a g w c s' : RelP p s a -> pinv a -> p_gor s g = GFree w c -> still s s' -> p_tt s' = tset (p_tt s) w (p_clock s) ->
  tts s' = tts s \/ vd p s' = vd p s /\ vcol p s' = vcol p s.
Proof.
  intros R A E K T. destruct p as [|t q|h q|[]|u q]; try (right; cbn; rewrite ?(k_dobby _ _ K), ?(k_col _ _ K); split; reflexivity).
  left. unfold tts. rewrite T, (k_dobby _ _ K). apply map_tset_notin. intros Hw.
  assert (p_gor a g = GFree w c) as Ea. { rewrite (gor_eq _ _ _ g R); [exact E|rewrite E; apply stable_ne; exact I]. }
  assert (p_own a w = OWork g) as O. { apply (a_work a A). exists c. rewrite Ea. reflexivity. }
  destruct (e_facts _ _ _ R) as [M _]. pose proof (e_dobby _ _ _ R) as D. pose proof (e_col _ _ _ R) as C. cbn in D, C.
  rewrite <- (take_drop (probed s now l r) (p_dobby s)) in Hw. apply elem_of_app in Hw as [Hw|Hw].
  - assert (p_own a w = OCol) by (apply (a_col a A); rewrite C; exact Hw). congruence.
  - rewrite <- D in Hw. apply (a_dobby a A) in Hw; [congruence|]. rewrite (e_max _ _ _ R). exact M.
Qed.

Ltac st := constructor; cbn; try reflexivity; intros; try assumption;
  try (rewrite tset_ne; [first [reflexivity|assumption]|intros ->; first [congruence|
    match goal with H : stable (p_gor _ _) |- False => revert H; match goal with E : p_gor _ _ = _ |- _ => rewrite E end; apply stable_ne; exact I end]]).
Lemma out_sim p s a l s' : RelP p s a -> pinv a -> o_step s l s' -> exists a', p_step idle a l a' /\ RelP p s' a'.
Proof.
  intros R A H. destruct H.
  - eexists. split; [apply (ps_clock idle a x); rewrite (e_clock _ _ _ R); assumption|].
    eapply (frame p s); try exact R; cbn; try reflexivity; try apply R; [st|left; reflexivity].
  - assert (p_job a t = JIdle) as E by (rewrite (job_same _ _ _ t R) by congruence; assumption).
    eexists. split; [apply (ps_call idle a t E)|].
    eapply (frame p s); try exact R; cbn; try reflexivity; try apply R; [|left; reflexivity|].
    + st.
    + intros u. apply job_new; [exact R|congruence].
  - assert (p_job a t = JSend w) as E by (rewrite (job_same _ _ _ t R) by congruence; assumption).
    assert (p_own a w = ORun t) as O by (apply (a_run a A); exact E).
    destruct (a_open a A w ltac:(rewrite O; reflexivity)) as (c' & E1 & E2).
    assert (c' = c) as -> by (rewrite (e_obj _ _ _ R) in E1; congruence).
    eexists. split; [apply (ps_send idle a t w c E E1 E2); rewrite (e_buf _ _ _ R); assumption|].
    eapply (frame p s); try exact R; cbn; try reflexivity; try apply R; [st|left; reflexivity| |].
    + intros c0. apply tset_ext, R.
    + intros u. apply job_new; [exact R|congruence].
  - assert (p_job a t = JSend w) as E by (rewrite (job_same _ _ _ t R) by congruence; assumption).
    eexists. split; [apply (ps_send_closed idle a t w c E); [rewrite (e_obj _ _ _ R); assumption|eapply closed_mono; eassumption]|].
    eapply (frame p s); try exact R; cbn; try reflexivity; try apply R; [st|left; reflexivity|].
    intros u. apply job_new; [exact R|congruence].
  - assert (~ stable (p_gor s g)) as N by (rewrite H; apply stable_ne; exact I).
    assert (p_gor a g = GStart w) as E by (rewrite (gor_eq _ _ _ g R N); assumption).
    eexists. split; [apply (ps_start idle a g w c E); rewrite (e_obj _ _ _ R); assumption|].
    eapply (frame p s); try exact R; cbn; try reflexivity; try apply R; [st|left; reflexivity|].
    intros u. apply gor_new; assumption.
  - assert (~ stable (p_gor s g)) as N by (rewrite H; apply stable_ne; exact I).
    assert (p_gor a g = GStart w) as E by (rewrite (gor_eq _ _ _ g R N); assumption).
    eexists. split; [apply (ps_start_nil idle a g w E); rewrite (e_obj _ _ _ R); assumption|].
    eapply (frame p s); try exact R; cbn; try reflexivity; try apply R; [st|left; reflexivity|].
    intros u. apply gor_new; assumption.
  - assert (~ stable (p_gor s g)) as N by (rewrite H; apply stable_ne; exact I).
    assert (p_gor a g = GRecv w c) as E by (rewrite (gor_eq _ _ _ g R N); assumption).
    eexists. split; [apply (ps_recv idle a g w c t E); rewrite (e_buf _ _ _ R); assumption|].
    eapply (frame p s); try exact R; cbn; try reflexivity; try apply R; [st|left; reflexivity| | |].
    + intros c0. apply tset_ext, R.
    + intros u. apply gor_new; assumption.
    + intros u. rewrite (e_started _ _ _ R t). apply tset_ext, R.
  - assert (~ stable (p_gor s g)) as N by (rewrite H; apply stable_ne; exact I).
    assert (p_gor a g = GRecv w c) as E by (rewrite (gor_eq _ _ _ g R N); assumption).
    eexists. split; [apply (ps_range_end idle a g w c E); [rewrite (e_buf _ _ _ R); assumption|eapply closed_mono; eassumption]|].
    eapply (frame p s); try exact R; cbn; try reflexivity; try apply R; [st|left; reflexivity|].
    intros u. apply gor_new; assumption.
  - assert (~ stable (p_gor s g)) as N by (rewrite H; apply stable_ne; exact I).
    assert (p_gor a g = GHandle w c t) as E by (rewrite (gor_eq _ _ _ g R N); assumption).
    eexists. split; [apply (ps_handled idle a g w c t E)|].
    eapply (frame p s); try exact R; cbn; try reflexivity; try apply R; [st|left; reflexivity|].
    intros u. apply gor_new; assumption.
  - assert (~ stable (p_gor s g)) as N by (rewrite H; apply stable_ne; exact I).
    assert (p_gor a g = GFree w c) as E by (rewrite (gor_eq _ _ _ g R N); assumption).
    assert (still s (set_gor (tset (p_gor s) g (GLock w c)) (set_tt (tset (p_tt s) w (p_clock s)) s))) as K by st.
    pose proof (tt_view p s a g w c _ R A H K eq_refl) as V.
    eexists. split; [apply (ps_tt idle a g w c E)|].
    eapply (frame p s); try exact R; cbn; try reflexivity; try apply R; [exact K|exact V| |].
    + intros v. rewrite (e_clock _ _ _ R). apply tset_ext, R.
    + intros u. apply gor_new; assumption.
  - eexists. split; [apply (ps_stop_call idle a u); rewrite (e_st _ _ _ R); assumption|].
    eapply (frame p s); try exact R; cbn; try reflexivity; try apply R; [st|left; reflexivity|].
    intros v. rewrite (e_stop _ _ _ R). apply tset_ext, R.
  - eexists. split; [apply (ps_stop_again idle a u); rewrite (e_st _ _ _ R); assumption|].
    eapply (frame p s); try exact R; cbn; try reflexivity; try apply R; [st|left; reflexivity|].
    intros v. rewrite (e_stop _ _ _ R). apply tset_ext, R.
  - eexists. split; [apply (ps_stop_nil idle a u); rewrite (e_st _ _ _ R); assumption|].
    eapply (frame p s); try exact R; cbn; try reflexivity; try apply R; [st|left; reflexivity|].
    intros v. apply tset_ext, R.
Qed.

(** *** the collector's steps outside *)
Definition nocol (p : pos) : Prop := match p with PCol _ => False | _ => True end.
Lemma nocol_vd p s : nocol p -> vd p s = p_dobby s /\ vcol p s = p_col s /\ xs p = [].
Proof. destruct p as [| | |q|]; cbn; tauto. Qed.
Lemma facts_nocol p s s' : nocol p -> p_max s' = p_max s -> p_dobby s' = p_dobby s -> p_workers s' = p_workers s -> p_ng s' = p_ng s ->
  p_job s' = p_job s -> p_gor s' = p_gor s -> facts p s -> facts p s'.
Proof. intros N E1 E2 E3 E4 E5 E6. destruct p as [|t q|g q|q|u q]; cbn in *; rewrite ?E1, ?E2, ?E3, ?E4, ?E5, ?E6; tauto. Qed.
Lemma ovg_nocol p s s' : p_ng s' = p_ng s -> p_gor s' = p_gor s -> ovg p s' = ovg p s.
Proof. intros E1 E2. destruct p as [|t []|g []|q|u q]; cbn; rewrite ?E1, ?E2; reflexivity. Qed.
Lemma frame_col p s s' a a' : nocol p -> RelP p s a ->
  p_max s' = p_max s -> p_dobby s' = p_dobby s -> p_workers s' = p_workers s -> p_ng s' = p_ng s -> p_job s' = p_job s -> p_gor s' = p_gor s ->
  p_max a' = p_max a -> p_dobby a' = p_dobby a -> p_workers a' = p_workers a -> p_ng a' = p_ng a -> p_job a' = p_job a -> p_gor a' = p_gor a ->
  p_stop a' = p_stop s' -> prn p s' a' -> (forall w, p_obj a' w = p_obj s' w) -> (forall w, p_tt a' w = p_tt s' w) -> p_nch a' = p_nch s' ->
  (forall c, p_buf a' c = p_buf s' c) -> (forall c, p_closed a' c = p_closed s' c) -> (forall u, p_st a' u = p_st s' u) -> p_col a' = p_col s' ->
  p_clock a' = p_clock s' -> (forall t, p_started a' t = p_started s' t) -> RelP p s' a'.
Proof.
  intros N R. intros. destruct (nocol_vd p s N) as (V1 & V2 & V3). destruct (nocol_vd p s' N) as (W1 & W2 & _).
  constructor; try assumption.
  - eapply facts_nocol; try eassumption. apply R.
  - rewrite H5, H. apply R.
  - rewrite H7, H1. apply R.
  - rewrite W1, H0, H6, (e_dobby _ _ _ R). exact V1.
  - rewrite H8, H2. apply R.
  - intros c. rewrite V3, close_all_nil. apply H17.
  - intros g. rewrite H10, (ovg_nocol p s s') by assumption. rewrite H4. apply R.
  - intros t. rewrite H9, H3. apply R.
  - rewrite W2. assumption.
Qed.
Lemma prn_same p s s' a a' : p_pool s' = p_pool s -> p_nobj s' = p_nobj s -> p_pool a' = p_pool a -> p_nobj a' = p_nobj a -> prn p s a -> prn p s' a'.
Proof. intros E1 E2 E3 E4. unfold prn. rewrite E1, E2, E3, E4. tauto. Qed.
Lemma oc_sim p s a l s' : nocol p -> RelP p s a -> oc_step s l s' -> exists a', p_step idle a l a' /\ RelP p s' a'.
Proof.
  intros N R H. destruct (nocol_vd p s N) as (V1 & V2 & V3). pose proof (e_col _ _ _ R) as C. rewrite V2 in C.
  assert (forall c, p_closed a c = p_closed s c) as Cl. { intros c. rewrite (e_closed _ _ _ R), V3. apply close_all_nil. }
  destruct H.
  - eexists. split; [apply (ps_close idle a w ws c); [congruence|rewrite (e_obj _ _ _ R); assumption|rewrite Cl; assumption]|].
    eapply (frame_col p s); try exact N; try exact R; cbn; try reflexivity; try apply R. { intros c0. apply tset_ext, Cl. }
  - eexists. split; [apply (ps_close_panic idle a w ws); [congruence|]|].
    { intros c. rewrite (e_obj _ _ _ R), Cl. auto. }
    eapply (frame_col p s); try exact N; try exact R; cbn; try reflexivity; try apply R. exact Cl.
  - eexists. split; [apply (ps_nil idle a w ws); congruence|].
    eapply (frame_col p s); try exact N; try exact R; cbn; try reflexivity; try apply R; try exact Cl.
    + intros v. apply tset_ext, R.
    + intros v. apply tset_ext, R.
  - eexists. split; [apply (ps_put idle a w ws); congruence|].
    eapply (frame_col p s); try exact N; try exact R; cbn; try reflexivity; try apply R; try exact Cl.
    pose proof (e_prn _ _ _ R) as P. unfold prn in *. cbn.
    assert (p_nobj a = p_nobj s /\ p_pool a = p_pool s -> p_nobj a = p_nobj s /\ w :: p_pool a = w :: p_pool s) as Same by (intros [? ->]; tauto).
    destruct p as [|t []| | |]; try (apply Same; exact P).
    destruct P as [(P1 & P2 & P3)|(P1 & p1 & p2 & P2 & P3)]; [left; rewrite P3; tauto|right; split; [exact P1|]].
    exists (w :: p1), p2. rewrite P2, P3. split; reflexivity.
  - eexists. split; [apply (ps_drained idle a); congruence|].
    eapply (frame_col p s); try exact N; try exact R; cbn; try reflexivity; try apply R; try exact Cl.
  - eexists. split; [apply (ps_meet idle a u); [congruence|rewrite (e_st _ _ _ R); assumption]|].
    eapply (frame_col p s); try exact N; try exact R; cbn; try reflexivity; try apply R; try exact Cl.
    intros v. apply tset_ext, R.
Qed.

(** *** the sections: one step of the holder, at most one step of the atomic model *)
Definition osteps (a : pstate) (a' : pstate) : Prop := a' = a \/ p_step idle a LPTau a'.
Ltac pw R := try (intros; solve [reflexivity|apply R|rewrite ?(e_gor _ _ _ R), ?(e_job _ _ _ R); reflexivity]).
Lemma r_sim t q s a s' q' : RelP (PRun t q) s a -> pinv a -> r_step t s q s' q' -> exists a', osteps a a' /\ RelP (PRun t q') s' a'.
Proof.
  intros R A H. pose proof (e_facts _ _ _ R) as F. cbn in F.
  pose proof (e_workers _ _ _ R) as W. pose proof (e_dobby _ _ _ R) as D. pose proof (e_col _ _ _ R) as C. pose proof (e_ng _ _ _ R) as NG. cbn in W, D, C, NG.
  pose proof (e_closed _ _ _ R) as Cl. pose proof (e_gor _ _ _ R) as G. pose proof (e_job _ _ _ R) as J. pose proof (e_prn _ _ _ R) as P. cbn in Cl, G, J, P. pose proof (e_max _ _ _ R) as M.
  destruct H; cbn in F, W, D, NG, G, J, P.
  - exists a. split; [left; reflexivity|]. constructor; cbn; try apply R; try assumption. split; [tauto|]. left. assumption.
  - exists a. split; [left; reflexivity|]. constructor; cbn; try apply R; try assumption. split; tauto.
  - exists a. split; [left; reflexivity|]. constructor; cbn; try apply R; try assumption. tauto.
  - exists a. split; [left; reflexivity|]. constructor; cbn; try apply R; try assumption. tauto.
  - exists a. split; [left; reflexivity|]. constructor; cbn; try apply R; try assumption. split; [tauto|]. split; [tauto|]. eauto.
  - destruct F as (F1 & F2 & d' & F3). rewrite F3 in H. apply app_inj_tail in H as [<- <-].
    eexists. split; [right; apply (ps_pop idle a t d' w); [rewrite J; exact F1|congruence|congruence]|].
    constructor; cbn; try apply R; try assumption; try tauto. intros u. apply tset_ext, J.
  - exists a. split; [left; reflexivity|]. constructor; cbn; try apply R; try assumption. tauto.
  - exists a. split; [left; reflexivity|]. constructor; cbn; try apply R; try assumption. tauto.
  - exists a. split; [left; reflexivity|]. constructor; cbn; try apply R; try assumption; [|lia]. split; [tauto|]. split; [tauto|]. split; [tauto|]. lia.
  - exists a. split; [left; reflexivity|]. constructor; cbn; try apply R; try assumption. left. split; [reflexivity|tauto].
  - exists a. split; [left; reflexivity|]. constructor; cbn; try apply R; try assumption. right. split; [tauto|]. exists p1, p2. split; [reflexivity|]. destruct P as [_ ->]. assumption.
  - destruct F as (F1 & F2 & F3 & F4).
    assert (forall v w0, tset (p_obj a) v (Some (p_nch a)) w0 = tset (p_obj s) v (Some (p_nch s)) w0) as Ob.
    { intros v w0. rewrite (e_nch _ _ _ R). apply tset_ext, R. }
    assert (p_gor s (p_ng s) = GNone) as GN. { rewrite <- G. apply (a_gor a A). lia. }
    destruct P as [(P1 & P2 & P3)|(P1 & p1 & p2 & P2 & P3)].
    + eexists. split; [right; apply (ps_new idle a t); [rewrite J; exact F1|congruence|congruence|rewrite W, M; lia]|].
      rewrite P2. constructor; cbn; try apply R; try assumption; try tauto; try lia; try congruence.
      * split; [lia|exact P3].
      * rewrite (e_nch _ _ _ R). reflexivity.
      * intros g. rewrite NG, Nat.add_0_r. apply tset_ext, G.
      * intros u. apply tset_ext, J.
    + eexists. split; [right; apply (ps_recycled idle a t p1 w p2); [rewrite J; exact F1|congruence|congruence|rewrite W, M; lia|exact P3]|].
      constructor; cbn; try apply R; try assumption; try tauto; try lia; try congruence.
      * split; [lia|congruence].
      * rewrite (e_nch _ _ _ R). reflexivity.
      * intros g. rewrite NG, Nat.add_0_r. apply tset_ext, G.
      * intros u. apply tset_ext, J.
  - exists a. split; [left; reflexivity|]. constructor; cbn; try apply R; try assumption; try tauto; lia.
Qed.
Lemma g_sim g q s a s' q' : RelP (PGor g q) s a -> pinv a -> g_step g s q s' q' -> exists a', osteps a a' /\ RelP (PGor g q') s' a'.
Proof.
  intros R A H. pose proof (e_facts _ _ _ R) as F. cbn in F.
  pose proof (e_workers _ _ _ R) as W. pose proof (e_dobby _ _ _ R) as D. pose proof (e_col _ _ _ R) as C. pose proof (e_ng _ _ _ R) as NG. cbn in W, D, C, NG.
  pose proof (e_closed _ _ _ R) as Cl. pose proof (e_gor _ _ _ R) as G. pose proof (e_job _ _ _ R) as J. pose proof (e_prn _ _ _ R) as P. cbn in Cl, G, J, P. pose proof (e_max _ _ _ R) as M.
  destruct H; cbn in F, W, D, NG, G, J, P.
  - exists a. split; [left; reflexivity|]. constructor; cbn; try apply R; try assumption. split; assumption.
  - exists a. split; [left; reflexivity|]. constructor; cbn; try apply R; try assumption. split; assumption.
  - destruct F as (F1 & w & c & F2).
    eexists. split; [right; apply (ps_free_stop idle a g w c); [rewrite G; exact F2|congruence]|].
    constructor; cbn; try apply R; try assumption; eauto; try lia. intros u. apply tset_ext, G.
  - destruct F as (F1 & _). eexists. split; [right; apply (ps_free idle a g w c); [rewrite G; assumption|congruence]|].
    constructor; cbn; try apply R; try assumption; eauto; try congruence. intros u. rewrite H. apply tset_ext, G.
  - eexists. split; [right; apply (ps_exit idle a g); rewrite G; assumption|].
    constructor; cbn; try apply R; try assumption; eauto; try lia. intros u. apply tset_ext, G.
Qed.
Lemma closable_cons obj closed w ws : closable obj closed (w :: ws) -> exists c, obj w = Some c /\ closed c = false /\ closable obj (tset closed c true) ws.
Proof.
  intros [N H]. destruct (H w ltac:(left)) as (c & E1 & E2 & E3). exists c. split; [exact E1|]. split; [exact E2|]. inversion N; subst. split; [assumption|].
  intros v Hv. destruct (H v ltac:(right; exact Hv)) as (c' & F1 & F2 & F3). exists c'. split; [exact F1|]. split.
  - rewrite tset_ne; [exact F2|]. intros ->. assert (v = w) as -> by (apply E3; [right; exact Hv|exact F1]). tauto.
  - intros w' Hw'. apply F3. right. exact Hw'.
Qed.
Lemma close_all_cons obj closed w ws c x : obj w = Some c -> close_all obj (w :: ws) closed x = close_all obj ws (tset closed c true) x.
Proof.
  intros E. unfold close_all. cbn. rewrite E. unfold tset. case_decide as D; [rewrite D, Nat.eqb_refl, orb_true_r; reflexivity|].
  apply Nat.eqb_neq in D. rewrite D. reflexivity.
Qed.
Lemma c_sim q s a s' q' : RelP (PCol q) s a -> pinv a -> c_step idle s q s' q' -> exists a', osteps a a' /\ RelP (PCol q') s' a'.
Proof.
  intros R A H. pose proof (e_facts _ _ _ R) as F. cbn in F.
  pose proof (e_workers _ _ _ R) as W. pose proof (e_dobby _ _ _ R) as D. pose proof (e_col _ _ _ R) as C. pose proof (e_ng _ _ _ R) as NG. cbn in W, D, C, NG.
  pose proof (e_closed _ _ _ R) as Cl. pose proof (e_gor _ _ _ R) as G. pose proof (e_job _ _ _ R) as J. pose proof (e_prn _ _ _ R) as P. cbn in Cl, G, J, P. pose proof (e_max _ _ _ R) as M.
  destruct H; cbn in F, W, D, C, NG, G, J, P, Cl.
  - exfalso. rewrite F in C. assert (p_col a = CDead) by (apply (a_max a A); congruence). congruence.
  - exists a. split; [left; reflexivity|]. constructor; cbn; try apply R; try assumption. split; assumption.
  - destruct F as (F1 & F2).
    eexists. split; [right; eapply (ps_tick idle a); [congruence|congruence|reflexivity]|].
    assert (map (p_tt a) (p_dobby a) = tts s) as T. { unfold tts. rewrite D. apply map_ext. apply R. }
    rewrite T, (e_clock _ _ _ R).
    assert (length (tts s) = length (p_dobby s)) as L by (unfold tts; apply map_length).
    case_decide as Z0.
    + assert (collect_count (tts s) (p_clock s - idle) = 0%nat) as -> by (unfold tts; rewrite Z0; reflexivity).
      constructor; cbn; try apply R; try assumption. all: try reflexivity; exact I.
    + constructor; cbn; try apply R; try assumption.
      * split; [assumption|lia].
      * unfold probed, collect_count. rewrite L, Nat.sub_0_r, D. reflexivity.
      * unfold probed, collect_count. rewrite L, Nat.sub_0_r, D. reflexivity.
  - destruct F as (F1 & F2). exists a. split; [left; reflexivity|].
    pose proof (Nat.div_lt_upper_bound (l + r) 2 r ltac:(lia) ltac:(lia)) as B. pose proof (Nat.div_le_lower_bound (l + r) 2 l ltac:(lia) ltac:(lia)) as B'.
    assert (probed s now l r = if nth m (map (p_tt s) (p_dobby s)) 0 <? now then probed s now (S m) r else probed s now l m) as E.
    { unfold probed. replace (r - l)%nat with (S (r - l - 1)) by lia. cbn [bsearch]. rewrite decide_True by assumption. subst m. fold (tts s).
      destruct (nth (Nat.div (l + r) 2) (tts s) 0 <? now); apply bsearch_fuel; lia. }
    rewrite E in D, C. destruct (nth m (map (p_tt s) (p_dobby s)) 0 <? now); (constructor; cbn; try apply R; try assumption; split; [assumption|lia]).
  - destruct F as (F1 & F2). exists a. split; [left; reflexivity|].
    assert (probed s now l r = l) as E. { unfold probed. replace (r - l)%nat with 0%nat by lia. reflexivity. }
    rewrite E in D, C. constructor; cbn; try apply R; try assumption. lia.
  - exists a. split; [left; reflexivity|]. constructor; cbn; try apply R; try assumption.
  - exists a. split; [left; reflexivity|]. constructor; cbn; try apply R; try assumption.
    + rewrite app_length, !drop_length. lia.
    + rewrite D, app_length, !drop_length, take_app_alt; [reflexivity|]. rewrite drop_length. lia.
  - exists a. split; [left; reflexivity|]. constructor; cbn; try apply R; try assumption. exact I.
  - assert (p_max a <> -1) as Hm. { intros E. apply (a_max a A) in E. congruence. }
    pose proof (dobby_closable a A Hm) as K.
    eexists. split; [right; apply (ps_stop idle a); [congruence|exact K]|].
    constructor; cbn; try apply R; try assumption; try reflexivity.
    + split; [reflexivity|]. rewrite <- D. destruct K as [K1 K2]. split; [exact K1|]. intros w Hw. destruct (K2 w Hw) as (c & E1 & E2 & E3). exists c.
      rewrite <- (e_obj _ _ _ R). split; [exact E1|]. split; [|intros w' H' E; rewrite <- (e_obj _ _ _ R) in E; exact (E3 w' H' E)].
      rewrite Cl, close_all_nil in E2. exact E2.
    + intros c. unfold close_all. rewrite Cl, close_all_nil, D. f_equal. clear - R. induction (p_dobby s) as [|w ws IH]; [reflexivity|]. cbn. rewrite IH, (e_obj _ _ _ R). reflexivity.
  - destruct F as (F1 & F2). exists a. split; [left; reflexivity|].
    destruct (closable_cons _ _ _ _ F2) as (c' & E1 & E2 & E3). assert (c' = c) as -> by congruence.
    constructor; cbn; try apply R; try assumption; [split; assumption|]. intros x. rewrite Cl. apply close_all_cons. assumption.
  - exfalso. destruct F as (F1 & F2). destruct (closable_cons _ _ _ _ F2) as (c' & E1 & E2 & E3). rewrite (H c' E1) in E2. discriminate.
Qed.
End step.

(** *** the two models together *)
Record excl (f : fstate) : Prop := {
  x_run : forall t, f_run f t = ROut \/ f_mu f = Some (HRun t);
  x_gor : forall g, f_gor f g = GOut \/ f_mu f = Some (HGor g);
  x_col : (f_col f = COut \/ f_col f = CTick) \/ f_mu f = Some HCol;
  x_wk : forall u, (f_wk f u = WOut \/ f_wk f u = WLock) \/ f_mu f = Some (HWork u);
  x_tick : f_col f = CTick -> p_col (f_s f) = CWait }.
Definition Rel (f : fstate) (a : pstate) : Prop := excl f /\ RelP (fpos f) (f_s f) a.
(** what can be seen from outside: calls, returns, beginnings and ends of the handler *)
Definition seen (l : plab) : list plab := match l with LPTau => [] | _ => [l] end.
Definition seen_all (tr : list plab) : list plab := concat (map seen tr).
Definition fseen (l : flab) : list plab := match l with FL l => seen l | FWorkers _ _ => [] end.
Definition fseen_all (tr : list flab) : list plab := concat (map fseen tr).

Section sim.
Context (idle : Z).
Lemma r_step_pos t s q s' q' : r_step t s q s' q' -> q <> ROut /\ q' <> ROut /\ p_col s' = p_col s.
Proof. intros H. destruct H; cbn; (split; [discriminate|split; [discriminate|reflexivity]]). Qed.
Lemma g_step_pos t s q s' q' : g_step t s q s' q' -> q <> GOut /\ q' <> GOut /\ p_col s' = p_col s.
Proof. intros H. destruct H; cbn; (split; [discriminate|split; [discriminate|reflexivity]]). Qed.
Lemma c_step_pos s q s' q' : c_step idle s q s' q' -> q <> COut /\ q <> CTick /\ q' <> CTick.
Proof. intros H. destruct H; (split; [discriminate|split; [discriminate|]]); try discriminate; [case_decide|destruct (_ <? _)]; discriminate. Qed.
Lemma o_step_col s l s' : o_step s l s' -> p_col s' = p_col s.
Proof. intros H. destruct H; reflexivity. Qed.

Lemma rel_init maxw n t0 clock : Rel (f_init maxw n t0 clock) (p_init maxw n t0 clock).
Proof.
  split.
  - constructor; cbn; auto.
  - constructor; cbn; auto; try lia.
Qed.
Definition sim_to (f' : fstate) (a : pstate) (l : list plab) : Prop :=
  exists ls a', steps (p_step idle) a ls a' /\ seen_all ls = l /\ Rel f' a'.
Lemma sim_0 f' a : Rel f' a -> sim_to f' a [].
Proof. intros H. exists [], a. split; [constructor|]. split; [reflexivity|exact H]. Qed.
Lemma sim_1 f' a a' l : p_step idle a l a' -> Rel f' a' -> sim_to f' a (seen l).
Proof. intros H R. exists [l], a'. split; [eapply (steps_cons _ _ _ _ []); [exact H|constructor]|]. split; [unfold seen_all; cbn; apply app_nil_r|exact R]. Qed.
Lemma sim_o f' a a' : osteps idle a a' -> Rel f' a' -> sim_to f' a [].
Proof. intros [->|H] R; [apply sim_0; exact R|]. apply (sim_1 f' a a' LPTau H R). Qed.

Lemma all_out s fr fg fc fw : excl (FS s None fr fg fc fw) -> (forall t, fr t = ROut) /\ (forall g, fg g = GOut) /\ (fc = COut \/ fc = CTick) /\ forall u, fw u = WOut \/ fw u = WLock.
Proof.
  intros X. split; [|split; [|split]].
  - intros t. destruct (x_run _ X t) as [H|H]; [exact H|discriminate].
  - intros t. destruct (x_gor _ X t) as [H|H]; [exact H|discriminate].
  - destruct (x_col _ X) as [H|H]; [exact H|discriminate].
  - intros t. destruct (x_wk _ X t) as [H|H]; [exact H|discriminate].
Qed.
Ltac xx X := constructor; cbn; intros;
  repeat match goal with |- context [tset _ ?t _ ?u] => destruct (decide (u = t)) as [->|]; [rewrite tset_eq|rewrite tset_ne by assumption] end;
  try solve [tauto|eauto|congruence|match goal with E : _ = CTick |- _ => exact (x_tick _ X E) end|
    match goal with t : nat |- _ => destruct (x_run _ X t) as [?|?]; cbn in *; first [tauto|congruence] end|
    match goal with t : nat |- _ => destruct (x_gor _ X t) as [?|?]; cbn in *; first [tauto|congruence] end|
    match goal with t : nat |- _ => destruct (x_wk _ X t) as [?|?]; cbn in *; first [tauto|congruence] end|
    destruct (x_col _ X) as [?|?]; cbn in *; first [tauto|congruence]].

Lemma sim_step f a l f' : Rel f a -> pinv a -> f_step idle f l f' -> sim_to f' a (fseen l).
Proof.
  intros [X R] A H. destruct H.
  - destruct (out_sim idle _ _ _ _ _ R A H) as (a' & H1 & H2). eapply sim_1; [exact H1|]. split; [|exact H2].
    xx X. rewrite (o_step_col _ _ _ H). exact (x_tick _ X H0).
  - assert (nocol (fpos (FS s mu fr fg COut fw))) as N. { pose proof (e_facts _ _ _ R) as F. unfold fpos in *. cbn in *. destruct mu as [[]|]; cbn in *; tauto. }
    destruct (oc_sim idle _ _ _ _ _ N R H) as (a' & H1 & H2). eapply sim_1; [exact H1|]. split; [|exact H2]. xx X.
  - destruct (all_out _ _ _ _ _ X) as (O1 & O2 & O3 & O4). apply sim_0. split; [xx X|].
    unfold fpos in *. cbn in *. rewrite ?tset_eq. constructor; cbn; try apply R. split; [assumption|exact I].
  - destruct (r_step_pos _ _ _ _ _ H) as (N1 & N2 & N3). destruct (x_run _ X t) as [E|E]; [cbn in E; tauto|]. cbn in E. subst mu.
    destruct (r_sim idle _ _ _ _ _ _ R A H) as (a' & H1 & H2). eapply sim_o; [exact H1|]. split; [xx X; match goal with E : _ = CTick |- _ => rewrite N3; exact (x_tick _ X E) end|].
    unfold fpos. cbn [f_mu f_run f_gor f_col f_wk]. rewrite tset_eq. exact H2.
  - destruct (x_run _ X t) as [E|E]; [cbn in E; congruence|]. cbn in E. subst mu. unfold fpos in R. cbn in R. rewrite H in R.
    apply sim_0. split; [xx X|]. constructor; cbn; try apply R; try exact I.
  - destruct (x_run _ X t) as [E|E]; [cbn in E; congruence|]. cbn in E. subst mu. unfold fpos in R. cbn in R. rewrite H in R.
    assert (p_step idle a (LRet t false) (set_job (tset (p_job a) t (JRet false)) a)) as P.
    { destruct (e_facts _ _ _ R) as (J & F). pose proof (e_workers _ _ _ R) as W. pose proof (e_dobby _ _ _ R) as D. pose proof (e_max _ _ _ R) as M. cbn in W, D.
      assert (p_job a t = JLock) as J' by (rewrite (e_job _ _ _ R); exact J).
      destruct F as [F|(F1 & F2 & F3)]; [apply ps_stopped; [exact J'|congruence]|apply ps_full; [exact J'|congruence|congruence|lia]]. }
    eapply sim_1; [exact P|]. split; [xx X|]. constructor; cbn; try apply R; try exact I. intros u. apply tset_ext, R.
  - destruct (all_out _ _ _ _ _ X) as (O1 & O2 & O3 & O4). apply sim_0. split; [xx X|].
    unfold fpos in *. cbn in *. rewrite ?tset_eq. constructor; cbn; try apply R. eauto.
  - destruct (all_out _ _ _ _ _ X) as (O1 & O2 & O3 & O4). apply sim_0. split; [xx X|].
    unfold fpos in *. cbn in *. rewrite ?tset_eq. constructor; cbn; try apply R. eauto.
  - destruct (g_step_pos _ _ _ _ _ H) as (N1 & N2 & N3). destruct (x_gor _ X g) as [E|E]; [cbn in E; tauto|]. cbn in E. subst mu.
    destruct (g_sim idle _ _ _ _ _ _ R A H) as (a' & H1 & H2). eapply sim_o; [exact H1|]. split; [xx X; match goal with E : _ = CTick |- _ => rewrite N3; exact (x_tick _ X E) end|].
    unfold fpos. cbn [f_mu f_run f_gor f_col f_wk]. rewrite tset_eq. exact H2.
  - destruct (x_gor _ X g) as [E|E]; [cbn in E; congruence|]. cbn in E. subst mu. unfold fpos in R. cbn in R. rewrite H in R.
    apply sim_0. split; [xx X|]. constructor; cbn; try apply R; try exact I. intros u. rewrite (e_gor _ _ _ R). cbn. rewrite H0. reflexivity.
  - destruct (x_gor _ X g) as [E|E]; [cbn in E; destruct H; congruence|]. cbn in E. subst mu. unfold fpos in R. cbn in R.
    apply sim_0. split; [xx X|]. destruct H as [H|H]; rewrite H in R; (constructor; cbn; try apply R; try exact I).
  - assert (mu <> Some HCol) as N. { intros ->. apply (e_facts _ _ _ R). }
    apply sim_0. split; [xx X|]. unfold fpos in *. cbn in *. destruct mu as [[]|]; try exact R. tauto.
  - destruct (all_out _ _ _ _ _ X) as (O1 & O2 & O3 & O4). apply sim_0. split; [xx X|].
    unfold fpos in *. cbn in *. constructor; cbn; try apply R. apply X. reflexivity.
  - destruct (all_out _ _ _ _ _ X) as (O1 & O2 & O3 & O4). apply sim_0. split; [xx X|].
    unfold fpos in *. cbn in *. constructor; cbn; try apply R. assumption.
  - destruct (c_step_pos _ _ _ _ H) as (N1 & N2 & N3). destruct (x_col _ X) as [E|E]; [cbn in E; tauto|]. cbn in E. subst mu.
    destruct (c_sim idle _ _ _ _ _ R A H) as (a' & H1 & H2). eapply sim_o; [exact H1|]. split; [xx X|exact H2].
  - destruct (x_col _ X) as [E|E]; [cbn in E; destruct E; discriminate|]. cbn in E. subst mu.
    apply sim_0. split; [xx X|]. constructor; cbn; try apply R; try exact I.
  - destruct (x_col _ X) as [E|E]; [cbn in E; destruct E; discriminate|]. cbn in E. subst mu.
    apply sim_0. split; [xx X|]. constructor; cbn; try apply R; try exact I.
  - assert (mu <> Some (HWork u)) as N. { intros ->. pose proof (e_facts _ _ _ R) as F. cbn in F. rewrite H in F. exact F. }
    apply sim_0. split; [xx X|]. unfold fpos in *. cbn in *. destruct mu as [[]|]; try exact R. rewrite tset_ne by congruence. exact R.
  - destruct (all_out _ _ _ _ _ X) as (O1 & O2 & O3 & O4). apply sim_0. split; [xx X|].
    unfold fpos in *. cbn in *. rewrite ?tset_eq. constructor; cbn; try apply R; try exact I.
  - destruct (x_wk _ X u) as [E|E]; [cbn in E; destruct E; congruence|]. cbn in E. subst mu. unfold fpos in R. cbn in R. rewrite H in R.
    apply sim_0. split; [xx X|]. unfold fpos. cbn [f_mu f_run f_gor f_col f_wk]. rewrite tset_eq. constructor; cbn; try apply R. reflexivity.
  - destruct (x_wk _ X u) as [E|E]; [cbn in E; destruct E; congruence|]. cbn in E. subst mu. unfold fpos in R. cbn in R. rewrite H in R.
    apply sim_0. split; [xx X|]. unfold fpos. cbn. constructor; cbn; try apply R; try exact I.
Qed.
End sim.
