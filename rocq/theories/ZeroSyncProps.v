(** A syncmapx.Map and a Sleeper declared with var (C169). *)
From stdpp Require Import gmap.
From Verif Require Import Base Conc Lin SyncMapModel SyncMapProofs ZeroSyncModel.

Section Map.
Context (K V : Type) `{Countable K} (zero : V).
Local Notation lab := (option (lev (mop K V) (mret K V)) + nat)%type.
(** the steps of the calls, the panics aside *)
Definition calls (ls : list lab) : list (option (lev (mop K V) (mret K V))) := omap (fun l => match l with inl e => Some e | inr _ => None end) ls.
Definition panics (ls : list lab) : list nat := omap (fun l => match l with inl _ => None | inr t => Some t end) ls.

Lemma calls_snoc ls l : calls (ls ++ [l]) = calls ls ++ match l with inl e => [e] | inr _ => [] end.
Proof. unfold calls. rewrite omap_app. destruct l; reflexivity. Qed.

(** Whatever a zero Map does other than panic is what a Map made by New does: C47 applies. *)
Theorem syncmap_zero_as_new :
  forall ls (s : zmap K V), steps (zm_step zero) zm_zero ls s ->
    steps (m_step zero) m_new (calls ls) (z_s s).
Proof.
  apply (steps_trace_invariant zm_zero (zm_step zero) (fun ls s => steps (m_step zero) m_new (calls ls) (z_s s))); [constructor|].
  intros ls s l s' _ IH HS. rewrite calls_snoc. destruct HS; cbn [z_s] in *; [eapply steps_snoc; eassumption|rewrite app_nil_r; exact IH].
Qed.

Record zminv (ls : list lab) (s : zmap K V) : Prop := {
  zv_nil : z_nil s = true <-> forall t r, Some (Lin t MClear r) ∉ calls ls;
  zv_set : z_nil s = true -> forall t k v r, Some (Lin t (MSet k v) r) ∉ calls ls;
  zv_writing : z_nil s = true -> forall t k v, m_th (z_s s) t <> MWriting (MSet k v);
  zv_dead : forall t, z_dead s = Some t -> z_nil s = true /\ exists k v, m_th (z_s s) t = MHold (MSet k v);
  zv_panics : panics ls = match z_dead s with Some t => [t] | None => [] end }.

Lemma keeps e : keeps_nil (K:=K) (V:=V) e = true <-> forall t r, e <> Some (Lin t MClear r).
Proof.
  destruct e as [[|t o r|]|]; cbn; try (split; [congruence|reflexivity]). destruct o; cbn; try (split; [congruence|reflexivity]).
  split; [discriminate|intros E; exfalso; exact (E t r eq_refl)].
Qed.

(** what a step of the map with a Set in the way does *)
Lemma step_writing (s s' : mstate K V) e t k v : m_step zero s e s' -> m_th s' t = MWriting (MSet k v) ->
  m_th s t = MWriting (MSet k v) \/ m_th s t = MHold (MSet k v).
Proof.
  intros HS E. destruct HS; cbn [m_th] in *;
    repeat match type of E with tset ?th ?a ?p ?b = _ => destruct (tset_cases th a p b) as [[-> X]|[_ X]]; rewrite X in E; clear X end;
    try (left; exact E); try discriminate. injection E as ->. right. assumption.
Qed.
Lemma step_lin_set (s s' : mstate K V) t k v r : m_step zero s (Some (Lin t (MSet k v) r)) s' -> m_th s t = MWriting (MSet k v).
Proof.
  intros HS. inversion HS; subst; cbn [m_th] in *; try assumption; cbn in *; discriminate.
Qed.

Lemma zminv_steps ls s : steps (zm_step zero) zm_zero ls s -> zminv ls s.
Proof.
  apply (steps_trace_invariant zm_zero (zm_step zero) (fun ls s => zminv ls s)).
  - constructor; cbn.
    + split; [intros _ t r Hin; inversion Hin|reflexivity].
    + intros _ t k v r Hin. inversion Hin.
    + discriminate.
    + discriminate.
    + reflexivity.
  - clear. intros ls s l s' HR [I1 I2 I3 I4 I5] HS. destruct HS as [b d s e s' HS Hb|s t k v E]; cbn [z_nil z_dead z_s] in *.
    + assert (HP : panics (ls ++ [inl e]) = panics ls) by (unfold panics; rewrite omap_app; cbn; apply app_nil_r).
      constructor; rewrite ?calls_snoc, ?HP; cbn [z_nil z_dead z_s].
      * rewrite andb_true_iff, keeps, I1. split.
        -- intros [A B] t r. rewrite not_elem_of_app, elem_of_list_singleton. split; [apply A|]. intros X. exact (B t r (eq_sym X)).
        -- intros A. split; intros t r; specialize (A t r); rewrite not_elem_of_app, elem_of_list_singleton in A; destruct A as [A B]; [exact A|congruence].
      * intros [-> Hk]%andb_true_iff t k v r. rewrite not_elem_of_app, elem_of_list_singleton. split; [apply I2; reflexivity|].
        intros <-. exact (I3 eq_refl t k v (step_lin_set _ _ _ _ _ _ HS)).
      * intros [-> Hk]%andb_true_iff t k v E. destruct (step_writing _ _ _ _ _ _ HS E) as [W|W]; [exact (I3 eq_refl t k v W)|].
        rewrite (Hb eq_refl t k v W) in E. discriminate.
      * intros t Ed. destruct (I4 t Ed) as [-> (k & v & E)]. split; [|exists k, v; apply (Hb eq_refl), E].
        cbn [andb]. apply keeps. intros u r ->.
        (* a Clear cannot be in the middle of its write: t has the lock *)
        pose proof (syncmap_zero_as_new _ _ HR) as R. apply minv_steps in R. cbn [z_s] in R.
        assert (W : m_th s u = MWriting MClear) by (inversion HS; subst; cbn [m_th] in *; try assumption; cbn in *; discriminate).
        assert (A : m_writer s = Some t) by (apply (iv_w _ _ _ R); rewrite E; reflexivity).
        assert (B : m_writer s = Some u) by (apply (iv_w _ _ _ R); rewrite W; exact I).
        assert (u = t) by congruence. subst u. congruence.
      * exact I5.
    + assert (HP : panics (ls ++ [inr t]) = panics ls ++ [t]) by (unfold panics; rewrite omap_app; reflexivity).
      constructor; rewrite ?calls_snoc, ?app_nil_r, ?HP; cbn [z_nil z_dead z_s]; auto.
      * intros t' [= <-]. split; [reflexivity|]. exists k, v. exact E.
      * rewrite I5. reflexivity.
Qed.

(** A Set takes effect only after some Clear has. *)
Theorem syncmap_zero_set_after_clear :
  forall ls (s : zmap K V), steps (zm_step zero) zm_zero ls s ->
    forall t k v r, Some (Lin t (MSet k v) r) ∈ calls ls -> exists u r', Some (Lin u MClear r') ∈ calls ls.
Proof.
  intros ls s HS t k v r Hin. pose proof (zminv_steps ls s HS) as I. destruct (z_nil s) eqn:E.
  - exfalso. exact (zv_set _ _ I E t k v r Hin).
  - assert (X : ~ forall t r, Some (Lin t MClear r) ∉ calls ls) by (rewrite <- (zv_nil _ _ I); congruence).
    clear -X. revert X. generalize (calls ls). induction l as [|e l IH]; intros X; [exfalso; apply X; intros ? ? Hin; inversion Hin|].
    destruct (keeps_nil e) eqn:Ke.
    + destruct IH as (u & r' & Hin); [|exists u, r'; right; exact Hin]. intros A. apply X. intros t r. rewrite not_elem_of_cons. split; [|apply A].
      intros E. rewrite keeps in Ke. exact (Ke t r (eq_sym E)).
    + destruct e as [[|u o r'|]|]; try discriminate. destruct o; try discriminate. exists u, r'. left.
Qed.
(** Before that, a Set that has the lock can do nothing but panic, *)
Theorem syncmap_zero_set_panics :
  forall ls (s : zmap K V) t k v, steps (zm_step zero) zm_zero ls s ->
    (forall u r, Some (Lin u MClear r) ∉ calls ls) -> m_th (z_s s) t = MHold (MSet k v) ->
    (forall l s', zm_step zero s l s' -> m_th (z_s s') t = MHold (MSet k v)) /\
    (z_dead s = Some t \/ exists s', zm_step zero s (inr t) s').
Proof.
  intros ls s t k v HS HC E. pose proof (zminv_steps ls s HS) as I. pose proof (proj2 (zv_nil _ _ I) HC) as Hn.
  pose proof (syncmap_zero_as_new _ _ HS) as R. apply minv_steps in R. destruct s as [b d s]. cbn [z_nil z_dead z_s] in *. subst b. split.
  - intros l s' H'. inversion H'; subst; cbn [z_s] in *; auto.
  - destruct d as [u|]; [left|right; eexists; econstructor; exact E]. destruct (zv_dead _ _ I u eq_refl) as (_ & k' & v' & E').
    assert (A : m_writer s = Some t) by (apply (iv_w _ _ _ R); cbn [z_s] in *; rewrite E; reflexivity).
    assert (B : m_writer s = Some u) by (apply (iv_w _ _ _ R); cbn [z_s] in *; rewrite E'; reflexivity). cbn. congruence.
Qed.
(** and then the lock is held for ever: no call takes effect any more, and none that was
    still waiting for the lock gets it. *)
Theorem syncmap_zero_blocked :
  forall ls (s s' : zmap K V) t l, steps (zm_step zero) zm_zero ls s -> inr t ∈ ls -> zm_step zero s l s' ->
    (forall u o r, l <> inl (Some (Lin u o r))) /\ (forall u, l <> inr u) /\
    (forall u o, m_th (z_s s) u = MWant o -> m_th (z_s s') u = MWant o).
Proof.
  intros ls s s' t l HS Ht Hl. pose proof (zminv_steps ls s HS) as I. pose proof (syncmap_zero_as_new _ _ HS) as R. apply minv_steps in R.
  assert (D : z_dead s = Some t).
  { assert (P : t ∈ panics ls) by (unfold panics; apply elem_of_list_omap; exists (inr t); split; [exact Ht|reflexivity]).
    rewrite (zv_panics _ _ I) in P. destruct (z_dead s) as [u|]; [|inversion P]. apply elem_of_list_singleton in P. congruence. }
  destruct (zv_dead _ _ I t D) as (Hn & k & v & E). destruct (writer_alone _ _ _ t R ltac:(rewrite E; reflexivity)) as [Hr Ho].
  assert (W : m_writer (z_s s) = Some t) by (apply (iv_w _ _ _ R); rewrite E; reflexivity).
  destruct Hl as [b d s e s' HS' Hb|s u k' v' E']; cbn [z_nil z_dead z_s] in *; [|discriminate]. subst b d. specialize (Hb eq_refl t k v E).
  split; [|split; [discriminate|]].
  - intros u o r [= ->]. assert (X : hw (m_th s u) \/ hr (m_th s u)).
    { inversion HS'; subst; cbn [m_th] in *.
      - right. match goal with Y : th u = _, Z : read_result _ _ _ = Some _ |- _ => destruct (read_not_write _ _ _ _ Z) as [X _]; rewrite Y end. exact X.
      - right. match goal with Y : th u = _ |- _ => rewrite Y end. exact Logic.I.
      - left. match goal with Y : th u = _ |- _ => rewrite Y end. exact Logic.I. }
    destruct (decide (u = t)) as [->|Hu]; [|destruct (Ho u Hu); tauto].
    inversion HS'; subst; cbn [m_th] in *; try congruence. rewrite tset_eq in Hb. discriminate.
  - intros u o Eu. destruct HS'; cbn [m_th m_writer] in *; try discriminate W; try exact Eu;
      match goal with |- tset ?th ?a ?p u = _ => destruct (tset_cases th a p u) as [[-> X]|[_ X]]; rewrite X; [congruence|exact Eu] end.
Qed.
End Map.
Print Assumptions syncmap_zero_as_new.
Print Assumptions syncmap_zero_set_after_clear.
Print Assumptions syncmap_zero_set_panics.
Print Assumptions syncmap_zero_blocked.
(** a Set before any Clear; then a Get waits for ever *)
Example syncmap_zero_case :
  exists s, steps (zm_step (K:=nat) (V:=nat) 0) zm_zero
    [inl (Some (Inv 0 (MHas 3))); inl None; inl (Some (Lin 0 (MHas 3) (RetB false))); inl None; inl (Some (Inv 1 (MSet 3 4))); inl None; inr 1; inl (Some (Inv 2 (MGet 3)))] s /\
    m_th (z_s s) 1 = MHold (MSet 3 4) /\ m_th (z_s s) 2 = MWant (MGet 3).
Proof.
  assert (C : forall a b c d e f g h (s0 s1 s2 s3 s4 s5 s6 s7 s8 : zmap nat nat), zm_step 0 s0 a s1 -> zm_step 0 s1 b s2 -> zm_step 0 s2 c s3 ->
    zm_step 0 s3 d s4 -> zm_step 0 s4 e s5 -> zm_step 0 s5 f s6 -> zm_step 0 s6 g s7 -> zm_step 0 s7 h s8 -> steps (zm_step 0) s0 [a; b; c; d; e; f; g; h] s8).
  { intros. repeat (eapply steps_cons; [eassumption|]). constructor. }
  eexists. split.
  - eapply C.
    + apply zm_run; [apply ms_call; reflexivity|]. intros _ t k v X. discriminate X.
    + apply zm_run; [apply ms_rlock with (t := 0) (o := MHas 3); reflexivity|]. cbn. intros _ t k v X. unfold tset in *. repeat case_decide; try discriminate; assumption.
    + apply zm_run; [apply ms_read with (t := 0) (o := MHas 3); reflexivity|]. cbn. intros _ t k v X. unfold tset in *. repeat case_decide; try discriminate; assumption.
    + apply zm_run; [apply ms_runlock with (t := 0) (o := MHas 3) (r := RetB false); reflexivity|]. cbn. intros _ t k v X. unfold tset in *. repeat case_decide; try discriminate; assumption.
    + apply zm_run; [apply ms_call; reflexivity|]. cbn. intros _ t k v X. unfold tset in *. repeat case_decide; try discriminate; assumption.
    + apply zm_run; [apply ms_lock with (t := 1) (o := MSet 3 4); reflexivity|]. cbn. intros _ t k v X. unfold tset in *. repeat case_decide; try discriminate; assumption.
    + apply zm_panic with (k := 3) (v := 4). reflexivity.
    + apply zm_run; [apply ms_call; reflexivity|]. cbn. intros _ t k v X. unfold tset in *. repeat case_decide; try discriminate; subst; try assumption; discriminate.
  - split; reflexivity.
Qed.

(** *** Sleeper: Sleep* and Wakeup answer false or panic, never true; slept says that one
    call is between its CompareAndSwap and its Store; every call ends by its own steps. *)
Definition zs_in (p : zpc) : bool := match p with ZDone | ZStore => true | _ => false end.
Lemma zs_inv ls s : steps zs_step zs_zero ls s ->
  (z_slept s = true <-> exists t, zs_in (z_th s t) = true) /\ (forall t u, zs_in (z_th s t) = true -> zs_in (z_th s u) = true -> t = u).
Proof.
  apply (steps_invariant zs_zero zs_step (fun s => (z_slept s = true <-> exists t, zs_in (z_th s t) = true) /\ (forall t u, zs_in (z_th s t) = true -> zs_in (z_th s u) = true -> t = u))).
  - split; [|discriminate]. split; [discriminate|]. intros [t E]. discriminate.
  - clear. intros s l s' [I1 I2] HS.
    assert (K : forall th t p, zs_in p = zs_in (th t) -> forall u, zs_in (tset th t p u) = zs_in (th u)).
    { intros th t p Hp u. destruct (tset_cases th t p u) as [[-> ->]|[_ ->]]; [exact Hp|reflexivity]. }
    assert (G : forall b th t p, z_th s = th -> z_slept s = b -> zs_in p = zs_in (th t) ->
      (b = true <-> exists u, zs_in (tset th t p u) = true) /\ (forall v u, zs_in (tset th t p v) = true -> zs_in (tset th t p u) = true -> v = u)).
    { intros b th t p <- <- Hp. split.
      - rewrite I1. split; intros [u Hu]; exists u; [rewrite K; assumption|rewrite K in Hu; assumption].
      - intros v u. rewrite !K by exact Hp. apply I2. }
    destruct HS as [b th t E|th t E|th t E|b th t E|b th t E|b th t E|th t E|th t E|b th t E]; cbn [z_slept z_th] in *;
      try (apply G; [reflexivity|reflexivity|rewrite E; reflexivity]).
    + assert (N : forall u, zs_in (th u) = false) by (intros u; destruct (zs_in (th u)) eqn:X; [|reflexivity]; destruct I1 as [_ I1]; discriminate I1; eauto).
      split.
      * split; [|reflexivity]. intros _. exists t. rewrite tset_eq. reflexivity.
      * intros v u. destruct (tset_cases th t ZDone v) as [[-> Xv]|[_ Xv]], (tset_cases th t ZDone u) as [[-> Xu]|[_ Xu]]; rewrite ?Xv, ?Xu, ?N; congruence.
    + assert (N : forall u, u <> t -> zs_in (th u) = false).
      { intros u Hu. destruct (zs_in (th u)) eqn:X; [|reflexivity]. exfalso. apply Hu, I2; [exact X|]. rewrite E. reflexivity. }
      assert (N' : forall u, zs_in (tset th t ZIdle u) = false).
      { intros u. destruct (tset_cases th t ZIdle u) as [[-> ->]|[Hu ->]]; [reflexivity|apply N, Hu]. }
      split; [split; [discriminate|intros [u Hu]; rewrite N' in Hu; discriminate]|]. intros v u Hv. rewrite N' in Hv. discriminate.
Qed.
Theorem sleeper_zero :
  forall ls (s : zsleeper), steps zs_step zs_zero ls s ->
    (forall t, ZLSlept t (Ret true) ∉ ls /\ ZLWoke t (Ret true) ∉ ls) /\
    (z_slept s = true <-> exists t, z_th s t = ZDone \/ z_th s t = ZStore) /\
    ((forall t, z_th s t = ZIdle) -> z_slept s = false) /\
    (forall t, z_th s t <> ZIdle -> exists l s', zs_step s l s' /\ z_th s' t <> z_th s t).
Proof.
  intros ls s HS. destruct (zs_inv ls s HS) as [I1 I2]. split; [|split; [|split]].
  - intros t. assert (F : Forall (fun l => (forall u, l <> ZLSlept u (Ret true)) /\ (forall u, l <> ZLWoke u (Ret true))) ls).
    { revert ls s HS I1 I2. clear. intros ls s HS _ _. revert HS.
      apply (steps_trace_invariant zs_zero zs_step (fun ls s => Forall (fun l => (forall u, l <> ZLSlept u (Ret true)) /\ (forall u, l <> ZLWoke u (Ret true))) ls)); [constructor|].
      intros ls' s1 l s2 _ IH H. apply Forall_app. split; [exact IH|]. constructor; [|constructor]. destruct H; split; intros; discriminate. }
    rewrite Forall_forall in F. split; intros X; destruct (F _ X) as [A B]; [exact (A t eq_refl)|exact (B t eq_refl)].
  - rewrite I1. split; intros [t Ht]; exists t; destruct (z_th s t); cbn in *; try discriminate; auto; destruct Ht; discriminate.
  - intros HI. destruct (z_slept s); [|reflexivity]. destruct I1 as [I1 _]. destruct (I1 eq_refl) as [t Ht]. rewrite HI in Ht. discriminate.
  - intros t Ht. destruct s as [b th]. cbn [z_th z_slept] in *. destruct (th t) eqn:E; [congruence|..].
    + destruct b; eexists _, _; (split; [constructor; exact E|]); cbn; rewrite tset_eq; discriminate.
    + eexists _, _. split; [apply zs_done; exact E|]. cbn. rewrite tset_eq. discriminate.
    + eexists _, _. split; [apply zs_store; exact E|]. cbn. rewrite tset_eq. discriminate.
    + destruct b; eexists _, _; (split; [constructor; exact E|]); cbn; rewrite tset_eq; discriminate.
    + eexists _, _. split; [apply zs_cancel; exact E|]. cbn. rewrite tset_eq. discriminate.
Qed.
Print Assumptions sleeper_zero.
(** a Wakeup that meets the panicking Sleep panics too *)
Example sleeper_zero_case :
  exists s, steps zs_step zs_zero [ZLSleep 0; ZLTau 0; ZLWake 1; ZLTau 1; ZLTau 0; ZLSlept 0 Panic; ZLWoke 1 Panic] s /\ z_slept s = false.
Proof.
  eexists. split.
  - eapply steps_cons; [apply zs_sleep; reflexivity|]. eapply steps_cons; [apply zs_cas_ok; reflexivity|]. eapply steps_cons; [apply zs_wake; reflexivity|].
    eapply steps_cons; [apply zs_load_true; reflexivity|]. eapply steps_cons; [apply zs_done; reflexivity|]. eapply steps_cons; [apply zs_store; reflexivity|].
    eapply steps_cons; [apply zs_cancel; reflexivity|]. constructor.
  - reflexivity.
Qed.
