(** Lock on several objects, by callbacks that call Lock themselves. *)
From Verif Require Import Base Conc LockNestModel.

(** the objects whose callbacks a goroutine is inside of *)
Definition held (s : nstate) (t : nat) : list nat := (n_in (n_th s t)).*1.
Record ninv (s : nstate) : Prop := {
  ni_own : forall o, n_nil s o = true <-> exists t, o ∈ held s t;
  ni_one : forall o t u, o ∈ held s t -> o ∈ held s u -> t = u;
  ni_dup : forall t, NoDup (held s t);
  ni_rel : forall t, n_pc (n_th s t) = NRel -> held s t <> []
}.
(** a step that leaves the words and the frames alone *)
Lemma ninv_same w th t x : ninv (NS w th) -> n_in x = n_in (th t) -> (n_pc x = NRel -> n_in x <> []) -> ninv (NS w (tset th t x)).
Proof.
  intros [I1 I2 I3 I4] E R. assert (H : forall u, held (NS w (tset th t x)) u = held (NS w th) u).
  { intros u. unfold held. cbn. destruct (tset_cases th t x u) as [[-> ->]|[_ ->]]; [rewrite E|]; reflexivity. }
  split; cbn.
  - intros o. rewrite (I1 o). cbn. split; intros [u Hu]; exists u; [rewrite H|rewrite H in Hu]; exact Hu.
  - intros o u v. rewrite !H. apply I2.
  - intros u. rewrite H. apply I3.
  - intros u. unfold held. cbn. destruct (tset_cases th t x u) as [[-> ->]|[_ ->]].
    + intros P Q. apply fmap_nil_inv in Q. exact (R P Q).
    + apply I4.
Qed.
Lemma ninv_step s l s' : ninv s -> n_step s l s' -> ninv s'.
Proof.
  intros HI HS. destruct HS as [w th t o f k fr H|w th t o f k fr H Hw|w th t o f k fr H Hw|w th t o k fr H|w th t o k fr H Hw|w th t o k fr H Hw|w th t fr H].
  - apply ninv_same; [exact HI|rewrite H; reflexivity|discriminate].
  - destruct HI as [I1 I2 I3 I4]. assert (N : forall u, o ∉ held (NS w th) u). { intros u Hu. cbn in I1. rewrite (proj2 (I1 o)) in Hw by eauto. discriminate. }
    assert (T : held (NS (tset w o true) (tset th t (NT (NRun f) ((o, k) :: fr)))) t = o :: held (NS w th) t) by (unfold held; cbn; rewrite tset_eq, H; reflexivity).
    assert (U : forall u, u <> t -> held (NS (tset w o true) (tset th t (NT (NRun f) ((o, k) :: fr)))) u = held (NS w th) u) by (intros u Hu; unfold held; cbn; rewrite tset_ne by exact Hu; reflexivity).
    split.
    + intros o'. cbn [n_nil]. destruct (tset_cases w o true o') as [[-> ->]|[Ne ->]].
      * split; [intros _; exists t; rewrite T; left|reflexivity].
      * cbn in I1. rewrite (I1 o'). split; intros [u Hu]; exists u; destruct (decide (u = t)) as [->|Hn]; try (rewrite U in * by exact Hn; exact Hu).
        -- rewrite T. right. exact Hu.
        -- rewrite T in Hu. apply elem_of_cons in Hu as [->|Hu]; [congruence|exact Hu].
    + intros o' u v Hu Hv. destruct (decide (u = t)) as [->|Hun], (decide (v = t)) as [->|Hvn]; [reflexivity| | |rewrite U in * by assumption; eauto].
      * rewrite T in Hu. rewrite U in Hv by exact Hvn. apply elem_of_cons in Hu as [->|Hu]; [destruct (N v Hv)|eauto].
      * rewrite T in Hv. rewrite U in Hu by exact Hun. apply elem_of_cons in Hv as [->|Hv]; [destruct (N u Hu)|eauto].
    + intros u. destruct (decide (u = t)) as [->|Hn]; [rewrite T; constructor; auto|rewrite U by exact Hn; apply I3].
    + intros u. destruct (decide (u = t)) as [->|Hn]; [rewrite T; discriminate|rewrite U by exact Hn; cbn; rewrite tset_ne by exact Hn; apply (I4 u)].
  - exact HI.
  - apply ninv_same; [exact HI|rewrite H; reflexivity|discriminate].
  - destruct HI as [I1 I2 I3 I4]. set (s' := NS (tset w o false) (tset th t (NT (NRun k) fr))).
    assert (T : held (NS w th) t = o :: held s' t) by (unfold held, s'; cbn; rewrite tset_eq, H; reflexivity).
    assert (U : forall u, u <> t -> held s' u = held (NS w th) u) by (intros u Hu; unfold held, s'; cbn; rewrite tset_ne by exact Hu; reflexivity).
    pose proof (I3 t) as D. rewrite T in D. apply NoDup_cons in D as [D1 D2].
    assert (N : forall u, o ∉ held s' u).
    { intros u Hu. destruct (decide (u = t)) as [->|Hn]; [exact (D1 Hu)|]. rewrite U in Hu by exact Hn. apply Hn. apply (I2 o); [exact Hu|rewrite T; left]. }
    split.
    + intros o'. unfold s' at 1. cbn [n_nil]. destruct (tset_cases w o false o') as [[-> ->]|[Ne ->]].
      * split; [discriminate|]. intros [u Hu]. destruct (N u Hu).
      * cbn in I1. rewrite (I1 o'). split; intros [u Hu]; exists u; destruct (decide (u = t)) as [->|Hn]; try (rewrite U in * by exact Hn; exact Hu).
        -- rewrite T in Hu. apply elem_of_cons in Hu as [->|Hu]; [congruence|exact Hu].
        -- rewrite T. right. exact Hu.
    + intros o' u v Hu Hv. apply (I2 o').
      * destruct (decide (u = t)) as [->|Hn]; [rewrite T; right; exact Hu|rewrite U in Hu by exact Hn; exact Hu].
      * destruct (decide (v = t)) as [->|Hn]; [rewrite T; right; exact Hv|rewrite U in Hv by exact Hn; exact Hv].
    + intros u. destruct (decide (u = t)) as [->|Hn]; [exact D2|rewrite U by exact Hn; apply I3].
    + intros u. destruct (decide (u = t)) as [->|Hn]; [unfold s'; cbn; rewrite tset_eq; discriminate|]. rewrite U by exact Hn. unfold s'. cbn. rewrite tset_ne by exact Hn. apply (I4 u).
  - exact HI.
  - apply ninv_same; [exact HI|rewrite H; reflexivity|discriminate].
Qed.
Lemma ninv_init main : ninv (n_init main).
Proof.
  split; cbn.
  - intros o. split; [discriminate|]. intros [t Ht]. inversion Ht.
  - intros o t u Ht. inversion Ht.
  - intros t. constructor.
  - discriminate.
Qed.
Lemma ninv_reach main s : reach (n_init main) n_step s -> ninv s.
Proof. apply reach_invariant; [apply ninv_init|apply ninv_step]. Qed.
Lemma ninv_steps s ls s' : ninv s -> steps n_step s ls s' -> ninv s'.
Proof. intros H. apply (steps_invariant s n_step ninv H ninv_step). Qed.

(** C196: an object is nil exactly while a callback on it runs, and never do two of them
    run, be it in two goroutines or in one *)
Theorem nested_lock_exclusive main s : reach (n_init main) n_step s ->
  (forall o, n_nil s o = true <-> exists t, o ∈ held s t) /\ (forall o t u, o ∈ held s t -> o ∈ held s u -> t = u) /\ forall t, NoDup (held s t).
Proof. intros HR. destruct (ninv_reach main s HR). auto. Qed.

(** *** Who waits for ever *)
(** a goroutine whose callback has panicked, or that calls Lock of an object that a
    goroutine of D is inside of *)
Definition waits (D : nat -> Prop) (s : nstate) (t : nat) : Prop :=
  n_pc (n_th s t) = NDead \/ exists o f k u, (n_pc (n_th s t) = NRun (NLock o f k) \/ n_pc (n_th s t) = NTry o f k) /\ D u /\ o ∈ held s u.
(** it has made no step, or only the one into the loop *)
Definition stays (x y : nthr) : Prop := y = x \/ exists o f k fr, x = NT (NRun (NLock o f k)) fr /\ y = NT (NTry o f k) fr.
Lemma stays_in x y : stays x y -> n_in y = n_in x.
Proof. intros [->|(o & f & k & fr & -> & ->)]; reflexivity. Qed.
Lemma stays_trans x y z : stays x y -> stays y z -> stays x z.
Proof.
  intros [->|(o & f & k & fr & -> & ->)]; [auto|]. intros [->|(o' & f' & k' & fr' & E & _)]; [|discriminate E]. right. eauto 10.
Qed.
Lemma waits_step (D : nat -> Prop) s l s' : ninv s -> (forall t, D t -> waits D s t) -> n_step s l s' ->
  (forall t, D t -> waits D s' t) /\ (forall t, D t -> stays (n_th s t) (n_th s' t)) /\ forall o t, D t -> o ∈ held s t -> l.2 <> NvEnter o.
Proof.
  intros HI HD HS.
  assert (HB : forall o u, D u -> o ∈ held s u -> n_nil s o = true) by (intros o u _ Hu; apply (ni_own s HI); eauto).
  assert (E : (forall t, D t -> stays (n_th s t) (n_th s' t)) /\ forall o t, D t -> o ∈ held s t -> l.2 <> NvEnter o).
  { destruct HS as [w th t o f k fr H|w th t o f k fr H Hw|w th t o f k fr H Hw|w th t o k fr H|w th t o k fr H Hw|w th t o k fr H Hw|w th t fr H]; cbn [n_th n_nil snd] in *; (split; [intros v Hv|try discriminate]).
    1,2,5,6,8: match goal with |- stays _ (tset ?th ?t ?x ?v) => destruct (tset_cases th t x v) as [[-> E]|[Hn E]]; rewrite E; [|left; reflexivity]; try rewrite H end.
    - right. eauto 10.
    - exfalso. destruct (HD t Hv) as [P|(o' & f' & k' & u & [P|P] & Du & Hu)]; cbn in P; rewrite H in P; try discriminate P. injection P as <- <- <-. rewrite (HB _ _ Du Hu) in Hw. discriminate.
    - exfalso. destruct (HD t Hv) as [P|(o' & f' & k' & u & [P|P] & _)]; cbn in P; rewrite H in P; discriminate P.
    - exfalso. destruct (HD t Hv) as [P|(o' & f' & k' & u & [P|P] & _)]; cbn in P; rewrite H in P; discriminate P.
    - exfalso. destruct (HD t Hv) as [P|(o' & f' & k' & u & [P|P] & _)]; cbn in P; rewrite H in P; discriminate P.
    - intros o' u Du Hu [= <-]. rewrite (HB _ _ Du Hu) in Hw. discriminate.
    - left. reflexivity.
    - left. reflexivity. }
  destruct E as [E1 E2]. split; [|split; assumption].
  assert (EH : forall u, D u -> held s' u = held s u) by (intros u Hu; unfold held; rewrite (stays_in _ _ (E1 u Hu)); reflexivity).
  intros t Ht. specialize (E1 t Ht). destruct (HD t Ht) as [Q|(o & f & k & u & Q & Du & Hu)].
  - left. destruct E1 as [->|(o & f & k & fr & P & _)]; [exact Q|rewrite P in Q; discriminate Q].
  - right. exists o, f, k, u. rewrite (EH u Du). split; [|auto]. destruct E1 as [->|(o' & f' & k' & fr & P & P')]; [exact Q|]. right. rewrite P'. rewrite P in Q. cbn in *.
    destruct Q as [Q|Q]; [injection Q as <- <- <-; reflexivity|discriminate].
Qed.
(** C196: if each goroutine of a set has panicked in a callback or waits for an object that
    one of the set is inside of, none of them ever goes on, and none of the objects they
    are inside of is ever entered again by anybody *)
Theorem nested_lock_deadlock main (D : nat -> Prop) s tr s' : reach (n_init main) n_step s -> (forall t, D t -> waits D s t) -> steps n_step s tr s' ->
  forall t, D t -> stays (n_th s t) (n_th s' t) /\ waits D s' t /\ forall o u, o ∈ held s t -> (u, NvEnter o) ∉ tr.
Proof.
  intros HR HD HS. pose proof (ninv_reach main s HR) as HI. clear HR.
  induction HS as [s|s tr s1 l s2 HS IH H1]; [intros t Ht; split; [left; reflexivity|]; split; auto; intros o u _ Q; inversion Q|].
  specialize (IH HD HI). destruct (waits_step D s1 l s2 (ninv_steps _ _ _ HI HS) (fun t Ht => proj1 (proj2 (IH t Ht))) H1) as (K1 & K2 & K3).
  intros t Ht. destruct (IH t Ht) as (J1 & J2 & J3). split; [exact (stays_trans _ _ _ J1 (K2 t Ht))|]. split; [auto|].
  intros o u Ho Q. apply elem_of_app in Q as [Q|Q]; [exact (J3 o u Ho Q)|]. apply elem_of_list_singleton in Q. apply (K3 o t Ht); [unfold held; rewrite (stays_in _ _ J1); exact Ho|]. rewrite <- Q. reflexivity.
Qed.
(** C196: so a callback that calls Lock of its own object waits for ever, and nobody gets
    that object again *)
Corollary nested_lock_reentrant main s t o f k fr tr s' : reach (n_init main) n_step s -> n_th s t = NT (NRun (NLock o f k)) fr -> o ∈ fr.*1 -> steps n_step s tr s' ->
  (n_th s' t = NT (NRun (NLock o f k)) fr \/ n_th s' t = NT (NTry o f k) fr) /\ forall u, (u, NvEnter o) ∉ tr.
Proof.
  intros HR HP HO HS. assert (HO' : o ∈ held s t) by (unfold held; rewrite HP; exact HO).
  assert (HD : forall v, t = v -> waits (eq t) s v) by (intros v <-; right; exists o, f, k, t; rewrite HP; auto).
  destruct (nested_lock_deadlock main (eq t) s tr s' HR HD HS t eq_refl) as (K1 & _ & K3). split; [|intros u; apply K3; exact HO'].
  destruct K1 as [->|(o' & f' & k' & fr' & E & ->)]; [auto|]. rewrite HP in E. injection E as <- <- <- <-. auto.
Qed.

(** *** Objects taken in order *)
(** code that takes objects from number b on, an inner one always greater than the outer
    one, and does not panic *)
Fixpoint asc (b : nat) (c : ncode) : Prop := match c with NEnd => True | NPanic => False | NLock o f k => b <= o /\ asc (S o) f /\ asc b k end.
Definition bound (fr : list (nat * ncode)) : nat := match fr with [] => 0 | (o, _) :: _ => S o end.
Fixpoint asc_in (fr : list (nat * ncode)) : Prop := match fr with [] => True | (o, k) :: fr => bound fr <= o /\ asc (bound fr) k /\ asc_in fr end.
Definition asc_th (x : nthr) : Prop :=
  asc_in (n_in x) /\ match n_pc x with NRun c => asc (bound (n_in x)) c | NTry o f k => asc (bound (n_in x)) (NLock o f k) | NRel => True | NDead => False end.
Lemma asc_below fr : asc_in fr -> forall o, o ∈ fr.*1 -> o < bound fr.
Proof.
  induction fr as [|[o k] fr IH]; intros H o' Ho; [inversion Ho|]. cbn in *. destruct H as (H1 & _ & H3). apply elem_of_cons in Ho as [->|Ho]; [lia|]. specialize (IH H3 o' Ho). lia.
Qed.
Lemma asc_step s l s' : (forall t, asc_th (n_th s t)) -> n_step s l s' -> forall t, asc_th (n_th s' t).
Proof.
  intros HA HS. destruct HS as [w th t o f k fr H|w th t o f k fr H Hw|w th t o f k fr H Hw|w th t o k fr H|w th t o k fr H Hw|w th t o k fr H Hw|w th t fr H]; cbn [n_th] in *; try exact HA;
    pose proof (HA t) as Ht; rewrite H in Ht; unfold asc_th in Ht; cbn in Ht; intros u; (match goal with |- asc_th (tset ?th ?t ?x ?v) => destruct (tset_cases th t x v) as [[-> E]|[Hn E]]; rewrite E; [|apply HA] end); unfold asc_th; cbn; tauto.
Qed.
Definition done_th : nthr := NT (NRun NEnd) [].
Lemma asc_reach main s : (forall t, asc 0 (main t)) -> reach (n_init main) n_step s -> forall t, asc_th (n_th s t).
Proof. intros HM. apply (reach_invariant (n_init main) n_step (fun s => forall t, asc_th (n_th s t))); [intros t; split; [exact I|apply HM]|exact asc_step]. Qed.
Lemma few_objects main s : reach (n_init main) n_step s -> exists B, forall t o, o ∈ held s t -> o < B.
Proof.
  apply (reach_invariant (n_init main) n_step (fun s => exists B, forall t o, o ∈ held s t -> o < B)); [exists 0; intros t o Ho; inversion Ho|].
  clear s. intros s l s' [B HB] HS. unfold held in *. destruct HS as [w th t o f k fr H|w th t o f k fr H Hw|w th t o f k fr H Hw|w th t o k fr H|w th t o k fr H Hw|w th t o k fr H Hw|w th t fr H]; cbn [n_th] in *.
  2: exists (B `max` S o).
  all: try (exists B); try exact HB; intros u o'; pose proof (HB t) as Ht; rewrite H in Ht; cbn in Ht; (match goal with |- _ ∈ (n_in (tset ?th ?t ?x ?v)).*1 -> _ => destruct (tset_cases th t x v) as [[-> E]|[Hn E]]; rewrite E; [cbn|] end).
  all: try (apply HB).
  - apply Ht.
  - intros Q. apply elem_of_cons in Q as [->|Q]; [lia|]. specialize (Ht o' Q). lia.
  - intros Q. specialize (HB u o' Q). lia.
  - apply Ht.
  - intros Q. apply Ht. right. exact Q.
  - apply Ht.
Qed.
(** C196: if every goroutine takes the objects in ascending order and none panics, somebody
    can make a step other than trying in vain, unless all are done *)
Theorem nested_lock_ordered main s t : (forall t, asc 0 (main t)) -> reach (n_init main) n_step s -> n_th s t <> done_th ->
  exists u e s', n_step s (u, e) s' /\ e <> NvSpin.
Proof.
  intros HM HR HT. pose proof (asc_reach main s HM HR) as HA. pose proof (ninv_reach main s HR) as HI. destruct (few_objects main s HR) as [B HB].
  assert (K : forall v, (forall o f k fr, n_th s v = NT (NTry o f k) fr -> n_nil s o = true -> exists u e s', n_step s (u, e) s' /\ e <> NvSpin) -> n_th s v <> done_th -> exists u e s', n_step s (u, e) s' /\ e <> NvSpin).
  { intros v HV HD. pose proof (HA v) as Av. pose proof (ni_rel s HI v) as Rv. pose proof (ni_own s HI) as Ov. unfold held in *. destruct s as [w th]. cbn [n_th n_nil] in *. destruct (th v) as [pc fr] eqn:E. destruct pc as [[| |o f k]|o f k| |]; unfold asc_th in Av; cbn in Av, Rv.
    - destruct fr as [|[o k] fr]; [exfalso; apply HD; reflexivity|]. do 3 eexists. split; [eapply ns_return; exact E|discriminate].
    - tauto.
    - do 3 eexists. split; [eapply ns_call; exact E|discriminate].
    - destruct (w o) eqn:Ew; [eapply HV; eauto|]. do 3 eexists. split; [eapply ns_enter; eauto|discriminate].
    - destruct fr as [|[o k] fr]; [exfalso; apply Rv; reflexivity|]. do 3 eexists. split; [eapply ns_release; [exact E|]|discriminate]. apply Ov. exists v. cbn. rewrite E. left.
    - tauto. }
  assert (W : forall n v o f k fr, B - o <= n -> n_th s v = NT (NTry o f k) fr -> n_nil s o = true -> exists u e s', n_step s (u, e) s' /\ e <> NvSpin).
  { intros n. induction n as [|n IH]; intros v o f k fr Hn E Ho; apply (ni_own s HI) in Ho as [u Hu]; pose proof (HB u o Hu) as Ob; [lia|].
    apply (K u); [|intros D; unfold held in Hu; rewrite D in Hu; inversion Hu].
    intros o' f' k' fr' E' Ho'. apply (IH u o' f' k' fr'); [|exact E'|exact Ho']. pose proof (HA u) as Au. unfold held in Hu. rewrite E' in Au, Hu. destruct Au as [A1 A2]. cbn in A1, A2, Hu. pose proof (asc_below fr' A1 o Hu). lia. }
  apply (K t); [|exact HT]. intros o f k fr E Ho. exact (W _ t o f k fr (le_n _) E Ho).
Qed.

(** *** How many steps *)
(** the steps that are left in code: four for each Lock, and one for a panic *)
Fixpoint size (c : ncode) : nat := match c with NEnd => 0 | NPanic => 1 | NLock _ f k => 4 + size f + size k end.
Fixpoint size_in (fr : list (nat * ncode)) : nat := match fr with [] => 0 | (_, k) :: fr => 2 + size k + size_in fr end.
Definition size_th (x : nthr) : nat := match n_pc x with NRun c => size c + size_in (n_in x) | NTry _ f k => 3 + size f + size k + size_in (n_in x) | NRel => size_in (n_in x) - 1 | NDead => size_in (n_in x) end.
(** the steps of goroutine t that are not vain *)
Definition vain (e : nev) : bool := match e with NvSpin => true | _ => false end.
Definition made (t : nat) (tr : list (nat * nev)) : nat := length (filter (fun l => l.1 = t /\ vain l.2 = false) tr).
Lemma size_step s u e s' t : n_step s (u, e) s' -> size_th (n_th s t) = (if decide (u = t) then if vain e then 0 else 1 else 0) + size_th (n_th s' t).
Proof.
  intros HS. inversion HS; subst; cbn [n_th vain]; try (destruct (decide (u = t)); reflexivity);
    (destruct (decide (u = t)) as [->|Hn]; [rewrite tset_eq|rewrite tset_ne by congruence; reflexivity]);
    match goal with H : ?th t = NT _ _ |- _ => rewrite H end; unfold size_th; cbn; lia.
Qed.
Lemma made_snoc t tr u e : made t (tr ++ [(u, e)]) = made t tr + (if decide (u = t) then if vain e then 0 else 1 else 0).
Proof.
  unfold made. rewrite filter_app, app_length. f_equal. rewrite filter_cons, filter_nil. destruct (decide (u = t)) as [E|E].
  - destruct (decide _) as [[_ Q]|Q]; cbn in Q |- *; [rewrite Q; reflexivity|]. destruct (vain e); [reflexivity|]. exfalso. apply Q. auto.
  - destruct (decide _) as [[Q _]|Q]; [contradiction|reflexivity].
Qed.
(** C196: a goroutine makes exactly the steps that are in its code, in whatever order the
    others make theirs, apart from trying in vain *)
Theorem nested_lock_steps s tr s' t : steps n_step s tr s' -> made t tr + size_th (n_th s' t) = size_th (n_th s t).
Proof.
  intros HS. induction HS as [s|s tr s1 [u e] s2 HS IH H1]; [reflexivity|]. rewrite made_snoc. pose proof (size_step s1 u e s2 t H1). lia.
Qed.
Fixpoint sum_to (f : nat -> nat) (n : nat) : nat := match n with 0 => 0 | S n => sum_to f n + f n end.
Lemma sum_le f g n : (forall i, i < n -> f i <= g i) -> sum_to f n <= sum_to g n.
Proof. induction n as [|n IH]; intros H; cbn; [lia|]. specialize (IH (fun i Hi => H i (Nat.lt_lt_succ_r _ _ Hi))). specialize (H n (Nat.lt_succ_diag_r n)). lia. Qed.
Lemma sum_lt f g n t : t < n -> (forall i, i < n -> f i <= g i) -> f t < g t -> sum_to f n < sum_to g n.
Proof.
  induction n as [|n IH]; intros Ht H L; [lia|]. cbn. assert (H' : forall i, i < n -> f i <= g i) by (intros i Hi; apply H; lia).
  destruct (decide (t = n)) as [->|Hn]; [pose proof (sum_le f g n H'); lia|]. assert (t < n) as Htn by lia. specialize (IH Htn H' L). specialize (H n (Nat.lt_succ_diag_r n)). lia.
Qed.
Lemma rest_done main s n : (forall t, n <= t -> main t = NEnd) -> reach (n_init main) n_step s -> forall t, n <= t -> n_th s t = done_th.
Proof.
  intros HM. apply (reach_invariant (n_init main) n_step (fun s => forall t, n <= t -> n_th s t = done_th)); [intros t Ht; cbn; rewrite HM by exact Ht; reflexivity|].
  clear s. intros s l s' HI HS t Ht. specialize (HI t Ht). destruct HS as [w th u o f k fr H|w th u o f k fr H Hw|w th u o f k fr H Hw|w th u o k fr H|w th u o k fr H Hw|w th u o k fr H Hw|w th u fr H]; cbn [n_th] in *; try exact HI;
    (destruct (decide (t = u)) as [->|Hn]; [rewrite HI in H; discriminate H|rewrite tset_ne by exact Hn; exact HI]).
Qed.
Lemma done_dec x : {x = done_th} + {x <> done_th}.
Proof. destruct x as [[[| |]| | |] [|]]; try (right; discriminate); left; reflexivity. Qed.
Lemma all_done s n : (forall t, n <= t -> n_th s t = done_th) -> (forall t, n_th s t = done_th) \/ exists t, n_th s t <> done_th.
Proof.
  intros H. assert (K : (forall t, t < n -> n_th s t = done_th) \/ exists t, n_th s t <> done_th).
  { clear H. induction n as [|n [IH|IH]]; [left; lia| |auto]. destruct (done_dec (n_th s n)) as [E|E]; [|eauto]. left. intros t Ht. destruct (decide (t = n)) as [->|Hn]; [exact E|apply IH; lia]. }
  destruct K as [K|K]; [left|auto]. intros t. destruct (decide (t < n)) as [L|L]; [auto|apply H; lia].
Qed.
(** C196: so from wherever they are, n goroutines that take the objects in ascending order
    can go on until all are done, and then no object is taken *)
Theorem nested_lock_ordered_ends main n s : (forall t, asc 0 (main t)) -> (forall t, n <= t -> main t = NEnd) -> reach (n_init main) n_step s ->
  exists tr s', steps n_step s tr s' /\ (forall l, l ∈ tr -> l.2 <> NvSpin) /\ (forall t, n_th s' t = done_th) /\ forall o, n_nil s' o = false.
Proof.
  intros HM HN HR. remember (sum_to (fun t => size_th (n_th s t)) n) as z eqn:Ez. revert s HR Ez. induction z as [z IH] using lt_wf_ind. intros s HR Ez.
  destruct (all_done s n (rest_done main s n HN HR)) as [D|[t D]].
  - exists [], s. split; [constructor|]. split; [intros l Q; inversion Q|]. split; [exact D|]. intros o. destruct (n_nil s o) eqn:E; [|reflexivity].
    apply (ni_own s (ninv_reach main s HR)) in E as [u Hu]. unfold held in Hu. rewrite D in Hu. inversion Hu.
  - destruct (nested_lock_ordered main s t HM HR D) as (u & e & s1 & H1 & Hv).
    assert (HR1 : reach (n_init main) n_step s1) by (destruct HR as [tr0 HR]; exists (tr0 ++ [(u, e)]); econstructor; eassumption).
    assert (Lu : u < n).
    { destruct (decide (u < n)) as [L|L]; [exact L|exfalso]. pose proof (rest_done main s n HN HR u ltac:(lia)) as E. unfold done_th in E. inversion H1; subst; cbn in E; congruence. }
    assert (Lz : sum_to (fun t => size_th (n_th s1 t)) n < z).
    { subst z. apply (sum_lt _ _ n u Lu); [intros i _; pose proof (size_step s u e s1 i H1); lia|]. pose proof (size_step s u e s1 u H1) as Q. rewrite decide_True in Q by reflexivity. destruct e; cbn in Q; try lia. contradiction. }
    destruct (IH _ Lz s1 HR1 eq_refl) as (tr & s2 & K1 & K2 & K3). exists ((u, e) :: tr), s2. split; [eapply steps_cons; eassumption|]. split; [|exact K3].
    intros l Q. apply elem_of_cons in Q as [->|Q]; [exact Hv|auto].
Qed.

(** *** Each callback runs once *)
(** the calls of Lock of object o in code, and those a goroutine still has to enter or to
    come back from *)
Fixpoint locks (o : nat) (c : ncode) : nat := match c with NLock o' f k => (if decide (o' = o) then 1 else 0) + locks o f + locks o k | _ => 0 end.
Fixpoint locks_in (o : nat) (fr : list (nat * ncode)) : nat := match fr with [] => 0 | (_, k) :: fr => locks o k + locks_in o fr end.
Fixpoint inside_of (o : nat) (fr : list (nat * ncode)) : nat := match fr with [] => 0 | (o', _) :: fr => (if decide (o' = o) then 1 else 0) + inside_of o fr end.
Definition locks_th (o : nat) (x : nthr) : nat := match n_pc x with NRun c => locks o c | NTry o' f k => locks o (NLock o' f k) | _ => 0 end + locks_in o (n_in x).
Definition is_enter (o : nat) (e : nev) : bool := match e with NvEnter o' => bool_decide (o' = o) | _ => false end.
Definition is_release (o : nat) (e : nev) : bool := match e with NvRelease o' => bool_decide (o' = o) | _ => false end.
Definition enters (t o : nat) (tr : list (nat * nev)) : nat := length (filter (fun l => l.1 = t /\ is_enter o l.2 = true) tr).
Definition releases (t o : nat) (tr : list (nat * nev)) : nat := length (filter (fun l => l.1 = t /\ is_release o l.2 = true) tr).
Lemma count_snoc (P : nev -> bool) t tr u e : length (filter (fun l : nat * nev => l.1 = t /\ P l.2 = true) (tr ++ [(u, e)])) =
  length (filter (fun l : nat * nev => l.1 = t /\ P l.2 = true) tr) + (if decide (u = t) then if P e then 1 else 0 else 0).
Proof.
  rewrite filter_app, app_length. f_equal. rewrite filter_cons, filter_nil. destruct (decide (u = t)) as [E|E].
  - destruct (decide _) as [[_ Q]|Q]; cbn in Q |- *; [rewrite Q; reflexivity|]. destruct (P e); [exfalso; apply Q; auto|reflexivity].
  - destruct (decide _) as [[Q _]|Q]; [contradiction|reflexivity].
Qed.
(** C196: unless it panics, a goroutine enters an object as often as its code says and gives
    it back as often, but for the callbacks it is still inside of *)
Theorem nested_lock_runs_once s tr s' t o : steps n_step s tr s' -> (t, NvPanic) ∉ tr ->
  enters t o tr + locks_th o (n_th s' t) = locks_th o (n_th s t) /\ releases t o tr + inside_of o (n_in (n_th s' t)) = enters t o tr + inside_of o (n_in (n_th s t)).
Proof.
  intros HS. induction HS as [s|s tr s1 [u e] s2 HS IH H1]; intros HP; [split; reflexivity|]. destruct IH as [I1 I2]; [intros Q; apply HP; apply elem_of_app; left; exact Q|].
  assert (HP' : (u, e) <> (t, NvPanic)) by (intros Q; apply HP; apply elem_of_app; right; rewrite Q; apply elem_of_list_singleton; reflexivity).
  unfold enters, releases in *. rewrite !count_snoc.
  inversion H1; subst; cbn [n_th is_enter is_release] in *; try (destruct (decide (u = t)); lia);
    (destruct (decide (u = t)) as [->|Hn]; [rewrite tset_eq|rewrite tset_ne by congruence; lia]); try congruence;
    match goal with H : ?th t = NT _ _ |- _ => rewrite H in I1, I2 end; unfold locks_th in *; cbn in *; repeat case_bool_decide; repeat case_decide; lia.
Qed.
(** C196: so a call history that has come to its end has run each callback exactly once *)
Corollary nested_lock_all_run main tr s t o : steps n_step (n_init main) tr s -> n_th s t = done_th -> enters t o tr = locks o (main t) /\ releases t o tr = locks o (main t).
Proof.
  intros HS HD.
  assert (HP : (t, NvPanic) ∉ tr).
  { cut ((t, NvPanic) ∈ tr -> n_pc (n_th s t) = NDead); [intros K Q; specialize (K Q); rewrite HD in K; discriminate K|]. clear HD.
    remember (n_init main) as s0 eqn:E0. clear E0 main. induction HS as [s|s tr s1 [u e] s2 HS IH H1]; intros Q; [inversion Q|]. apply elem_of_app in Q as [Q|Q].
    - specialize (IH Q). inversion H1; subst; cbn [n_th] in *; try exact IH; (destruct (decide (t = u)) as [->|Hn]; [match goal with H : ?th u = NT _ _ |- _ => rewrite H in IH; discriminate IH end|rewrite tset_ne by exact Hn; exact IH]).
    - apply elem_of_list_singleton in Q. injection Q as <- <-. inversion H1; subst; cbn. rewrite tset_eq. reflexivity. }
  destruct (nested_lock_runs_once _ _ _ t o HS HP) as [K1 K2]. rewrite HD in K1, K2. unfold locks_th in K1. cbn in K1, K2. lia.
Qed.

(** C196: without an order two goroutines can wait for each other for ever *)
Definition crossed (t : nat) : ncode := match t with 0 => NLock 0 (NLock 1 NEnd NEnd) NEnd | 1 => NLock 1 (NLock 0 NEnd NEnd) NEnd | _ => NEnd end.
Theorem nested_lock_crossed_refuted : exists s, reach (n_init crossed) n_step s /\ forall tr s', steps n_step s tr s' -> forall t, t < 2 -> n_th s' t <> done_th /\ forall u o, o < 2 -> (u, NvEnter o) ∉ tr.
Proof.
  assert (exists s, reach (n_init crossed) n_step s /\ n_th s 0 = NT (NRun (NLock 1 NEnd NEnd)) [(0, NEnd)] /\ n_th s 1 = NT (NRun (NLock 0 NEnd NEnd)) [(1, NEnd)]) as (s & HR & E0 & E1).
  { eexists. split; [eexists; unfold n_init|split].
    - eapply steps_cons; [eapply (ns_call _ _ 0); reflexivity|]. eapply steps_cons; [eapply (ns_call _ _ 1); reflexivity|]. eapply steps_cons; [eapply (ns_enter _ _ 0); reflexivity|]. eapply steps_cons; [eapply (ns_enter _ _ 1); reflexivity|]. constructor.
    - reflexivity.
    - reflexivity. }
  exists s. split; [exact HR|]. intros tr s' HS.
  assert (HD : forall t, t < 2 -> waits (fun t => t < 2) s t).
  { intros t Ht. right. destruct t as [|[|]]; [exists 1, NEnd, NEnd, 1|exists 0, NEnd, NEnd, 0|lia]; unfold held; rewrite ?E0, ?E1; repeat split; auto; left. }
  pose proof (nested_lock_deadlock crossed (fun t => t < 2) s tr s' HR HD HS) as K. intros t Ht. split.
  - destruct (K t Ht) as (K1 & _ & _). intros Q. apply stays_in in K1. rewrite Q in K1. destruct t as [|[|]]; [rewrite E0 in K1|rewrite E1 in K1|lia]; discriminate K1.
  - intros u o Ho. destruct o as [|[|]]; [apply (proj2 (proj2 (K 0 Nat.lt_0_2)))|apply (proj2 (proj2 (K 1 Nat.lt_1_2)))|lia]; unfold held; rewrite ?E0, ?E1; left.
Qed.
Print Assumptions nested_lock_exclusive.
Print Assumptions nested_lock_deadlock.
Print Assumptions nested_lock_reentrant.
Print Assumptions nested_lock_ordered.
Print Assumptions nested_lock_steps.
Print Assumptions nested_lock_ordered_ends.
Print Assumptions nested_lock_runs_once.
Print Assumptions nested_lock_all_run.
Print Assumptions nested_lock_crossed_refuted.

(** two goroutines inside of two callbacks each at some time, in order *)
Definition inorder (t : nat) : ncode := match t with 0 => NLock 0 (NLock 1 NEnd NEnd) NEnd | 1 => NLock 0 (NLock 2 NEnd NEnd) (NLock 1 NEnd NEnd) | _ => NEnd end.
Example nested_lock_ordered_case : (forall t, asc 0 (inorder t)) /\ (forall t, 2 <= t -> inorder t = NEnd) /\
  exists s, reach (n_init inorder) n_step s /\ held s 0 = [1; 0] /\ n_th s 1 = NT (NTry 0 (NLock 2 NEnd NEnd) (NLock 1 NEnd NEnd)) [] /\ n_nil s 0 = true.
Proof.
  split; [intros [|[|]]; cbn; lia|]. split; [intros [|[|]] Ht; [lia|lia|reflexivity]|]. eexists. split; [eexists; unfold n_init|split; [|split]].
  - eapply steps_cons; [eapply (ns_call _ _ 0); reflexivity|]. eapply steps_cons; [eapply (ns_call _ _ 1); reflexivity|]. eapply steps_cons; [eapply (ns_enter _ _ 0); reflexivity|].
    eapply steps_cons; [eapply (ns_fail _ _ 1); reflexivity|]. eapply steps_cons; [eapply (ns_call _ _ 0); reflexivity|]. eapply steps_cons; [eapply (ns_enter _ _ 0); reflexivity|]. constructor.
  - reflexivity.
  - reflexivity.
  - reflexivity.
Qed.
(** a callback that calls Lock of its own object *)
Example nested_lock_reentrant_case : exists s, reach (n_init (fun _ => NLock 5 (NLock 5 NEnd NEnd) NEnd)) n_step s /\ n_th s 3 = NT (NRun (NLock 5 NEnd NEnd)) [(5, NEnd)].
Proof.
  eexists. split; [eexists; unfold n_init|]; [eapply steps_cons; [eapply (ns_call _ _ 3); reflexivity|]; eapply steps_cons; [eapply (ns_enter _ _ 3); reflexivity|]; constructor|reflexivity].
Qed.
(** a callback that panics: its goroutine alone is such a set *)
Example nested_lock_deadlock_case : exists s, reach (n_init (fun _ => NLock 5 NPanic NEnd)) n_step s /\ (forall t, t = 3 -> waits (fun t => t = 3) s t) /\ held s 3 = [5].
Proof.
  eexists. split; [eexists; unfold n_init|split]; [eapply steps_cons; [eapply (ns_call _ _ 3); reflexivity|]; eapply steps_cons; [eapply (ns_enter _ _ 3); reflexivity|]; eapply steps_cons; [eapply (ns_panic _ _ 3); reflexivity|]; constructor| |reflexivity].
  intros t ->. left. reflexivity.
Qed.
(** an execution that has come to its end *)
Example nested_lock_all_run_case : exists tr s, steps n_step (n_init inorder) tr s /\ (forall t, n_th s t = done_th) /\ enters 1 2 tr = 1.
Proof.
  destruct nested_lock_ordered_case as (H1 & H2 & _). destruct (nested_lock_ordered_ends inorder 2 (n_init inorder) H1 H2) as (tr & s & K1 & _ & K2 & _); [exists []; constructor|].
  exists tr, s. split; [exact K1|]. split; [exact K2|]. exact (proj1 (nested_lock_all_run inorder tr s 1 2 K1 (K2 1))).
Qed.
