(** Properties of dsx/mapx/syncmapx for every comparable key type, floating point keys
    included (C157), under every interleaving of any number of goroutines. *)
From Verif Require Import Base Conc Lin SyncMapModel SyncMapEqModel SyncMapEqProofs.

(** Go's ==: symmetric and transitive, but NaN is not == to itself *)
Definition go_eq {K : Type} (eqb : K -> K -> bool) : Prop :=
  (forall a b, eqb a b = eqb b a) /\ (forall a b c, eqb a b = true -> eqb b c = true -> eqb a c = true).

(** C157: every history is that of a bag of entries, no two of them with keys that are ==,
    changed one call at a time; no two goroutines touch the Go map in a conflicting way,
    and no deadlock. *)
Theorem syncmap_any_key :
  forall (K V : Type) (eqb : K -> K -> bool) (zero : V), go_eq eqb ->
    forall ls (s : qstate K V), steps (q_step eqb zero) q_new ls s ->
      linearizable (eq_spec eqb zero) [] (erase (q_events ls)) /\
      q_crash s = false /\
      (forall i j p q, q_map s !! i = Some p -> q_map s !! j = Some q -> eqb p.1 q.1 = true -> i = j) /\
      (forall t, q_th s t <> QIdle -> exists e s' u, q_step eqb zero s e s' /\ q_th s u <> QIdle /\ q_th s' u <> q_th s u).
Proof.
  intros K V eqb zero [Hs Ht] ls s HS. pose proof (qinv_steps eqb zero Hs Ht ls s HS) as I. split; [|split; [|split]].
  - exists (q_events ls). split; [reflexivity|]. split; [intros t; eexists; apply (iv_seq _ _ _ _ I)|eexists; apply (iv_legal _ _ _ _ I)].
  - exact (iv_crash _ _ _ _ I).
  - pose proof (iv_uniq _ _ _ _ I) as U. clear - U Hs.
    assert (G : forall (m : list (K * V)), uniq eqb m -> forall i j p q, m !! i = Some p -> m !! j = Some q -> i < j -> eqb p.1 q.1 = false).
    { induction 1 as [|x m F _ IH]; intros [|i] [|j] p q Hp Hq Hij; try discriminate; try lia; cbn in *.
      - injection Hp as <-. rewrite Forall_forall in F. apply F. eapply elem_of_list_lookup_2, Hq.
      - eapply IH; [exact Hp|exact Hq|lia]. }
    intros i j p q Hp Hq E. destruct (lt_eq_lt_dec i j) as [[H|H]|H]; [|exact H|].
    + rewrite (G _ U i j p q Hp Hq H) in E. discriminate.
    + rewrite Hs, (G _ U j i q p Hq Hp H) in E. discriminate.
  - intros t Hn. destruct (q_progress eqb zero _ s t I Hn) as (e & s' & H1 & _ & u & H2). exists e, s', u. tauto.
Qed.
Print Assumptions syncmap_any_key.

Section Nan.
Context {K V : Type} (eqb : K -> K -> bool).
(** how many Sets had a key that is not == to itself, since the last Clear *)
Definition nan_step (n : nat) (e : lev (mop K V) (mret K V)) : nat :=
  match e with Lin _ (MSet k _) _ => if eqb k k then n else S n | Lin _ MClear _ => 0 | _ => n end.
Definition nan_sets (tr : list (lev (mop K V) (mret K V))) : nat := fold_left nan_step tr 0.
End Nan.

Lemma nan_ne {K} (eqb : K -> K -> bool) k k' : go_eq eqb -> eqb k k = false -> eqb k k' = false.
Proof.
  intros [Hs Ht] E. destruct (eqb k k') eqn:E'; [|reflexivity]. rewrite (Ht k k' k) in E; [discriminate|exact E'|rewrite Hs; exact E'].
Qed.
Lemma filter_id {A} (P : A -> Prop) `{forall x, Decision (P x)} (l : list A) : (forall x, x ∈ l -> P x) -> filter P l = l.
Proof.
  induction l as [|x l IH]; intros HP; [reflexivity|]. rewrite filter_cons_True by (apply HP; left). rewrite IH; [reflexivity|].
  intros y Hy. apply HP. right. exact Hy.
Qed.

(** C157: a key that is not == to itself (a NaN) can be set for ever, is never found, and
    only Clear takes it out: the map holds one entry for each Set of such a key since the
    last Clear, whatever was deleted, and Size counts them. *)
Theorem syncmap_nan_key :
  forall (K V : Type) (eqb : K -> K -> bool) (zero : V), go_eq eqb ->
    forall ls (s : qstate K V), steps (q_step eqb zero) q_new ls s ->
    exists tr m, erase tr = erase (q_events ls) /\ (forall t, exists st, tseq t (proj t tr) st) /\ legal (eq_spec eqb zero) [] tr m /\
      length (filter (fun p : K * V => eqb p.1 p.1 = false) m) = nan_sets eqb tr /\ nan_sets eqb tr <= length m /\
      (forall t k r, eqb k k = false -> Lin t (MGet k) r ∈ tr -> r = RetV zero) /\
      (forall t k r, eqb k k = false -> Lin t (MHas k) r ∈ tr -> r = RetB false) /\
      (forall m1 k r m2, eqb k k = false -> eq_spec eqb zero m1 (MDelete k) r m2 -> m2 ≡ₚ m1).
Proof.
  intros K V eqb zero G ls s HS. pose proof G as [Hs Ht]. pose proof (qinv_steps eqb zero Hs Ht ls s HS) as I.
  exists (q_events ls), (q_map s). split; [reflexivity|]. split; [intros t; eexists; apply (iv_seq _ _ _ _ I)|].
  pose proof (iv_legal _ _ _ _ I) as L. split; [exact L|]. generalize dependent (q_map s). generalize (q_events ls). clear I HS ls s. intros tr m L.
  set (nanf := fun p : K * V => eqb p.1 p.1 = false).
  assert (FF : forall k (m : list (K * V)), filter nanf (filter (fun p : K * V => eqb k p.1 = false) m) = filter nanf m).
  { clear - G. intros k m. induction m as [|p m IH]; [reflexivity|]. destruct (eqb k p.1) eqn:E.
    - rewrite (filter_cons_False (fun p : K * V => eqb k p.1 = false)) by congruence. rewrite (filter_cons_False nanf); [exact IH|].
      unfold nanf. intros N. pose proof (nan_ne eqb p.1 k G N) as X. destruct G as [Hs _]. rewrite Hs in X. congruence.
    - rewrite (filter_cons_True (fun p : K * V => eqb k p.1 = false)) by exact E. rewrite !(filter_cons nanf). rewrite IH. reflexivity. }
  assert (C : length (filter nanf m) = nan_sets eqb tr).
  { unfold nan_sets. induction L as [|tr m t o L IH|tr m t o r m' L IH Sp|tr m t o r L IH]; [reflexivity| | |]; rewrite fold_left_app; cbn [fold_left nan_step]; try exact IH.
    destruct o as [k|k| | | |k v|k|]; cbn in Sp; destruct Sp as [Hr Hm]; cbn [nan_step]; subst; try exact IH; try reflexivity.
    - rewrite Hm, filter_cons. destruct (eqb k k) eqn:E.
      + rewrite decide_False by (unfold nanf; cbn; congruence). rewrite FF. exact IH.
      + rewrite decide_True by exact E. cbn [length]. rewrite FF, IH. reflexivity.
    - rewrite Hm, FF. exact IH. }
  split; [exact C|]. split; [rewrite <- C; apply filter_length|].
  assert (A : forall t o r, Lin t o r ∈ tr -> exists m1 m2, eq_spec eqb zero m1 o r m2).
  { clear - L. intros t o r. induction L as [|tr m u o' L IH|tr m u o' r' m' L IH Sp|tr m u o' r' L IH]; intros Hin; [inversion Hin| | |];
      apply elem_of_app in Hin as [Hin|Hin]; auto; apply elem_of_list_singleton in Hin; try discriminate. injection Hin as -> -> ->. eauto. }
  split; [|split].
  - intros t k r E Hin. destruct (A _ _ _ Hin) as (m1 & m2 & [[(k' & v & _ & E' & _)|[_ Hr]] _]); [|exact Hr].
    rewrite (nan_ne eqb k k' G E) in E'. discriminate.
  - intros t k r E Hin. destruct (A _ _ _ Hin) as (m1 & m2 & [(b & -> & Hb) _]). destruct b; [|reflexivity].
    destruct (proj1 Hb eq_refl) as (k' & v & _ & E'). rewrite (nan_ne eqb k k' G E) in E'. discriminate.
  - intros m1 k r m2 E [_ Hp]. rewrite Hp. rewrite filter_id; [reflexivity|]. intros x _. apply nan_ne; assumption.
Qed.
Print Assumptions syncmap_nan_key.

(** *** floating point keys *)
Inductive fkey := FNaN | FZero (neg : bool) | FOther (z : Z).
Definition f_eqb (a b : fkey) : bool :=
  match a, b with FZero _, FZero _ => true | FOther x, FOther y => Z.eqb x y | _, _ => false end.
Example f_eqb_go : go_eq f_eqb.
Proof.
  split.
  - intros [|x|x] [|y|y]; cbn; try reflexivity. apply Z.eqb_sym.
  - intros [|x|x] [|y|y] [|z|z]; cbn; try discriminate; try reflexivity. intros H1 H2. apply Z.eqb_eq in H1, H2. apply Z.eqb_eq. congruence.
Qed.
(** setting -0 after +0 leaves one entry, with the second key *)
Example zero_key_ex : gm_set f_eqb (FZero true) 2 (gm_set f_eqb (FZero false) 1 [(FOther 5, 0)]) = [(FOther 5, 0); (FZero true, 2)].
Proof. reflexivity. Qed.
(** two Sets and a Delete of NaN, from two goroutines: two entries, none of them found *)
Example nan_key_ex :
  exists ls s, steps (q_step f_eqb 0) q_new ls s /\
    erase (q_events ls) = [Inv 0 (MSet FNaN 7); Inv 1 (MSet FNaN 8); Rsp 1 (MSet FNaN 8) RetU; Rsp 0 (MSet FNaN 7) RetU;
      Inv 0 (MDelete FNaN); Rsp 0 (MDelete FNaN) RetU; Inv 1 (MGet FNaN); Rsp 1 (MGet FNaN) (RetV 0)] /\ q_map s = [(FNaN, 8); (FNaN, 7)].
Proof.
  do 2 eexists. split; [|split].
  - eapply steps_cons; [apply (qs_call _ 0 _ _ _ _ _ _ 0 (MSet FNaN 7)); reflexivity|].
    eapply steps_cons; [apply (qs_call _ 0 _ _ _ _ _ _ 1 (MSet FNaN 8)); reflexivity|].
    eapply steps_cons; [eapply (qs_lock _ 0 _ _ _ _ 1); reflexivity|].
    eapply steps_cons; [eapply (qs_write_begin _ 0 _ _ _ _ _ 1); reflexivity|].
    eapply steps_cons; [eapply (qs_write_end _ 0 _ _ _ _ _ _ 1); reflexivity|].
    eapply steps_cons; [eapply (qs_unlock _ 0 _ _ _ _ _ _ 1); reflexivity|].
    eapply steps_cons; [eapply (qs_return _ 0 _ _ _ _ _ _ 1); reflexivity|].
    eapply steps_cons; [eapply (qs_lock _ 0 _ _ _ _ 0); reflexivity|].
    eapply steps_cons; [eapply (qs_write_begin _ 0 _ _ _ _ _ 0); reflexivity|].
    eapply steps_cons; [eapply (qs_write_end _ 0 _ _ _ _ _ _ 0); reflexivity|].
    eapply steps_cons; [eapply (qs_unlock _ 0 _ _ _ _ _ _ 0); reflexivity|].
    eapply steps_cons; [eapply (qs_return _ 0 _ _ _ _ _ _ 0); reflexivity|].
    eapply steps_cons; [apply (qs_call _ 0 _ _ _ _ _ _ 0 (MDelete FNaN)); reflexivity|].
    eapply steps_cons; [eapply (qs_lock _ 0 _ _ _ _ 0); reflexivity|].
    eapply steps_cons; [eapply (qs_write_begin _ 0 _ _ _ _ _ 0); reflexivity|].
    eapply steps_cons; [eapply (qs_write_end _ 0 _ _ _ _ _ _ 0); reflexivity|].
    eapply steps_cons; [eapply (qs_unlock _ 0 _ _ _ _ _ _ 0); reflexivity|].
    eapply steps_cons; [eapply (qs_return _ 0 _ _ _ _ _ _ 0); reflexivity|].
    eapply steps_cons; [apply (qs_call _ 0 _ _ _ _ _ _ 1 (MGet FNaN)); reflexivity|].
    eapply steps_cons; [eapply (qs_rlock _ 0 _ _ _ _ _ 1); reflexivity|].
    eapply steps_cons; [eapply (qs_read _ 0 _ _ _ _ _ 1); reflexivity|].
    eapply steps_cons; [eapply (qs_runlock _ 0 _ _ _ _ _ _ 1); reflexivity|].
    eapply steps_cons; [eapply (qs_return _ 0 _ _ _ _ _ _ 1); reflexivity|]. apply steps_nil.
  - reflexivity.
  - reflexivity.
Qed.
