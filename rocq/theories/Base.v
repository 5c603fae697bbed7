(** Common vocabulary: outcomes of Go calls, machine integers, histories. *)
From Coq Require Export ZArith NArith Lia.
From stdpp Require Export prelude.

(** Outcome of a Go computation: a value, a run-time panic, or "the loop budget
    (fuel) ran out".  [Spin] is only meaningful when shown for every fuel. *)
Inductive res (A : Type) : Type :=
| Ret (a : A)
| Panic
| Spin.
Arguments Ret {A} a.
Arguments Panic {A}.
Arguments Spin {A}.

Definition rbind {A B} (r : res A) (k : A -> res B) : res B :=
  match r with Ret a => k a | Panic => Panic | Spin => Spin end.
Notation "'let!' x ':=' r 'in' k" := (rbind r (fun x => k))
  (at level 200, x pattern, r at level 100, k at level 200, right associativity).

(** Reading through a possibly-invalid reference: Go panics. *)
Definition deref {A} (o : option A) : res A :=
  match o with Some a => Ret a | None => Panic end.

(** Two's complement 64-bit wrap of Go's int/int64, and uint64 wrap. *)
Definition i64 (z : Z) : Z := ((z + 2^63) mod 2^64 - 2^63)%Z.
Definition u64 (z : Z) : Z := (z mod 2^64)%Z.
Definition is_i64 (z : Z) : Prop := (- 2^63 <= z < 2^63)%Z.
Definition is_u64 (z : Z) : Prop := (0 <= z < 2^64)%Z.
Definition max_i64 : Z := (2^63 - 1)%Z.
Definition min_i64 : Z := (- 2^63)%Z.

Lemma i64_id z : is_i64 z -> i64 z = z.
Proof. unfold is_i64, i64; intros. rewrite Z.mod_small; lia. Qed.
Lemma u64_id z : is_u64 z -> u64 z = z.
Proof. unfold is_u64, u64; intros. apply Z.mod_small; lia. Qed.
Lemma i64_range z : is_i64 (i64 z).
Proof. unfold is_i64, i64. pose proof (Z.mod_pos_bound (z + 2^63) (2^64)). lia. Qed.
Lemma u64_range z : is_u64 (u64 z).
Proof. unfold is_u64, u64. pose proof (Z.mod_pos_bound z (2^64)). lia. Qed.

(** Histories.  [run step s os] is the list of results returned by the calls
    [os] one after the other, together with how the history ended: the final
    state, or a panic / an endless loop in the call after the last result. *)
Fixpoint run {S O R} (step : S -> O -> res (S * R)) (s : S) (os : list O)
  : list R * res S :=
  match os with
  | [] => ([], Ret s)
  | o :: os' =>
      match step s o with
      | Ret (s', r) => let '(rs, e) := run step s' os' in (r :: rs, e)
      | Panic => ([], Panic)
      | Spin => ([], Spin)
      end
  end.

(** The same for an ideal object, whose calls always return. *)
Fixpoint ideal_run {S O R} (step : S -> O -> S * R) (s : S) (os : list O)
  : list R * S :=
  match os with
  | [] => ([], s)
  | o :: os' =>
      let '(s', r) := step s o in
      let '(rs, e) := ideal_run step s' os' in (r :: rs, e)
  end.
Definition ideal_results {S O R} (step : S -> O -> S * R) (s : S) (os : list O) : list R :=
  (ideal_run step s os).1.
Definition ideal_state {S O R} (step : S -> O -> S * R) (s : S) (os : list O) : S :=
  (ideal_run step s os).2.

(** A Go function that returns [(T, bool)]: [None] stands for [(zero, false)]. *)
Definition answer (A : Type) := option A.

(** Generic refinement: if a relation is preserved step by step, the results of
    whole histories coincide. *)
Lemma run_refines {S A O R} (step : S -> O -> res (S * R)) (istep : A -> O -> A * R)
      (Rel : S -> A -> Prop) (Good : A -> O -> Prop) :
  (forall s a o, Rel s a -> Good a o ->
     exists s', step s o = Ret (s', (istep a o).2) /\ Rel s' (istep a o).1) ->
  forall os s a,
    Rel s a ->
    (forall pre o post, os = pre ++ o :: post -> Good (ideal_state istep a pre) o) ->
    exists s', run step s os = (ideal_results istep a os, Ret s')
               /\ Rel s' (ideal_state istep a os).
Proof.
  intros Hstep os; induction os as [|o os IH]; intros s a HR HG.
  - exists s; split; [reflexivity|exact HR].
  - destruct (Hstep s a o HR) as (s1 & Hs1 & HR1).
    { apply (HG [] o os). reflexivity. }
    destruct (IH s1 (istep a o).1 HR1) as (s2 & Hs2 & HR2).
    { intros pre o' post ->. specialize (HG (o :: pre) o' post eq_refl).
      unfold ideal_state in *. cbn [ideal_run] in HG.
      destruct (istep a o) as [a1 r1]; cbn in *.
      destruct (ideal_run istep a1 pre); cbn in *; exact HG. }
    exists s2. cbn [run]. rewrite Hs1. rewrite Hs2.
    unfold ideal_results, ideal_state in *. cbn [ideal_run].
    destruct (istep a o) as [a1 r1]; cbn in *.
    destruct (ideal_run istep a1 os); cbn in *. split; [reflexivity|exact HR2].
Qed.

Lemma ideal_state_app {S O R} (step : S -> O -> S * R) (s : S) (p q : list O) :
  ideal_state step s (p ++ q) = ideal_state step (ideal_state step s p) q.
Proof.
  revert s; induction p as [|o p IH]; intros s; [reflexivity|].
  unfold ideal_state in *. cbn [ideal_run app]. specialize (IH (step s o).1).
  destruct (step s o) as [s1 r1]; cbn in *.
  destruct (ideal_run step s1 (p ++ q)), (ideal_run step s1 p); cbn in *. exact IH.
Qed.

Lemma ideal_results_app {S O R} (step : S -> O -> S * R) (s : S) (p q : list O) :
  ideal_results step s (p ++ q)
  = ideal_results step s p ++ ideal_results step (ideal_state step s p) q.
Proof.
  revert s; induction p as [|o p IH]; intros s; [reflexivity|].
  unfold ideal_state, ideal_results in *. cbn [ideal_run app]. specialize (IH (step s o).1).
  destruct (step s o) as [s1 r1]; cbn in *.
  destruct (ideal_run step s1 (p ++ q)), (ideal_run step s1 p); cbn in *. rewrite IH. reflexivity.
Qed.

Lemma run_app {S O R} (step : S -> O -> res (S * R)) (s : S) (p q : list O) :
  run step s (p ++ q) =
  match run step s p with
  | (rs, Ret s') => let '(rs', e) := run step s' q in (rs ++ rs', e)
  | (rs, Panic) => (rs, Panic)
  | (rs, Spin) => (rs, Spin)
  end.
Proof.
  revert s; induction p as [|o p IH]; intros s; cbn [run app].
  - destruct (run step s q); reflexivity.
  - destruct (step s o) as [[s' r]| |]; [|reflexivity|reflexivity].
    rewrite IH. destruct (run step s' p) as [rs [s''| |]]; try reflexivity.
    destruct (run step s'' q); reflexivity.
Qed.

(** The same when each call carries an environment choice (pool oracle, growth
    of an append, ...) that the ideal object does not see. *)
Lemma run_refines_oracle {S A C O R} (step : S -> C * O -> res (S * R)) (istep : A -> O -> A * R)
      (Rel : S -> A -> Prop) (Good : A -> O -> Prop) :
  (forall s a c o, Rel s a -> Good a o ->
     exists s', step s (c, o) = Ret (s', (istep a o).2) /\ Rel s' (istep a o).1) ->
  forall hist s a,
    Rel s a ->
    (forall pre o post, hist.*2 = pre ++ o :: post -> Good (ideal_state istep a pre) o) ->
    exists s', run step s hist = (ideal_results istep a hist.*2, Ret s')
               /\ Rel s' (ideal_state istep a hist.*2).
Proof.
  intros Hstep hist; induction hist as [|[c o] hist IH]; intros s a HR HG.
  - exists s; split; [reflexivity|exact HR].
  - rewrite fmap_cons in *. cbn [fst snd] in *.
    destruct (Hstep s a c o HR) as (s1 & Hs1 & HR1).
    { apply (HG [] o (hist.*2)). reflexivity. }
    destruct (IH s1 (istep a o).1 HR1) as (s2 & Hs2 & HR2).
    { intros pre o' post E. specialize (HG (o :: pre) o' post).
      rewrite E in HG. specialize (HG eq_refl).
      unfold ideal_state in *. cbn [ideal_run] in HG.
      destruct (istep a o) as [a1 r1]; cbn in *.
      destruct (ideal_run istep a1 pre); cbn in *; exact HG. }
    exists s2. cbn [run]. rewrite Hs1. rewrite Hs2.
    unfold ideal_results, ideal_state in *. cbn [ideal_run].
    destruct (istep a o) as [a1 r1]; cbn in *.
    destruct (ideal_run istep a1 (hist.*2)); cbn in *. split; [reflexivity|exact HR2].
Qed.

(** How a history ended, forgetting the final state. *)
Definition ended {S} (r : res S) : res unit :=
  match r with Ret _ => Ret tt | Panic => Panic | Spin => Spin end.

(** A step-by-step form of "every call of the history meets [Good] in the ideal
    state it is made in", convenient to check on concrete histories. *)
Fixpoint good_history {S O R} (step : S -> O -> S * R) (Good : S -> O -> Prop) (s : S) (os : list O)
  : Prop :=
  match os with
  | [] => True
  | o :: os' => Good s o /\ good_history step Good (step s o).1 os'
  end.
Lemma good_history_forall {S O R} (step : S -> O -> S * R) (Good : S -> O -> Prop) (s : S) (os : list O) :
  good_history step Good s os ->
  forall pre o post, os = pre ++ o :: post -> Good (ideal_state step s pre) o.
Proof.
  revert s; induction os as [|o0 os IH]; intros s H pre o post E; [destruct pre; discriminate|].
  destruct H as [H0 H]. destruct pre as [|p pre]; injection E as -> E.
  - exact H0.
  - specialize (IH _ H _ _ _ E). unfold ideal_state in *. cbn [ideal_run].
    destruct (step s p) as [s1 r1]; cbn in *. destruct (ideal_run step s1 pre); exact IH.
Qed.
Lemma forall_good_history {S O R} (step : S -> O -> S * R) (Good : S -> O -> Prop) (s : S) (os : list O) :
  (forall pre o post, os = pre ++ o :: post -> Good (ideal_state step s pre) o) ->
  good_history step Good s os.
Proof.
  revert s; induction os as [|o0 os IH]; intros s H; cbn; [exact I|]. split.
  - apply (H [] o0 os eq_refl).
  - apply IH. intros pre o post ->. specialize (H (o0 :: pre) o post eq_refl).
    unfold ideal_state in *. cbn [ideal_run] in H.
    destruct (step s o0) as [s1 r1]; cbn in *. destruct (ideal_run step s1 pre); exact H.
Qed.

(** The same when the specification itself may panic or hang. *)
Lemma run_sim {S A C O R} (step : S -> C * O -> res (S * R)) (spec : A -> O -> res (A * R))
      (Rel : S -> A -> Prop) :
  (forall s a c o, Rel s a ->
     match spec a o with
     | Ret (a', r) => exists s', step s (c, o) = Ret (s', r) /\ Rel s' a'
     | Panic => step s (c, o) = Panic
     | Spin => step s (c, o) = Spin
     end) ->
  forall hist s a, Rel s a ->
    (run step s hist).1 = (run spec a hist.*2).1 /\
    match (run spec a hist.*2).2 with
    | Ret a' => exists s', (run step s hist).2 = Ret s' /\ Rel s' a'
    | Panic => (run step s hist).2 = Panic
    | Spin => (run step s hist).2 = Spin
    end.
Proof.
  intros Hstep hist; induction hist as [|[c o] hist IH]; intros s a HR.
  - cbn. eauto.
  - rewrite fmap_cons. cbn [run snd]. specialize (Hstep s a c o HR).
    destruct (spec a o) as [[a' r]| |].
    + destruct Hstep as (s' & -> & HR'). destruct (IH s' a' HR') as [E1 E2].
      destruct (run step s' hist) as [rs e], (run spec a' hist.*2) as [rs' e']. cbn in *. subst rs'. split; [reflexivity|exact E2].
    + rewrite Hstep. split; reflexivity.
    + rewrite Hstep. split; reflexivity.
Qed.

(** The same on histories whose every call is made in a state that is [Good] for it. *)
Lemma run_sim_good {S A C O R} (step : S -> C * O -> res (S * R)) (spec : A -> O -> res (A * R))
      (Rel : S -> A -> Prop) (Good : A -> O -> Prop) :
  (forall s a c o, Rel s a -> Good a o ->
     match spec a o with
     | Ret (a', r) => exists s', step s (c, o) = Ret (s', r) /\ Rel s' a'
     | Panic => step s (c, o) = Panic
     | Spin => step s (c, o) = Spin
     end) ->
  forall hist s a, Rel s a ->
    (forall pre o post a', hist.*2 = pre ++ o :: post -> (run spec a pre).2 = Ret a' -> Good a' o) ->
    (run step s hist).1 = (run spec a hist.*2).1 /\
    match (run spec a hist.*2).2 with
    | Ret a' => exists s', (run step s hist).2 = Ret s' /\ Rel s' a'
    | Panic => (run step s hist).2 = Panic
    | Spin => (run step s hist).2 = Spin
    end.
Proof.
  intros Hstep hist; induction hist as [|[c o] hist IH]; intros s a HR HG.
  - cbn. eauto.
  - rewrite fmap_cons in *. cbn [run snd] in *.
    specialize (Hstep s a c o HR (HG [] o (hist.*2) a eq_refl eq_refl)).
    destruct (spec a o) as [[a' r]| |] eqn:Es.
    + destruct Hstep as (s' & -> & HR'). destruct (IH s' a' HR') as [E1 E2].
      { intros pre o' post a2 E H2. apply (HG (o :: pre) o' post a2); [rewrite E; reflexivity|].
        cbn [run]. rewrite Es. destruct (run spec a' pre). exact H2. }
      destruct (run step s' hist) as [rs e], (run spec a' hist.*2) as [rs' e']. cbn in *. subst rs'. split; [reflexivity|exact E2].
    + rewrite Hstep. split; reflexivity.
    + rewrite Hstep. split; reflexivity.
Qed.
