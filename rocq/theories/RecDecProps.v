(** iox/decouplex when view or drop panics and the caller recovers (C168). *)
From Verif Require Import Base DecModel DecProofs RecDecModel RecDecSpec.
Local Open Scope Z.

Lemma spoiled_same fuel d op : spoiled op = true -> (zr_step fuel d op).1 = d.
Proof.
  destruct op as [[b|] [|]]; try discriminate. intros _. unfold zr_step. cbn [fst snd dec_step]. unfold dec_next.
  destruct (d_len d =? 0); [reflexivity|]. destruct (d_size d =? 0); [reflexivity|]. destruct (wait_loop _ _ _); reflexivity.
Qed.

(** C168: a Next whose view panics leaves the decoupler as it was: every other call
    answers, and gives its callback, what it would have without it. *)
Theorem decoupler_recovered :
  forall (fuel : nat) (d : dec) (hist : list (dop * bool)),
    kept_outcomes hist (ideal_results (zr_step fuel) d hist) = ideal_results (zr_step fuel) d (kept hist) /\
    ideal_state (zr_step fuel) d hist = ideal_state (zr_step fuel) d (kept hist).
Proof.
  intros fuel d hist. unfold ideal_results, ideal_state. revert d. induction hist as [|op hist IH]; intros d; [split; reflexivity|].
  cbn [ideal_run kept List.filter]. pose proof (spoiled_same fuel d op) as Sp.
  destruct (zr_step fuel d op) as [d1 r] eqn:Z. destruct (IH d1) as [I1 I2].
  destruct (ideal_run (zr_step fuel) d1 hist) as [rs d2] eqn:E. cbn [fst snd kept_outcomes] in *. destruct (spoiled op) eqn:F; cbn [negb].
  - rewrite <- (Sp eq_refl). split; assumption.
  - cbn [ideal_run]. rewrite Z. fold (kept hist). destruct (ideal_run (zr_step fuel) d1 (kept hist)) as [rs' d3]. cbn [fst snd] in *. split; congruence.
Qed.
Print Assumptions decoupler_recovered.

(** C168: and the next Next gives its view the same message. *)
Theorem decoupler_redelivers :
  forall (fuel : nat) (d : dec) (p : bool),
    (zr_step fuel (zr_step fuel d (ONext, true)).1 (ONext, p)).2.1 = (zr_step fuel d (ONext, true)).2.1.
Proof.
  intros fuel d p. rewrite spoiled_same by reflexivity. unfold zr_step. cbn [fst snd].
  destruct (dec_step fuel d ONext) as [[d' [n|b|[m|]]]| |]; try reflexivity. destruct p; reflexivity.
Qed.
Print Assumptions decoupler_redelivers.

(** C168: while the writes fit, the messages are delivered in order, each to views that
    panic any number of times and to one that returns; a drop that panics changes
    nothing but the end of its own call. *)
Theorem decoupler_recovered_fifo :
  forall (size : Z) (hist : list (dop * bool)) (fuel : nat), 0 < size < 2^64 ->
    writes (kept hist).*1 <= 2^64 - 2 ->
    good_history (dq_step size) (dq_fits size) [] (kept hist).*1 ->
    kept_outcomes hist (ideal_results (zr_step (S fuel)) (new_decoupler size) hist) =
      zip_with (fun (op : dop * bool) a => (given a, ends op.2 a)) (kept hist) (ideal_results (dq_step size) [] (kept hist).*1).
Proof.
  intros size hist fuel Hs Hw G. rewrite (proj1 (decoupler_recovered _ _ _)).
  destruct (seq_fifo fuel (kept hist).*1 (new_decoupler size) [] 0 (drel_new size Hs) ltac:(cbn [length Z.of_nat]; lia) G) as (d' & R & E & _).
  change (d_size (new_decoupler size)) with size in E. revert E.
  assert (K : Forall (fun op => spoiled op = false) (kept hist)).
  { unfold kept. clear. induction hist as [|op hist IH]; cbn [List.filter]; [constructor|]. destruct (spoiled op) eqn:F; cbn [negb]; [exact IH|]. constructor; assumption. }
  clear Hw G. revert K. generalize (kept hist). intros ops. generalize (@nil (list Z)). generalize (new_decoupler size).
  induction ops as [|op ops IH]; intros d q K E; [reflexivity|]. apply Forall_cons in K as [K1 K2].
  unfold ideal_results in *. rewrite fmap_cons in *. cbn [run ideal_run] in *. unfold zr_step at 1.
  destruct (dec_step (S fuel) d op.1) as [[d1 a]| |] eqn:S.
  2,3: exfalso; destruct (dq_step size q op.1) as [q1 a1], (ideal_run (dq_step size) q1 ops.*1) as [rs1 q2]; discriminate.
  destruct (run (dec_step (Datatypes.S fuel)) d1 ops.*1) as [rs e] eqn:F.
  destruct (dq_step size q op.1) as [q1 a1], (ideal_run (dq_step size) q1 ops.*1) as [rs1 q2] eqn:Q. cbn [fst snd] in *.
  injection E as -> -> ->. specialize (IH d1 q1 K2). rewrite Q in IH. cbn [fst] in IH. specialize (IH F).
  destruct op as [o p]. cbn [fst snd] in *.
  destruct a1 as [n|b|[m|]]; cbn [given ends].
  - destruct (ideal_run (zr_step (Datatypes.S fuel)) d1 ops) as [rs' e']. cbn [fst snd zip_with] in *. rewrite IH. reflexivity.
  - destruct (ideal_run (zr_step (Datatypes.S fuel)) d1 ops) as [rs' e']. cbn [fst snd zip_with] in *. rewrite IH. reflexivity.
  - destruct o as [b|]; [|destruct p; [discriminate K1|]].
    + exfalso. clear -S. cbn [dec_step] in S. destruct b; cbn [dec_write] in S; [discriminate|]. revert d S. generalize (Datatypes.S fuel) as f.
      induction f as [|f IH]; intros d S; cbn [write_loop d_size] in S; [discriminate|]. destruct (d_size d =? 0); [discriminate|].
      cbv zeta in S. destruct (_ =? lock_empty); [discriminate|]. destruct (negb _ && _); [discriminate|]. exact (IH _ S).
    + destruct (ideal_run (zr_step (Datatypes.S fuel)) d1 ops) as [rs' e']. cbn [fst snd zip_with] in *. rewrite IH. reflexivity.
  - destruct (ideal_run (zr_step (Datatypes.S fuel)) d1 ops) as [rs' e']. cbn [fst snd zip_with] in *. rewrite IH. reflexivity.
Qed.
Print Assumptions decoupler_recovered_fifo.
Definition rec_dec_hist : list (dop * bool) :=
  [(OWrite [1], false); (OWrite [2; 3], false); (ONext, true); (ONext, true); (ONext, false); (OWrite [], true); (OWrite [4], false); (ONext, true); (ONext, false); (ONext, false); (ONext, false)].
Example decoupler_recovered_case :
  good_history (dq_step 2) (dq_fits 2) [] (kept rec_dec_hist).*1 /\
  ideal_results (zr_step 1) (new_decoupler 2) rec_dec_hist =
    [([], Ret (DStored 1)); ([], Ret (DStored 2)); ([[1]], Panic); ([[1]], Panic); ([[1]], Ret (DNext (Some [1])));
     ([[]], Panic); ([], Ret (DStored 1)); ([[2; 3]], Panic); ([[2; 3]], Ret (DNext (Some [2; 3]))); ([[4]], Ret (DNext (Some [4]))); ([], Ret (DNext None))].
Proof. split; [cbn; repeat split; lia|]. lazy. reflexivity. Qed.
