From Verif Require Import Base Conc CloseModel.

Section world.
Context (oc : list ev -> nat -> cout).
(** what Close number i of the list [cs] does, if all before it returned *)
Definition out_at (log : list ev) (cs : list nat) (i : nat) (c : nat) : cout := oc (log ++ map EvClose (take i cs)) c.
Definition err_of (o : cout) : option err := match o with CRet e => e | CPan _ => None end.
(** the errors of the closers of [cs], in order *)
Definition errs_from (log : list ev) (cs : list nat) : list err := omap id (imap (fun i c => err_of (out_at log cs i c)) cs).
Definition returns (o : cout) : Prop := match o with CRet _ => True | CPan _ => False end.

Lemma out_at_cons log c cs i c' : out_at log (c :: cs) (S i) c' = out_at (log ++ [EvClose c]) cs i c'.
Proof. unfold out_at. cbn. rewrite <- app_assoc. reflexivity. Qed.
Lemma errs_from_cons log c cs : errs_from log (c :: cs) =
  (match err_of (oc log c) with Some e => [e] | None => [] end) ++ errs_from (log ++ [EvClose c]) cs.
Proof.
  unfold errs_from. cbn [imap]. unfold out_at at 1. cbn [take map]. rewrite app_nil_r.
  replace (imap ((fun i c0 => err_of (out_at log (c :: cs) i c0)) ∘ S) cs) with (imap (fun i c0 => err_of (out_at (log ++ [EvClose c]) cs i c0)) cs).
  - cbn. destruct (err_of (oc log c)); reflexivity.
  - apply imap_ext. intros i x _. unfold compose. rewrite out_at_cons. reflexivity.
Qed.
Lemma close_loop_all cs : forall log errs, (forall i c, cs !! i = Some c -> returns (out_at log cs i c)) ->
  close_loop oc log cs errs = (log ++ map EvClose cs, errs ++ errs_from log cs, None).
Proof.
  induction cs as [|c cs IH]; intros log errs H; cbn [close_loop map].
  - unfold errs_from. cbn. rewrite !app_nil_r. reflexivity.
  - pose proof (H 0%nat c eq_refl) as H0. unfold out_at in H0. cbn in H0. rewrite app_nil_r in H0.
    assert (H' : forall i c', cs !! i = Some c' -> returns (out_at (log ++ [EvClose c]) cs i c')).
    { intros i c' E. specialize (H (S i) c' E). rewrite out_at_cons in H. exact H. }
    rewrite errs_from_cons. destruct (oc log c) as [[e|]|]; [| |destruct H0]; rewrite IH by exact H'; cbn; rewrite <- ?app_assoc; reflexivity.
Qed.
Lemma close_loop_panic cs1 c cs2 p : forall log errs, (forall i c', cs1 !! i = Some c' -> returns (out_at log cs1 i c')) ->
  oc (log ++ map EvClose cs1) c = CPan p ->
  close_loop oc log (cs1 ++ c :: cs2) errs = (log ++ map EvClose (cs1 ++ [c]), errs ++ errs_from log cs1, Some p).
Proof.
  induction cs1 as [|d cs1 IH]; intros log errs H P; cbn [app close_loop map].
  - cbn in P. rewrite app_nil_r in P. rewrite P. unfold errs_from. cbn. rewrite app_nil_r. reflexivity.
  - pose proof (H 0%nat d eq_refl) as H0. unfold out_at in H0. cbn in H0. rewrite app_nil_r in H0.
    assert (H' : forall i c', cs1 !! i = Some c' -> returns (out_at (log ++ [EvClose d]) cs1 i c')).
    { intros i c' E. specialize (H (S i) c' E). rewrite out_at_cons in H. exact H. }
    assert (P' : oc ((log ++ [EvClose d]) ++ map EvClose cs1) c = CPan p) by (rewrite <- app_assoc; exact P).
    rewrite errs_from_cons. destruct (oc log d) as [[e|]|]; [| |destruct H0]; rewrite IH by assumption; cbn; rewrite <- ?app_assoc; reflexivity.
Qed.
End world.
Lemma error_list_app typ msg l : forall buf, error_list typ msg buf l = buf ++ error_list typ msg [] l.
Proof.
  induction l as [|e l IH]; intros buf; cbn [error_list]; [rewrite app_nil_r; reflexivity|].
  rewrite IH. rewrite (IH ((([] ++ _) ++ _) ++ _)). rewrite <- !app_assoc. reflexivity.
Qed.
Record kinv (s : kstate) : Prop := {
  ki_pc : match k_pc s with
          | KClose => k_closed s = false /\ k_ran s = 1%nat \/ k_closed s = true /\ k_ran s = 2%nat
          | KCrash => k_closed s = true /\ k_ran s = 2%nat
          | _ => k_closed s = false /\ k_ran s = 0%nat \/ k_closed s = true /\ k_ran s = 1%nat
          end;
  ki_count : (k_ran s + (if k_buf s then 1 else 0) + match k_pc s with KLog | KRun => 1 | _ => 0 end <= k_sent s)%nat }.
Lemma kinv_reach s : reach k_init k_step s -> kinv s.
Proof.
  revert s. apply reach_invariant; [constructor; cbn; [auto|lia]|].
  intros s l s' I H. destruct I as [I1 I2]. destruct H; constructor; cbn in *; try exact I1; try lia; try (destruct b; lia).
  all: destruct I1 as [[J1 J2]|[J1 J2]]; subst; auto; discriminate.
Qed.
