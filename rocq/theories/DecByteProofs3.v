From Verif Require Import Base Conc DecModel DecProofs DecProofs2 DecProofs3 DecByteModel DecByteProofs DecByteProofs2.
Local Open Scope Z.

Section proofs.
Context (msg : nat -> list Z).
Definition visible (tr : list dlab) : list dlab := List.filter (fun l => match l with LDTau => false | _ => true end) tr.
Lemma visible_app a b : visible (a ++ b) = visible a ++ visible b.
Proof. apply List.filter_app. Qed.
Lemma visible_omap {A} (f : dlab -> option A) tr : f LDTau = None -> omap f (visible tr) = omap f tr.
Proof. intros F. induction tr as [|l tr IH]; [reflexivity|]. unfold visible in *. cbn [List.filter]. destruct l; cbn [omap list_omap]; rewrite ?F; try (rewrite <- IH; reflexivity). Qed.
Lemma visible_adders tr tr' : visible tr = visible tr' -> adders tr = adders tr'.
Proof. intros E. unfold adders. rewrite <- (visible_omap _ tr), <- (visible_omap _ tr'), E by reflexivity. reflexivity. Qed.
Lemma visible_viewed tr tr' : visible tr = visible tr' -> viewed tr = viewed tr'.
Proof. intros E. unfold viewed. rewrite <- (visible_omap _ tr), <- (visible_omap _ tr'), E by reflexivity. reflexivity. Qed.
Lemma visible_published tr tr' : visible tr = visible tr' -> published msg tr = published msg tr'.
Proof. intros E. unfold published. rewrite <- (visible_omap _ tr), <- (visible_omap _ tr'), E by reflexivity. reflexivity. Qed.
Lemma adders_prefix tr tr' : num (adders tr) <= num (adders (tr ++ tr')).
Proof. unfold adders. rewrite omap_app, num_app. pose proof (num_nonneg (omap (fun l => match l with LAdd t => Some t | _ => None end) tr')). lia. Qed.
Lemma sim_init size : sim msg (d_init size) (b_init size).
Proof.
  exists (fun _ => []), (fun _ => None). split; [reflexivity|]. split; [reflexivity|]. split; [reflexivity|]. constructor; cbn; try discriminate; try (intros; discriminate).
  - intros i _. split; [lia|]. lia.
  - intros t ts a c [H|[H|H]]; discriminate.
  - intros t ts a c [H|H]; discriminate.
  - intros t H. congruence.
  - intros i _. reflexivity.
Qed.
Lemma sim_steps size tr s : 0 < size < 2^64 -> steps (b_step msg) (b_init size) tr s -> num (adders tr) <= 2^64 - 2 ->
  exists tr' c, steps (d_step msg) (d_init size) tr' c /\ visible tr' = visible tr /\ cinv msg size tr' c /\ sim msg c s.
Proof.
  intros Hs H. remember (b_init size) as s0 eqn:E. induction H as [s|s tr s1 l s2 H IH Hl]; intros Ha; subst.
  - exists [], (d_init size). split; [constructor|]. split; [reflexivity|]. split; [apply cinv_init; exact Hs|apply sim_init].
  - pose proof (adders_prefix tr [l]). destruct (IH eq_refl ltac:(lia)) as (tr' & c & St & V & I & S). destruct (sim_step msg size tr' c s1 l s2 I S Hl) as [(c' & D & S')|[-> S']].
    + exists (tr' ++ [l]), c'. assert (V' : visible (tr' ++ [l]) = visible (tr ++ [l])) by (rewrite !visible_app, V; reflexivity). split; [econstructor; eassumption|]. split; [exact V'|]. split; [|exact S'].
      eapply cinv_step; [|exact I|exact D]. rewrite (visible_adders _ _ V'). exact Ha.
    + exists tr', c. split; [exact St|]. split; [rewrite visible_app, V; cbn; rewrite app_nil_r; reflexivity|]. split; [exact I|exact S'].
Qed.

(** *** the other way *)
Lemma tset_same {P} (w : nat -> P) t p t' p' : w t <> p -> w t' <> p' -> (forall u, tset w t p u = tset w t' p' u) -> t = t' /\ p = p'.
Proof. intros N N' E. pose proof (E t) as Et. rewrite tset_eq in Et. destruct (decide (t = t')) as [->|Nt]; [rewrite tset_eq in Et; auto|]. rewrite tset_ne in Et by exact Nt. congruence. Qed.
Lemma tau_changes c c' : d_step msg c LDTau c' -> (forall t, c_w c' t = c_w c t) -> c_r c' = c_r c -> False.
Proof.
  intros H E E'. inversion H; subst; cbn [c_w c_r] in *; try discriminate; match goal with W : ?w ?t = _ |- _ => specialize (E t); rewrite tset_eq in E; congruence end.
Qed.
Lemma d_det c l c1 c2 : d_step msg c l c1 -> d_step msg c l c2 -> (forall t, c_w c1 t = c_w c2 t) -> c_r c1 = c_r c2 -> c1 = c2.
Proof.
  intros H1 H2 E E'. destruct H1; inversion H2; subst; cbn [c_w c_r] in *; try discriminate; try reflexivity;
  try (match goal with W : ?w ?t = _, W' : ?w ?t' = _ |- _ => assert (t' = t) by (apply (tset_same w) in E; [symmetry; apply E|congruence|congruence]); subst t' end);
  try (match goal with W : ?w ?t = _ |- _ => specialize (E t); rewrite ?tset_eq in E; congruence end);
  try (match goal with W : ?w ?t = _, W' : ?w ?t = _ |- _ => rewrite W in W'; try discriminate W'; injection W' as <- end; reflexivity).
Qed.
End proofs.
