From Verif Require Import Base Conc PoolModel.
Local Open Scope Z.

Definition busy (p : gpc) : option (nat * nat) :=
  match p with GHandle w c _ => Some (w, c) | GFree w c => Some (w, c) | GLock w c => Some (w, c) | _ => None end.
Definition col_list (p : cpc) : list nat := match p with CDrain ws => ws | CNil _ ws => ws | CPut _ ws => ws | _ => [] end.
Definition col_cur (p : cpc) : option nat := match p with CNil w _ => Some w | CPut w _ => Some w | _ => None end.
Definition usable (o : owner) : bool := match o with ODobby | ORun _ | OQueued | OWork _ | OCol => true | _ => false end.

(** *** every worker object has one owner, and every open channel one object *)
Record pinv (s : pstate) : Prop := {
  a_free : forall w, p_own s w = OFree -> p_obj s w = None;
  a_pool : forall w, w ∈ p_pool s <-> p_own s w = OFree /\ (w < p_nobj s)%nat;
  a_new : forall w, (p_nobj s <= w)%nat -> p_own s w = OFree;
  a_dobby : p_max s <> -1 -> forall w, w ∈ p_dobby s <-> p_own s w = ODobby;
  a_dobby_stop : p_max s = -1 -> forall w, p_own s w <> ODobby;
  a_nodup : NoDup (p_dobby s);
  a_nodup_pool : NoDup (p_pool s);
  a_run : forall w t, p_own s w = ORun t <-> p_job s t = JSend w;
  a_work : forall w g, p_own s w = OWork g <-> exists c, busy (p_gor s g) = Some (w, c);
  a_busy : forall g w c, busy (p_gor s g) = Some (w, c) -> p_obj s w = Some c;
  a_col : forall w, p_own s w = OCol <-> w ∈ col_list (p_col s);
  a_col_nodup : NoDup (col_list (p_col s));
  a_closing : forall w, p_own s w = OClosing <-> col_cur (p_col s) = Some w;
  a_put : forall w ws, p_col s = CPut w ws -> p_obj s w = None;
  a_nil : forall w ws, p_col s = CNil w ws -> exists c, p_obj s w = Some c /\ p_closed s c = true;
  a_open : forall w, usable (p_own s w) = true -> exists c, p_obj s w = Some c /\ p_closed s c = false;
  a_buf : forall c t, p_buf s c = Some t -> exists w, p_obj s w = Some c /\ p_own s w = OQueued;
  a_queued : forall w, p_own s w = OQueued -> exists c t, p_obj s w = Some c /\ p_buf s c = Some t;
  a_inj : forall w w' c, p_obj s w = Some c -> p_obj s w' = Some c -> w = w';
  a_lt : forall w c, p_obj s w = Some c -> (c < p_nch s)%nat;
  a_fresh : forall c, (p_nch s <= c)%nat -> p_closed s c = false;
  a_recv : forall g w c, p_gor s g = GRecv w c -> (c < p_nch s)%nat /\ (p_obj s w = Some c \/ p_closed s c = true);
  a_max : p_max s = -1 <-> p_col s = CDead;
  a_cpanic : p_col s <> CPanic;
  a_jpanic : forall t, p_job s t <> JPanic;
  a_gor : forall g, (p_ng s <= g)%nat -> p_gor s g = GNone;
  a_gone : forall w, p_own s w = OGone -> p_max s = -1 }.

Ltac ts := repeat match goal with
  | |- context [tset _ ?t _ ?u] => destruct (decide (u = t)) as [->|]; [rewrite ?tset_eq in *|rewrite ?tset_ne in * by assumption]
  | H : context [tset _ ?t _ ?u] |- _ => destruct (decide (u = t)) as [->|]; [rewrite ?tset_eq in *|rewrite ?tset_ne in * by assumption]
  end.

Lemma pinv_init maxw n tts clock : 0 < maxw -> pinv (p_init maxw n tts clock).
Proof.
  intros Hm. constructor; cbn; try discriminate; try lia; try (intros; discriminate); try (intros; constructor); try tauto.
  all: try (intros; repeat case_decide; (congruence || lia || (split; [discriminate|set_unfold; lia]))).
  - intros H. inversion H.
  - intros [H1 H2]. rewrite decide_True in H1 by exact H2. discriminate.
  - rewrite elem_of_seq. intros Hw. rewrite decide_True by lia. reflexivity.
  - rewrite elem_of_seq. case_decide; [lia|discriminate].
  - apply NoDup_seq.
  - intros [c H]. case_decide; discriminate.
  - intros g w c H. case_decide; discriminate.
  - intros H. inversion H.
  - intros w. case_decide; [eauto|discriminate].
Qed.
Section step.
Context (idle : Z).
Ltac quick A := try (apply A; assumption); try (apply A); try (intros; eapply a_put; eassumption); try (intros; eapply a_nil; eassumption);
  try (intros; eapply a_inj; eassumption); try (intros; ts; solve [discriminate | apply A; assumption|eapply A; eassumption]).
(* the iff fields, with the old ownership in place of what they are equivalent to, or the other way round *)
Ltac old A := rewrite <- ?(a_run _ A), <- ?(a_work _ A), <- ?(a_col _ A), <- ?(a_closing _ A), ?(a_pool _ A).
Ltac new A := rewrite ?(a_run _ A), ?(a_work _ A), ?(a_col _ A), ?(a_closing _ A).
Ltac sol := repeat match goal with |- _ <-> _ => split; intros | H : _ /\ _ |- _ => destruct H | |- _ /\ _ => split | H : exists _, _ |- _ => destruct H | H : _ \/ _ |- _ => destruct H end;
  try congruence; try lia; eauto; try congruence.
Ltac fin A := intros; ts; try solve [discriminate|congruence|old A; sol|new A; sol|
  rewrite (a_dobby _ A) by assumption; sol|
  apply (a_new _ A); assumption|apply (a_open _ A); assumption|apply (a_gone _ A) with (1 := ltac:(eassumption))|
  match goal with H : (p_nobj _ <= ?w)%nat |- _ => pose proof (a_new _ A w H); congruence end|
  match goal with H : (p_nobj _ <= ?w)%nat |- _ => apply (a_new _ A); lia end|
  match goal with H : p_own _ ?w = _ |- exists c, p_obj _ ?w = Some c /\ p_closed _ c = false => apply (a_open _ A); rewrite H; reflexivity end|
  match goal with H : p_buf _ ?c = Some ?t |- exists w, _ => destruct (a_buf _ A c t H) as (v & Hv & Hq); exists v; split; ts; congruence end|
  match goal with H : p_own _ ?w = OGone |- _ => exact (a_gone _ A w H) end|
  match goal with H : (p_ng _ <= ?g)%nat |- _ => pose proof (a_gor _ A g H); congruence end|
  match goal with H : (S (p_ng _) <= ?g)%nat |- _ => apply (a_gor _ A); lia end|
  match goal with H : p_obj _ ?w = Some ?c |- _ => pose proof (a_lt _ A w c H); lia end|
  match goal with H : busy (p_gor _ ?g) = Some (?w, ?c) |- _ => pose proof (a_busy _ A g w c H); congruence end|
  match goal with H : busy (p_gor _ ?g) = Some (?w, ?c) |- _ => pose proof (proj2 (a_work _ A w g) (ex_intro _ c H)); congruence end|
  match goal with H : Some (p_nch _) = Some _ |- _ => injection H as <-; match goal with H' : p_obj _ _ = Some (p_nch _) |- _ => pose proof (a_lt _ A _ _ H'); lia end end|
  match goal with H : (S (p_nch _) <= ?c)%nat |- _ => apply (a_fresh _ A); lia end|
  match goal with H : p_obj _ ?w = Some ?c, H' : p_obj _ ?w' = Some ?c |- _ => exact (a_inj _ A w w' c H H') end|
  match goal with H : p_gor _ ?g = GRecv ?w ?c |- _ => destruct (a_recv _ A g w c H) as [R1 R2]; split; [lia|]; destruct R2; [left|right]; congruence end|
  eexists; split; [reflexivity|assumption]|
  rewrite (a_max _ A); sol|apply (a_free _ A); assumption|apply (a_queued _ A); assumption|constructor|
  match goal with H : p_col _ = _ |- _ => rewrite (a_col _ A), H; cbn [col_list]; first [reflexivity|rewrite elem_of_cons; sol] end|
  match goal with H : p_col _ = _ |- _ => rewrite (a_closing _ A), H; cbn [col_cur]; sol end|
  new A; match goal with H : p_gor _ ?g = _ |- context [p_gor _ ?g] => rewrite H end; cbn [busy]; sol|
  cbn [busy] in *; sol|
  match goal with H : p_col _ = CPut ?w _ |- _ => pose proof (a_put _ A _ _ H); congruence end|
  match goal with H : p_col _ = CNil ?w _ |- _ => destruct (a_nil _ A _ _ H) as (v & Hv & Hc); exists v; split; congruence end].
Ltac oa := unfold own_all in *; repeat case_decide.
Ltac show := match goal with |- ?g => idtac g; idtac "--" end.
Lemma dobby_closable s : pinv s -> p_max s <> -1 -> closable (p_obj s) (p_closed s) (p_dobby s).
Proof.
  intros A Hm. split; [apply A|]. intros w Hw. apply (a_dobby s A) in Hw; [|assumption].
  destruct (a_open s A w ltac:(rewrite Hw; reflexivity)) as (c & E1 & E2). exists c. split; [exact E1|]. split; [exact E2|].
  intros w' _ E'. exact (a_inj s A _ _ _ E' E1).
Qed.
Lemma close_all_true obj ws closed c : close_all obj ws closed c = true <-> closed c = true \/ exists w, w ∈ ws /\ obj w = Some c.
Proof.
  unfold close_all. rewrite orb_true_iff, existsb_exists. split; (intros [H|(w & Hw & E)]; [left; exact H|right; exists w]).
  - rewrite elem_of_list_In. split; [exact Hw|]. destruct (obj w) as [c'|]; [|discriminate]. apply Nat.eqb_eq in E. congruence.
  - rewrite elem_of_list_In in Hw. split; [exact Hw|]. rewrite E. apply Nat.eqb_refl.
Qed.
Lemma close_all_false obj ws closed c : close_all obj ws closed c = false <-> closed c = false /\ forall w, w ∈ ws -> obj w <> Some c.
Proof.
  rewrite <- !not_true_iff_false, close_all_true. split.
  - intros H. split; [tauto|]. intros w Hw E. apply H. right. eauto.
  - intros [H1 H2] [H|(w & Hw & E)]; [tauto|]. exact (H2 w Hw E).
Qed.
Lemma pinv_step s l s' : pinv s -> p_step idle s l s' -> pinv s'.
Proof.
  intros A H. destruct H.
  - constructor; cbn; quick A.
  - constructor; cbn; quick A; fin A.
  - constructor; cbn; quick A; fin A.
  - assert (Ow : p_own s w = ODobby) by (apply (a_dobby s A); [assumption|]; rewrite H1; apply elem_of_app; right; left).
    assert (Nd : NoDup (d ++ [w])) by (rewrite <- H1; apply A). apply NoDup_app in Nd as (Nd & Nd2 & _).
    constructor; cbn; quick A; try exact Nd; fin A.
    + split; [|discriminate]. intros Hw. destruct (Nd2 w Hw). left.
    + rewrite <- (a_dobby s A) by assumption. rewrite H1, elem_of_app, elem_of_list_singleton. tauto.
  - (* new *) pose proof (a_new s A (p_nobj s) ltac:(lia)) as Ow. pose proof (a_free s A _ Ow) as Oo.
    pose proof (a_gor s A (p_ng s) ltac:(lia)) as Og. pose proof (a_fresh s A (p_nch s) ltac:(lia)) as Oc.
    constructor; cbn; quick A; fin A.
    + apply (a_new s A). lia.
    + match goal with H : p_col _ = CPut _ _ |- _ => pose proof (proj2 (a_closing s A (p_nobj s))) as Q; rewrite H in Q; cbn in Q; specialize (Q eq_refl); congruence end.
    + injection H3 as <-. lia.
  - (* recycled *) assert (Ow : p_own s w = OFree /\ (w < p_nobj s)%nat) by (apply (a_pool s A); rewrite H3; apply elem_of_app; right; left).
    destruct Ow as [Ow Hlt]. pose proof (a_free s A _ Ow) as Oo.
    pose proof (a_gor s A (p_ng s) ltac:(lia)) as Og. pose proof (a_fresh s A (p_nch s) ltac:(lia)) as Oc.
    assert (Nd : NoDup (p1 ++ w :: p2)) by (rewrite <- H3; apply A).
    assert (Nd' : w ∉ p1 ++ p2 /\ NoDup (p1 ++ p2)).
    { rewrite <- Permutation_middle in Nd. apply NoDup_cons in Nd. exact Nd. }
    destruct Nd' as [Nw Nd'].
    constructor; cbn; quick A; try exact Nd'; fin A.
    + rewrite <- (a_pool s A), H3, !elem_of_app, elem_of_cons. tauto.
    + match goal with H : p_col _ = CPut _ _ |- _ => pose proof (proj2 (a_closing s A w)) as Q; rewrite H in Q; cbn in Q; specialize (Q eq_refl); congruence end.
    + injection H4 as <-. lia.
  - constructor; cbn; quick A; fin A.
  - pose proof (proj2 (a_run s A w t) H) as Ow.
    constructor; cbn; quick A; fin A.
    + exists w. rewrite tset_eq. auto.
    + exists c, t. rewrite tset_eq. auto.
    + destruct (a_queued s A w0 ltac:(assumption)) as (c' & t' & E1 & E2). exists c', t'. rewrite tset_ne; [auto|congruence].
  - exfalso. pose proof (proj2 (a_run s A w t) H) as Ow. destruct (a_open s A w ltac:(rewrite Ow; reflexivity)) as (c' & E1 & E2). congruence.
  - constructor; cbn; quick A; fin A. injection H1 as <- <-. split; [exact (a_lt s A _ _ H0)|left; exact H0].
  - constructor; cbn; quick A; fin A.
  - destruct (a_buf s A c t H0) as (w' & Hw' & Ow).
    assert (w' = w) as ->.
    { destruct (a_recv s A g w c H) as [_ [R|R]]; [exact (a_inj s A _ _ _ Hw' R)|]. destruct (a_open s A w' ltac:(rewrite Ow; reflexivity)) as (c' & E1 & E2). congruence. }
    constructor; cbn; quick A; fin A.
    destruct (a_queued s A w0 ltac:(assumption)) as (c' & t' & E1 & E2). exists c', t'. rewrite tset_ne; [auto|]. intros ->. pose proof (a_inj s A _ _ _ E1 Hw'). congruence.
  - constructor; cbn; quick A; fin A.
  - assert (Ow : p_own s w = OWork g) by (apply (a_work s A); exists c; rewrite H; reflexivity).
    assert (Oo : p_obj s w = Some c) by (apply (a_busy s A g); rewrite H; reflexivity).
    constructor; cbn; quick A; fin A.
  - assert (Ow : p_own s w = OWork g) by (apply (a_work s A); exists c; rewrite H; reflexivity).
    assert (Oo : p_obj s w = Some c) by (apply (a_busy s A g); rewrite H; reflexivity).
    constructor; cbn; quick A; fin A.
  - assert (Ow : p_own s w = OWork g) by (apply (a_work s A); exists c; rewrite H; reflexivity).
    assert (Oo : p_obj s w = Some c) by (apply (a_busy s A g); rewrite H; reflexivity).
    assert (Nw : w ∉ p_dobby s) by (rewrite (a_dobby s A) by assumption; congruence).
    constructor; cbn; quick A; fin A.
    + rewrite elem_of_app, elem_of_list_singleton. tauto.
    + rewrite elem_of_app, elem_of_list_singleton, (a_dobby s A) by assumption. tauto.
    + apply NoDup_app. split; [apply A|]. split; [|apply NoDup_singleton]. intros x Hx E. apply elem_of_list_singleton in E as ->. exact (Nw Hx).
    + injection H1 as <- <-. split; [exact (a_lt s A _ _ Oo)|left; exact Oo].
  - assert (Ow : p_own s w = OWork g) by (apply (a_work s A); exists c; rewrite H; reflexivity).
    assert (Oo : p_obj s w = Some c) by (apply (a_busy s A g); rewrite H; reflexivity).
    constructor; cbn; quick A; fin A.
  - constructor; cbn; quick A; fin A.
  - (* tick *) rename H1 into En. clear En.
    assert (Tk : forall w, w ∈ take n (p_dobby s) -> p_own s w = ODobby).
    { intros w Hw. apply (a_dobby s A); [assumption|]. rewrite <- (take_drop n (p_dobby s)). apply elem_of_app. left. exact Hw. }
    assert (Nd : NoDup (take n (p_dobby s) ++ drop n (p_dobby s))) by (rewrite take_drop; apply A). apply NoDup_app in Nd as (Nd1 & Nd2 & Nd3).
    assert (Nc : forall w, p_own s w <> OCol) by (intros w; rewrite (a_col s A), H; apply not_elem_of_nil).
    assert (Ncl : forall w, p_own s w <> OClosing) by (intros w; rewrite (a_closing s A), H; discriminate).
    constructor; cbn; quick A; try assumption; intros; oa; try (match goal with H : _ ∈ take n _ |- _ => pose proof (Tk _ H) end); fin A.
    + split; [|discriminate]. intros Hw. destruct (Nd2 w); assumption.
    + rewrite <- (a_dobby s A) by assumption. rewrite <- (take_drop n (p_dobby s)) at 2. rewrite elem_of_app. tauto.
    + match goal with H : p_buf _ ?c = Some ?t |- _ => destruct (a_buf _ A c t H) as (v & Hv & Hq) end. exists v. split; [exact Hv|]. case_decide; [|exact Hq]. rewrite Tk in Hq by assumption. discriminate.
  - exfalso. apply (a_max s A) in H0. congruence.
  - exfalso. apply (a_max s A) in H0. congruence.
  - (* close *) assert (Ow : p_own s w = OCol) by (apply (a_col s A); rewrite H; left).
    assert (Nd : NoDup (w :: ws)) by (pose proof (a_col_nodup s A) as N; rewrite H in N; exact N). apply NoDup_cons in Nd as [Nd1 Nd2].
    assert (Oth : forall w0 c0, w0 <> w -> p_obj s w0 = Some c0 -> c0 <> c) by (intros w0 c0 Hne E ->; apply Hne; exact (a_inj s A _ _ _ E H0)).
    constructor; cbn; quick A; try assumption; fin A.
    + match goal with H : CNil _ _ = CNil _ _ |- _ => injection H as <- <- end. exists c. rewrite tset_eq. auto.
    + destruct (a_open s A w0 ltac:(assumption)) as (c' & E1 & E2). exists c'. rewrite tset_ne by (eapply Oth; eassumption). auto.
    + apply (a_fresh s A). assumption.
  - exfalso. assert (Ow : p_own s w = OCol) by (apply (a_col s A); rewrite H; left).
    destruct (a_open s A w ltac:(rewrite Ow; reflexivity)) as (c & E1 & E2). specialize (H0 c E1). congruence.
  - (* nil *) assert (Ow : p_own s w = OClosing) by (apply (a_closing s A); rewrite H; reflexivity).
    destruct (a_nil s A w ws H) as (c & Oo & Oc). pose proof (a_col_nodup s A) as Nd. rewrite H in Nd. cbn in Nd.
    constructor; cbn; quick A; try assumption; fin A.
    + rewrite Ow in *. discriminate.
    + match goal with H : p_gor _ ?g = GRecv ?w ?c |- _ => destruct (a_recv _ A g w c H) as [R1 R2] end. split; [exact R1|right]. destruct R2; congruence.
  - (* put *) assert (Ow : p_own s w = OClosing) by (apply (a_closing s A); rewrite H; reflexivity).
    pose proof (a_put s A w ws H) as Oo. pose proof (a_col_nodup s A) as Nd. rewrite H in Nd. cbn in Nd.
    assert (Hlt : (w < p_nobj s)%nat) by (destruct (Nat.lt_ge_cases w (p_nobj s)) as [|Hge]; [assumption|]; pose proof (a_new s A w Hge); congruence).
    assert (Nw : w ∉ ws) by (intros Hw; pose proof (proj2 (a_col s A w)) as Q; rewrite H in Q; specialize (Q Hw); congruence).
    constructor; cbn; quick A; try assumption; fin A.
    + rewrite elem_of_cons. tauto.
    + rewrite elem_of_cons, (a_pool s A). tauto.
    + apply NoDup_cons. split; [|apply A]. rewrite (a_pool s A). intros [? ?]. congruence.
  - constructor; cbn; quick A; try assumption; fin A.
  - constructor; cbn; quick A; try assumption; fin A.
  - (* stop *) assert (Hm : p_max s <> -1) by (intros E; apply (a_max s A) in E; congruence).
    assert (Tk : forall w, w ∈ p_dobby s -> p_own s w = ODobby) by (intros w; apply (a_dobby s A), Hm).
    constructor; cbn; quick A; try assumption; intros; oa; try (match goal with H : _ ∈ p_dobby _ |- _ => pose proof (Tk _ H) end); fin A.
    + rewrite <- (a_dobby s A) by assumption. assumption.
    + split; [discriminate|]. intros Hw. inversion Hw.
    + destruct (a_open s A w ltac:(assumption)) as (c & E1 & E2). exists c. split; [exact E1|]. apply close_all_false. split; [exact E2|].
      intros w' Hw' E'. pose proof (a_inj s A _ _ _ E' E1). subst w'. contradiction.
    + match goal with H : p_buf _ ?c = Some ?t |- _ => destruct (a_buf _ A c t H) as (v & Hv & Hq) end. exists v. split; [exact Hv|]. case_decide; [|exact Hq]. rewrite Tk in Hq by assumption. discriminate.
    + apply close_all_false. split; [apply (a_fresh s A); assumption|]. intros w' _ E'. pose proof (a_lt s A _ _ E'). lia.
    + match goal with H : p_gor _ ?g = GRecv ?w ?c |- _ => destruct (a_recv _ A g w c H) as [R1 R2] end. split; [exact R1|]. destruct R2; [left; assumption|right]. apply close_all_true. left. assumption.
  - exfalso. apply H0. apply dobby_closable; [exact A|]. intros E. apply (a_max s A) in E. congruence.
  - constructor; cbn; quick A.
  - constructor; cbn; quick A.
  - constructor; cbn; quick A.
Qed.
Lemma pinv_reach maxw n tts clock s : 0 < maxw -> reach (p_init maxw n tts clock) (p_step idle) s -> pinv s.
Proof. intros Hm. apply reach_invariant; [apply pinv_init, Hm|exact pinv_step]. Qed.
End step.
