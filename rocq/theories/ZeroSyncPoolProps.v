(** syncpoolx.Pool (syncx/syncpoolx/syncpoolx.go) declared with var and never initialized, its callers recovering. *)
From Verif Require Import Base SyncPoolModel RecModel RecProofs.

(** a call whose panic is recovered: Get of a pool without New takes nothing from it before the type assertion panics
    (syncpoolx.go 26); the runtime may have dropped objects *)
Definition pr_step (news : nat -> nat) (s : pstate) (eo : penv * pop) : pstate * res (option nat) :=
  match p_step news s eo with
  | Ret (s', r) => (s', Ret r)
  | Panic => (PS (p_init s) (filter (fun x => e_keep eo.1 x = true) (p_pool s)) (p_made s), Panic)
  | Spin => (s, Spin)
  end.
#[local] Instance pop_dec : EqDecision pop. Proof. solve_decision. Defined.
#[local] Instance rs_dec : EqDecision (res (option nat)). Proof. solve_decision. Defined.
(** how often x was put, and got *)
Definition was_put (x : nat) (os : list (penv * pop)) : nat := length (filter (fun o => o.2 = PPut x) os).
Definition was_got (x : nat) (rs : list (res (option nat))) : nat := length (filter (fun r => r = Ret (Some x)) rs).

Lemma zero_get news s ev : p_init s = false ->
  (pr_step news s (ev, PGet)).2 = Panic /\ p_init (pr_step news s (ev, PGet)).1 = false /\ (forall x, count_occ Nat.eq_dec (p_pool (pr_step news s (ev, PGet)).1) x <= count_occ Nat.eq_dec (p_pool s) x) \/
  exists x, (pr_step news s (ev, PGet)).2 = Ret (Some x) /\ p_init (pr_step news s (ev, PGet)).1 = false /\
    forall y, count_occ Nat.eq_dec (p_pool (pr_step news s (ev, PGet)).1) y + (if decide (y = x) then 1 else 0) <= count_occ Nat.eq_dec (p_pool s) y.
Proof.
  intros HI. assert (FC : forall l y, count_occ Nat.eq_dec (filter (fun x => e_keep ev x = true) l) y <= count_occ Nat.eq_dec l y).
  { clear. intros l y. induction l as [|z l IH]; [reflexivity|]. rewrite filter_cons. case_decide; cbn; destruct (Nat.eq_dec z y); lia. }
  unfold pr_step, p_step, pool_get. cbn [p_init p_pool p_made]. destruct (e_pick ev) as [i|]; cbn.
  - destruct (filter (fun x => e_keep ev x = true) (p_pool s) !! i) as [x|] eqn:E; cbn.
    + right. exists x. split; [reflexivity|]. split; [exact HI|]. intros y. specialize (FC (p_pool s) y). rewrite <- (take_drop_middle _ _ _ E) in FC.
      rewrite !count_occ_app in *. cbn in FC. destruct (Nat.eq_dec x y), (decide (y = x)); subst; try congruence; lia.
    + rewrite HI. cbn. left. split; [reflexivity|]. split; [reflexivity|]. apply FC.
  - rewrite HI. cbn. left. split; [reflexivity|]. split; [reflexivity|]. apply FC.
Qed.
(** *** Without Init a Get panics or hands out what was put, and nothing more often than it was put; so with nothing put it
    panics.  A Put always returns *)
Theorem syncpool_zero news (hist : list (penv * pop)) : (forall ev, (ev, PInit) ∉ hist) ->
  let rs := (rec_run (pr_step news) p_zero hist).1 in
  (forall i ev, hist !! i = Some (ev, PGet) -> rs !! i = Some Panic \/ exists x, rs !! i = Some (Ret (Some x)) /\ was_got x (take (S i) rs) <= was_put x (take i hist)) /\
  (forall i ev x, hist !! i = Some (ev, PPut x) -> rs !! i = Some (Ret None)).
Proof.
  assert (G : forall hist s, p_init s = false -> (forall ev, (ev, PInit) ∉ hist) ->
    let rs := (rec_run (pr_step news) s hist).1 in
    (forall i ev, hist !! i = Some (ev, PGet) -> rs !! i = Some Panic \/ exists x, rs !! i = Some (Ret (Some x)) /\ was_got x (take (S i) rs) <= was_put x (take i hist) + count_occ Nat.eq_dec (p_pool s) x) /\
    (forall i ev x, hist !! i = Some (ev, PPut x) -> rs !! i = Some (Ret None))).
  { clear hist. intros hist. induction hist as [|[ev o] hist IH]; intros s HI HN; [split; intros i ?; intros; rewrite lookup_nil in *; discriminate|].
    cbn zeta in *. rewrite rec_run_cons. cbn [fst].
    assert (HN' : forall ev, (ev, PInit) ∉ hist) by (intros e Q; apply (HN e); right; exact Q).
    destruct o as [| |z]; [destruct (HN ev); left|..].
    - destruct (zero_get news s ev HI) as [(E & E2 & E3)|(x & E & E2 & E3)]; rewrite E; destruct (IH _ E2 HN') as [A B].
      + split; [|intros [|i] e x H; [discriminate|exact (B i e x H)]]. intros [|i] e H; [left; reflexivity|]. destruct (A i e H) as [Q|(x & Q & L)]; [left; exact Q|].
        right. exists x. split; [exact Q|]. cbn [take]. unfold was_got, was_put in *. rewrite !filter_cons. case_decide; [discriminate|]. case_decide; [discriminate|]. specialize (E3 x). lia.
      + split; [|intros [|i] e y H; [discriminate|exact (B i e y H)]]. intros [|i] e H.
        { right. exists x. split; [reflexivity|]. unfold was_got, was_put. cbn [take]. rewrite take_0, filter_cons. case_decide; [|congruence]. rewrite filter_nil. cbn [length]. specialize (E3 x). rewrite decide_True in E3 by reflexivity. lia. }
        destruct (A i e H) as [Q|(y & Q & L)]; [left; exact Q|]. right. exists y. split; [exact Q|]. cbn [take]. unfold was_got, was_put in *. rewrite !filter_cons.
        case_decide as D1; (case_decide; [discriminate|]); cbn [length]; specialize (E3 y); destruct (decide (y = x)); subst; try congruence; lia.
    - assert (E : pr_step news s (ev, PPut z) = (PS (p_init s) (z :: filter (fun x => e_keep ev x = true) (p_pool s)) (p_made s), Ret None)) by reflexivity. rewrite E. cbn [fst snd].
      destruct (IH (PS (p_init s) (z :: filter (fun x => e_keep ev x = true) (p_pool s)) (p_made s)) HI HN') as [A B].
      assert (FC : forall y, count_occ Nat.eq_dec (filter (fun x => e_keep ev x = true) (p_pool s)) y <= count_occ Nat.eq_dec (p_pool s) y).
      { clear. intros y. induction (p_pool s) as [|w l IH]; [reflexivity|]. rewrite filter_cons. case_decide; cbn; destruct (Nat.eq_dec w y); lia. }
      split; [|intros [|i] e y H; [reflexivity|exact (B i e y H)]]. intros [|i] e H; [discriminate|].
      destruct (A i e H) as [Q|(y & Q & L)]; [left; exact Q|]. right. exists y. split; [exact Q|]. cbn [take]. unfold was_got, was_put in *. rewrite !filter_cons. cbn [p_pool count_occ] in L. specialize (FC y).
      case_decide as D1; [discriminate|]. case_decide as D2; cbn [snd length] in *; destruct (Nat.eq_dec z y); subst; try congruence; lia. }
  intros HN. destruct (G hist p_zero eq_refl HN) as [A B]. split; [|exact B]. intros i ev H. destruct (A i ev H) as [Q|(x & Q & L)]; [left; exact Q|]. right. exists x. split; [exact Q|]. cbn in L. lia.
Qed.
Print Assumptions syncpool_zero.
Example syncpool_zero_case : (rec_run (pr_step (fun k => k)) p_zero
  [(Env (fun _ => true) None, PGet); (Env (fun _ => true) None, PPut 7); (Env (fun _ => true) (Some 0), PGet); (Env (fun _ => true) (Some 0), PGet)]).1 = [Panic; Ret None; Ret (Some 7); Panic].
Proof. reflexivity. Qed.
