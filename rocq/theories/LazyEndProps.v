(** Calls of Get of functionalx/lazyx/lazy.go come to an end under every scheduler. *)
From Verif Require Import Base Conc Fair LazyModel LazyProofs LazyProps LazyFairProps ConvEndProps.

Section ends.
Context {A : Type} (zero : A) (ctor : nat -> res A).
Implicit Types s : lstate A.
Local Notation step := (l_step ctor).
Local Notation go := (l_go ctor).
Local Notation own t ls := (length (filter (fun u => u = t) ls)).

(** a goroutine makes at most eight steps in a call of Get, whatever the others do *)
Lemma own_steps s ls s' t : steps go s ls s' -> own t ls + l_rank (l_th s' t) <= l_rank (l_th s t).
Proof.
  induction 1 as [s|s ls s1 l s' _ IH [HS I]]; [cbn; lia|]. rewrite filter_app, app_length, filter_cons, filter_nil. case_decide as E.
  - subst l. destruct (self_step ctor s1 t s' HS I) as [L _]. cbn. lia.
  - rewrite (other_step ctor s1 l s' t HS) by congruence. cbn. lia.
Qed.
Theorem lazy_get_bounded s ls s' t : steps go s ls s' -> own t ls <= 8.
Proof. intros H%(own_steps _ _ _ t). assert (l_rank (l_th s t) <= 8) by (destruct (l_th s t); cbn; lia). lia. Qed.

(** while nobody calls Get anew no execution goes on for ever, and where none can go on every
    call has ended: with a value or a panic if the constructor ends; otherwise one goroutine
    is in the constructor and the others wait for it *)
Theorem lazy_calls_end s : reach (l_new zero) step s ->
  Acc (fun s' s => exists t, go s t s') s /\
  ((forall t s', ~ go s t s') -> (forall t, ~ in_call (l_th s t)) \/
     ctor 0 = Spin /\ exists t, l_th s t = LRun 0 /\ forall u, u <> t -> in_call (l_th s u) -> l_th s u = LWait).
Proof.
  intros R. split.
  - destruct (finitely_many zero ctor s R) as [n Fi]. clear R.
    assert (X : Acc (fun y x => one (fun p q : lpc A => l_rank q < l_rank p) n x y) (l_th s)).
    { apply one_acc. intros t _. apply (well_founded_ltof (lpc A) (@l_rank A)). }
    remember (l_th s) as th eqn:Eth. revert s Fi Eth. induction X as [th _ IH]. intros s Fi ->. constructor. intros s' [t [HS I]].
    destruct (self_step ctor s t s' HS I) as [L _].
    assert (Ht : t < n). { destruct (decide (t < n)) as [?|N]; [assumption|]. exfalso. rewrite Fi in I by lia. exact I. }
    apply (IH (l_th s')); [|intros u Hu; rewrite (other_step ctor s t s' u HS) by lia; apply Fi, Hu|reflexivity].
    exists t. split; [exact Ht|]. split; [exact L|]. intros u _ N. apply (other_step ctor s t s' u HS), N.
  - intros St. pose proof (linv_reach zero ctor s R) as V.
    assert (C : ctor 0 <> Spin \/ ctor 0 = Spin) by (destruct (ctor 0); [left; discriminate|left; discriminate|right; reflexivity]).
    destruct C as [C|C].
    { left. intros t I. destruct (lazy_progress A zero ctor s t C R I) as (u & s' & Iu & HS). exact (St u s' (conj HS Iu)). }
    assert (P : forall u, in_call (l_th s u) -> l_th s u = LRun 0 \/ l_th s u = LWait /\ exists h, l_mutex s = Some h).
    { intros u I. pose proof (li_pc _ _ _ V u) as P. assert (N : forall s', ~ l_step ctor s u s') by (intros s' HS; exact (St u s' (conj HS I))).
      destruct s as [d m v c th]. cbn in *. destruct (th u) as [| | | |n|x|ok|ok| |x|] eqn:T; try (destruct I; fail).
      - exfalso. eapply N, ls_load, T.
      - right. split; [reflexivity|]. destruct m as [h|]; [eauto|]. exfalso. eapply N, ls_lock, T.
      - exfalso. destruct d; [eapply N, ls_check_done, T|eapply N, ls_check_run, T].
      - left. destruct P as [-> _]. reflexivity.
      - exfalso. eapply N, ls_assign, T.
      - exfalso. eapply N, ls_set_done, T.
      - exfalso. eapply N, ls_unlock, T.
      - exfalso. eapply N, ls_read, T. }
    assert (H : forall u, in_call (l_th s u) -> exists t, l_th s t = LRun 0 /\ l_mutex s = Some t).
    { intros u I. destruct (P u I) as [E|[E [h Hm]]].
      - exists u. split; [exact E|]. apply (li_mutex _ _ _ V). rewrite E. exact Logic.I.
      - exists h. split; [|exact Hm]. apply (li_mutex _ _ _ V) in Hm. destruct (P h) as [E'|[E' _]]; [destruct (l_th s h); cbn in *; tauto|exact E'|].
        rewrite E' in Hm. destruct Hm. }
    destruct (finitely_many zero ctor s R) as [n Fi].
    assert (D : (exists u, in_call (l_th s u)) \/ forall u, ~ in_call (l_th s u)).
    { clear -Fi. induction n as [|n IH] in Fi |- *; [right; intros u; rewrite Fi by lia; tauto|].
      assert (X : in_call (l_th s n) \/ ~ in_call (l_th s n)) by (destruct (l_th s n); cbn; tauto). destruct X as [X|X]; [left; eauto|].
      assert (Y : (exists u, u < n /\ in_call (l_th s u)) \/ forall u, u < n -> ~ in_call (l_th s u)).
      { clear. induction n as [|n IH]; [right; intros; lia|]. destruct IH as [(u & Hu & I)|N]; [left; exists u; split; [lia|exact I]|].
        assert (X : in_call (l_th s n) \/ ~ in_call (l_th s n)) by (destruct (l_th s n); cbn; tauto). destruct X as [X|X]; [left; exists n; split; [lia|exact X]|].
        right. intros u Hu. destruct (decide (u = n)) as [->|]; [exact X|apply N; lia]. }
      destruct Y as [(u & _ & I)|N]; [left; eauto|]. right. intros u. destruct (decide (u < n)) as [|]; [apply N; assumption|].
      destruct (decide (u = n)) as [->|]; [exact X|]. rewrite Fi by lia. tauto. }
    destruct D as [[u I]|D]; [right|left; exact D]. split; [exact C|]. destruct (H u I) as (t & E & M). exists t. split; [exact E|].
    intros w Nw Iw. destruct (P w Iw) as [E'|[E' _]]; [|exact E']. exfalso. apply Nw.
    assert (X : l_mutex s = Some w) by (apply (li_mutex _ _ _ V); rewrite E'; exact Logic.I). congruence.
Qed.
(** an execution that never stops calls Get again and again *)
Theorem lazy_infinite_calls (e : nat -> lstate A) ls : e 0 = l_new zero -> (forall i, step (e i) (ls i) (e (S i))) ->
  forall i, exists j, i <= j /\ ~ in_call (l_th (e j) (ls j)) /\ l_th (e (S j)) (ls j) = LLoad.
Proof.
  intros E0 ES i. assert (R : forall i, reach (l_new zero) step (e i)).
  { intros k. induction k as [|k IH]; [rewrite E0; apply reach_refl|eapply reach_snoc; [exact IH|apply ES]]. }
  destruct (lazy_calls_end (e i) (R i)) as [X _]. remember (e i) as s eqn:Es. revert i Es. induction X as [s _ IH]. intros i ->.
  assert (D : in_call (l_th (e i) (ls i)) \/ ~ in_call (l_th (e i) (ls i))) by (destruct (l_th (e i) (ls i)); cbn; tauto).
  destruct D as [D|D].
  - destruct (IH (e (S i)) (ex_intro _ (ls i) (conj (ES i) D)) (S i) eq_refl) as (j & Hj & J). exists j. split; [lia|exact J].
  - exists i. split; [lia|]. split; [exact D|]. specialize (ES i). remember (e (S i)) as s' eqn:Es. clear Es IH. remember (e i) as s eqn:Es. clear Es. remember (ls i) as t eqn:Et. clear Et.
    destruct ES; cbn in *; rewrite ?tset_eq; try reflexivity; exfalso; apply D; match goal with H : _ t = _ |- _ => rewrite H; exact Logic.I end.
Qed.
End ends.
Print Assumptions lazy_get_bounded.
Print Assumptions lazy_calls_end.
Print Assumptions lazy_infinite_calls.
(** two calls under way: one in the constructor, one waiting for it; if the constructor does not return that is the end *)
Example lazy_calls_end_case (ctor : nat -> res nat) : exists s, reach (l_new 0) (l_step ctor) s /\ l_th s 0 = LRun 0 /\ l_th s 1 = LWait /\
  (ctor 0 = Spin -> forall t s', ~ l_go ctor s t s').
Proof.
  eexists. split; [|split; [|split]].
  - eapply reach_snoc with (l := 1). eapply reach_snoc with (l := 1).
    eapply reach_snoc with (l := 0). eapply reach_snoc with (l := 0). eapply reach_snoc with (l := 0). eapply reach_snoc with (l := 0). apply reach_refl.
    + apply ls_call. left. reflexivity.
    + apply ls_load. reflexivity.
    + apply ls_lock. reflexivity.
    + apply ls_check_run. reflexivity.
    + apply ls_call. left. reflexivity.
    + apply ls_load. reflexivity.
  - reflexivity.
  - reflexivity.
  - intros C t s' [HS I]. cbn in I. destruct t as [|[|t]]; cbn in I; [| |]; [..|exact I].
    + inversion HS; subst; cbn in *; try discriminate; try congruence. all: match goal with H : _ \/ _ |- _ => destruct H as [H|[[? H]|H]]; discriminate | E : _ = LRun _ |- _ => vm_compute in E; congruence end.
    + inversion HS; subst; cbn in *; try discriminate. match goal with H : _ \/ _ |- _ => destruct H as [H|[[? H]|H]]; discriminate end.
Qed.
(** an execution that never stops: goroutine 0 calls Get again and again *)
Definition get_again (s : lstate nat) : lstate nat :=
  let 'LS d m v c th := s in
  match th 0 with
  | LLoad => LS d m v c (tset th 0 (if d then LRead else LWait))
  | LWait => LS d (Some 0) v c (tset th 0 LCheck)
  | LCheck => if d then LS d m v c (tset th 0 (LUnlock true)) else LS d m v (S c) (tset th 0 (LRun c))
  | LRun _ => LS d m v c (tset th 0 (LAssign 7))
  | LAssign x => LS d m x c (tset th 0 (LSetDone true))
  | LSetDone ok => LS true m v c (tset th 0 (LUnlock ok))
  | LUnlock ok => LS d None v c (tset th 0 (if ok then LRead else LPanicked))
  | LRead => LS d m v c (tset th 0 (LRet v))
  | _ => LS d m v c (tset th 0 LLoad)
  end.
Example lazy_infinite_calls_case : exists (e : nat -> lstate nat) ls, e 0 = l_new 0 /\ forall i, l_step (fun _ => Ret 7) (e i) (ls i) (e (S i)).
Proof.
  exists (fun i => Nat.iter i get_again (l_new 0)), (fun _ => 0). split; [reflexivity|].
  assert (W : forall i, l_th (Nat.iter i get_again (l_new 0)) 0 = LWait -> l_mutex (Nat.iter i get_again (l_new 0)) = None).
  { assert (G : forall i, match l_th (Nat.iter i get_again (l_new 0)) 0 with LCheck | LRun _ | LAssign _ | LSetDone _ | LUnlock _ => True | _ => l_mutex (Nat.iter i get_again (l_new 0)) = None end).
    { induction i as [|i IH]; [reflexivity|]. change (Nat.iter (S i) get_again (l_new 0)) with (get_again (Nat.iter i get_again (l_new 0))).
      destruct (Nat.iter i get_again (l_new 0)) as [d m v c th]. cbn in *. destruct (th 0) as [| | | |n|x|ok|ok| |x|]; cbn; try exact Logic.I; try exact IH; try reflexivity; try destruct d; try destruct ok; cbn; try exact IH; try exact Logic.I; reflexivity. }
    intros i E. specialize (G i). rewrite E in G. exact G. }
  intros i. specialize (W i). change (Nat.iter (S i) get_again (l_new 0)) with (get_again (Nat.iter i get_again (l_new 0))).
  destruct (Nat.iter i get_again (l_new 0)) as [d m v c th]. cbn in *. destruct (th 0) as [| | | |n|x|ok|ok| |x|] eqn:T.
  - apply ls_call. auto.
  - apply ls_load, T.
  - rewrite W by reflexivity. apply ls_lock, T.
  - destruct d; [apply ls_check_done, T|apply ls_check_run, T].
  - eapply ls_ctor_ret; [exact T|reflexivity].
  - apply ls_assign, T.
  - apply ls_set_done, T.
  - apply ls_unlock, T.
  - apply ls_read, T.
  - apply ls_call. eauto.
  - apply ls_call. auto.
Qed.
