(** Invariants of SigModel (osx/closex/closex.go 14-29). *)
From Verif Require Import Base Conc Fair SigModel.

Global Instance slab_eq_dec : EqDecision slab.
Proof. solve_decision. Defined.
Definition b2n (b : bool) : nat := if b then 1 else 0.
(** how often the handler of call i is begun, and returns, in a trace; how many signals there are *)
Definition begins (i : nat) (tr : list slab) : nat := length (filter (fun l => l = LBegin i) tr).
Definition ends (i : nat) (tr : list slab) : nat := length (filter (fun l => l = LEnd i) tr).
Definition is_sig (l : slab) : Prop := match l with LSig _ => True | _ => False end.
Global Instance is_sig_dec l : Decision (is_sig l).
Proof. destruct l; cbn; apply _. Defined.
Definition signals (tr : list slab) : nat := length (filter is_sig tr).

Definition in_run (p : gpc) : bool := match p with GIn | GShut | GGone => true | _ => false end.
Definition at_shut (p : gpc) : bool := match p with GShut => true | _ => false end.
Definition active (p : gpc) : bool := match p with GWait => false | _ => true end.
Definition pending (p : sg -> bool) : nat := b2n (p SigInt) + b2n (p SigQuit) + b2n (p SigTerm).
Definition to_serve (td : option (list nat)) (i : nat) : nat := match td with Some l => if decide (i ∈ l) then 1 else 0 | None => 0 end.
Definition credit (s : sst) (i : nat) : nat :=
  pending (s_pend s) + to_serve (s_todo s) i + b2n (g_buf (s_gor s i)) + b2n (active (g_pc (s_gor s i))) + b2n (g_closed (s_gor s i)).

Lemma pending_set p x : pending (fun y => if decide (y = x) then true else p y) <= S (pending p).
Proof. unfold pending. destruct x; repeat (destruct (decide _); try congruence); destruct (p SigInt), (p SigQuit), (p SigTerm); cbn; lia. Qed.
Lemma pending_take p x : p x = true -> pending p = S (pending (fun y => if decide (y = x) then false else p y)).
Proof. intros H. unfold pending. destruct x; repeat (destruct (decide _); try congruence); rewrite H; destruct (p SigInt), (p SigQuit), (p SigTerm); cbn in *; try lia; discriminate. Qed.

Section inv.
Context (lognil : nat -> bool) (hout : nat -> nat -> hres).
Local Notation step := (s_step lognil hout).
(** what holds of each goroutine *)
Record ginv (tr : list slab) (s : sst) (i : nat) : Prop := {
  v_ran : g_ran (s_gor s i) = begins i tr;
  v_begins : begins i tr = b2n (g_closed (s_gor s i)) + b2n (in_run (g_pc (s_gor s i)));
  v_ends : ends i tr = b2n (g_closed (s_gor s i)) + b2n (at_shut (g_pc (s_gor s i)));
  v_credit : credit s i <= s_sigs s;
  v_log : lognil i = true -> begins i tr = 0 /\ g_pc (s_gor s i) <> GCall;
  v_exit : hout i 0 = HExit -> ends i tr = 0;
  v_new : s_n s <= i -> s_gor s i = G false GWait false 0 }.
Record sinv (tr : list slab) (s : sst) : Prop := {
  v_all : forall i, ginv tr s i;
  v_sigs : s_sigs s = signals tr;
  v_todo : match s_todo s with Some l => NoDup l /\ (forall i, i ∈ l -> i < s_n s) | None => True end;
  v_turn : pending (s_pend s) + b2n (match s_todo s with Some _ => true | None => false end) <= s_sigs s }.
Lemma begins_snoc i tr l : begins i (tr ++ [l]) = begins i tr + if decide (l = LBegin i) then 1 else 0.
Proof. unfold begins. rewrite filter_app, app_length, filter_cons, filter_nil. destruct (decide _); reflexivity. Qed.
Lemma ends_snoc i tr l : ends i (tr ++ [l]) = ends i tr + if decide (l = LEnd i) then 1 else 0.
Proof. unfold ends. rewrite filter_app, app_length, filter_cons, filter_nil. destruct (decide _); reflexivity. Qed.
Lemma signals_snoc tr l : signals (tr ++ [l]) = signals tr + if decide (is_sig l) then 1 else 0.
Proof. unfold signals. rewrite filter_app, app_length, filter_cons, filter_nil. destruct (decide _); reflexivity. Qed.
Lemma sinv_init : sinv [] s_init.
Proof. constructor; cbn; auto. intros i. constructor; cbn; auto. Qed.
Lemma sinv_step tr s l s' : sinv tr s -> step s l s' -> sinv (tr ++ [l]) s'.
Proof.
  intros [V VS VT VU] H. constructor.
  - intros j. pose proof (V j) as [R B En C Lg Ex Nw].
    destruct H as [n gr p k|gr p td k x|n gr p td k x Hn|n gr p k x Hx|n gr p k l1 i l2 b c pc r Hi|n gr p k|n gr p td k i c r Hi|n gr p td k i b c r Hi HL|n gr p td k i b c r Hi HL|n gr p td k i b c r Hi|n gr p td k i b c r Hi HO|n gr p td k i b c r Hi HO|n gr p td k i b c r Hi HO|n gr p td k i b r Hi|n gr p td k i b r Hi];
    cbn [s_gor s_n s_pend s_todo s_sigs] in *; unfold credit in *; cbn [s_gor s_n s_pend s_todo s_sigs to_serve] in *.
    all: try (pose proof (pending_set p x)); try (pose proof (pending_take p x Hx)).
    all: try (assert (to_serve (Some (seq 0 n)) j <= 1) by (cbn; destruct (decide (j ∈ seq 0 n)); lia)).
    all: try (destruct (decide (j = i)) as [->|Hji]; [rewrite Hi in *; cbn in *|]).
    all: constructor; rewrite ?begins_snoc, ?ends_snoc; unfold credit; cbn [s_gor s_n s_pend s_todo s_sigs to_serve]; rewrite ?tset_eq, ?tset_ne by assumption; rewrite ?decide_False by congruence; rewrite ?decide_True by reflexivity; cbn [g_ran g_closed g_pc g_buf in_run at_shut active b2n] in *.
    all: try (intros; first [lia | (split; [lia|discriminate]) ]; fail).
    all: rewrite ?Nat.add_0_r, ?Hi; cbn [g_ran g_closed g_pc g_buf in_run at_shut active b2n].
    all: try assumption; try lia.
    all: try (intros Hn'; specialize (Nw ltac:(lia)); congruence).
    all: try (intros Hl; destruct (Lg Hl) as [L1 L2]; split; [lia|congruence]).
    all: try (intros Hl; destruct (Lg Hl) as [L1 L2]; congruence).
    + cbn in *. destruct (decide (j ∈ seq 0 n)); lia.
    + destruct VT as [ND _]. rewrite decide_True in C by (rewrite elem_of_app, elem_of_cons; auto). apply NoDup_app in ND as (N1 & N2 & N3). apply NoDup_cons in N3 as [N3 _].
      rewrite decide_False; [destruct b; cbn in C; lia|]. rewrite elem_of_app. intros [X|X]; [|exact (N3 X)]. apply (N2 i X). left.
    + intros Hn'. destruct VT as [_ LT]. specialize (LT i ltac:(rewrite elem_of_app, elem_of_cons; auto)). lia.
    + destruct (decide (j ∈ l1 ++ l2)) as [X|X]; [|lia]. rewrite decide_True in C; [lia|]. rewrite elem_of_app, elem_of_cons. apply elem_of_app in X as [X|X]; auto.
    + intros Hx. specialize (Ex Hx). destruct c; cbn in *; [lia|]. assert (r = 0) as -> by lia. congruence.
  - rewrite signals_snoc, <- VS. destruct H; destruct (decide (is_sig _)) as [X|X]; cbn in X; try tauto; cbn; lia.
  - destruct H; cbn in *; auto.
    + split; [apply NoDup_seq|]. intros i Hi. apply elem_of_seq in Hi. lia.
    + destruct VT as [ND LT]. split.
      * apply NoDup_app in ND as (N1 & N2 & N3). apply NoDup_cons in N3 as [N3 N4]. apply NoDup_app. split; [exact N1|]. split; [|exact N4]. intros y Hy Hy'. apply (N2 y Hy). right. exact Hy'.
      * intros y Hy. apply LT. rewrite elem_of_app, elem_of_cons. apply elem_of_app in Hy as [Hy|Hy]; auto.
  - destruct H; cbn in *; auto; try lia.
    + pose proof (pending_set p x). lia.
    + pose proof (pending_take p x H). lia.
Qed.
Lemma sinv_steps tr s : steps step s_init tr s -> sinv tr s.
Proof. revert tr s. apply steps_trace_invariant; [exact sinv_init|]. intros tr s l s' _ I H. exact (sinv_step tr s l s' I H). Qed.
End inv.
