(** Hierarchies of CloseManagers: programs that close them come to an end. *)
From Verif Require Import Base Conc CloseTreeModel CloseNetModel CloseNetProps.

(** sums over the goroutines below K *)
Fixpoint sm (f : nat -> nat) (K : nat) : nat := match K with 0 => 0 | S K => f K + sm f K end.
Lemma sm_ext f g K : (forall u, u < K -> f u = g u) -> sm f K = sm g K.
Proof. induction K as [|K IH]; intros H; cbn; [reflexivity|]. rewrite H, IH by auto with lia. reflexivity. Qed.
Lemma sm_upd f f' t K : (forall u, u <> t -> f' u = f u) -> t < K -> sm f' K + f t = sm f K + f' t.
Proof.
  intros H. induction K as [|K IH]; intros Ht; [lia|]. cbn. destruct (decide (t = K)) as [->|N].
  - rewrite (sm_ext f' f K) by (intros u Hu; apply H; lia). lia.
  - rewrite (H K) by congruence. specialize (IH ltac:(lia)). lia.
Qed.
(** how often code calls Append *)
Fixpoint apps (k : wcode) : nat := match k with WEnd => 0 | WAppend _ _ k => S (apps k) | WClose _ k => apps k end.
Definition apps_th (x : wthr) : nat := match w_pc x with WGo k => apps k | WUnw => 0 end.

Section ends.
Context (main : nat -> wcode) (K : nat) (HM : forall t, wlow (main t)) (HK : forall t, K <= t -> main t = WEnd).
Notation init := (w_init main).
(** no list gets longer than that *)
Definition most : nat := sm (fun t => apps (main t)) K.
(** the steps for one element of the list of manager m *)
Fixpoint each (m : nat) : nat := match m with 0 => 1 | S m => 3 + most * each m end.
Lemma each_le m n : m <= n -> each m <= each n.
Proof.
  assert (S1 : forall p, each p <= each (S p)).
  { intros p. induction p as [|p IH]; [change (1 <= 3 + most * 1); lia|]. change (3 + most * each p <= 3 + most * each (S p)). pose proof (Nat.mul_le_mono_l _ _ most IH). lia. }
  induction 1 as [|n H IH]; [lia|]. specialize (S1 n). lia.
Qed.
Lemma each_lt a m : a < m -> 3 + most * each a <= each m.
Proof. intros H. change (3 + most * each a) with (each (S a)). apply each_le. lia. Qed.
Lemma each_pos m : 1 <= each m.
Proof. destruct m as [|m]; [reflexivity|]. change (1 <= 3 + most * each m). lia. Qed.
Fixpoint frames (st : list (nat * list citem)) : nat := match st with [] => 0 | (m, r) :: st => length r * each m + 1 + frames st end.
Fixpoint codes (k : wcode) : nat := match k with WEnd => 0 | WAppend _ _ k => 1 + codes k | WClose m k => 2 + most * each m + codes k end.
Definition pot (x : wthr) : nat := match w_pc x with WGo k => codes k + frames (w_in x) | WUnw => length (w_in x) end.
Lemma frames_len st : length st <= frames st.
Proof. induction st as [|[m r] st IH]; cbn; lia. Qed.
Record einv (s : wstate) : Prop := {
  e_low : low_inv s;
  e_idle : forall t, K <= t -> w_th s t = WT (WGo WEnd) [];
  e_len : forall m, length (w_list s m) + sm (fun t => apps_th (w_th s t)) K <= most
}.
Lemma einv_step s t s' : einv s -> w_step s t s' -> einv s' /\ sm (fun u => pot (w_th s' u)) K + 1 <= sm (fun u => pot (w_th s u)) K.
Proof.
  intros [HL HI HE] HS. pose proof (low_step main _ _ _ HL HS) as HL'.
  assert (Ht : t < K). { destruct (decide (t < K)); [assumption|]. specialize (HI t ltac:(lia)). destruct HS; cbn in HI; congruence. }
  assert (HI' : forall u, K <= u -> w_th s' u = WT (WGo WEnd) []) by (intros u Hu; rewrite (other_th _ _ _ u HS) by lia; auto).
  assert (P1 : sm (fun u => apps_th (w_th s' u)) K + apps_th (w_th s t) = sm (fun u => apps_th (w_th s u)) K + apps_th (w_th s' t)).
  { apply (sm_upd (fun u => apps_th (w_th s u)) (fun u => apps_th (w_th s' u))); [|exact Ht]. intros u Hu. rewrite (other_th _ _ _ u HS) by congruence. reflexivity. }
  assert (P2 : sm (fun u => pot (w_th s' u)) K + pot (w_th s t) = sm (fun u => pot (w_th s u)) K + pot (w_th s' t)).
  { apply (sm_upd (fun u => pot (w_th s u)) (fun u => pot (w_th s' u))); [|exact Ht]. intros u Hu. rewrite (other_th _ _ _ u HS) by congruence. reflexivity. }
  enough (Q : pot (w_th s' t) + 1 <= pot (w_th s t) /\ forall m, length (w_list s' m) + apps_th (w_th s' t) <= length (w_list s m) + apps_th (w_th s t)).
  { destruct Q as [Q1 Q2]. split; [|lia]. split; [exact HL'|exact HI'|]. intros m. specialize (Q2 m). specialize (HE m). lia. }
  clear P1 P2 HL' HI'. destruct HL as [_ HL]. specialize (HL t).
  assert (LE : forall m, length (w_list s m) <= most) by (intros m; specialize (HE m); lia).
  destruct HS as [l mu th t m i k H Hm|l mu th t m k H Hm|l mu th t m c r k st H|l mu th t m c r k st H|l mu th t m a r k st H Hm|l mu th t m k st H|l mu th t m r st H];
    cbn [w_th w_list] in *; rewrite tset_eq, H; rewrite H in HL; destruct HL as [L _]; unfold pot, apps_th; cbn in *.
  - split; [lia|]. intros n. destruct (tset_cases l m (l m ++ [i]) n) as [[-> ->]|[_ ->]]; [rewrite app_length; cbn; lia|lia].
  - split; [|lia]. specialize (LE m). nia.
  - split; [|lia]. pose proof (each_pos m). lia.
  - split; [|intros n; lia]. pose proof (each_pos m). pose proof (frames_len st). lia.
  - split; [|lia]. destruct L as [F _]. inversion F as [|? ? Q _]; subst. cbn in Q. pose proof (each_lt a m Q). specialize (LE a). nia.
  - split; [|lia]. lia.
  - split; [|lia]. lia.
Qed.
(** C199: in a hierarchy, and with finitely many goroutines, no execution is longer than some
    bound, and where one cannot go on every goroutine has come to its end or panicked *)
Theorem cnet_ends : (exists N, forall tr s, steps w_step init tr s -> length tr <= N) /\
  forall s, reach init w_step s -> (forall u s', ~ w_step s u s') -> forall t, w_done (w_th s t).
Proof using HM HK.
  split.
  - exists (sm (fun u => pot (w_th init u)) K). intros tr s HS.
    enough (Q : einv s /\ length tr + sm (fun u => pot (w_th s u)) K <= sm (fun u => pot (w_th init u)) K) by lia.
    revert tr s HS. apply steps_trace_invariant.
    + split; [|cbn; lia]. split; [split; [intros m; constructor|intros t; split; [exact I|apply HM]]|intros t Ht; cbn; rewrite HK by exact Ht; reflexivity|]. intros m. cbn. unfold most. unfold apps_th. cbn. lia.
    + intros tr s l s' _ [HI HL] H1. destruct (einv_step s l s' HI H1) as [HI' Q]. split; [exact HI'|]. rewrite app_length. cbn [length]. lia.
  - intros s HR HN t. assert (D : w_done (w_th s t) \/ ~ w_done (w_th s t)).
    { unfold w_done. destruct (w_th s t) as [[[| |]|] [|]]; first [left; left; reflexivity|left; right; reflexivity|right; intros [Q|Q]; discriminate Q]. }
    destruct D as [D|D]; [exact D|]. destruct (cnet_ordered main s t HM HR D) as (u & s' & H). destruct (HN u s' H).
Qed.
End ends.
Print Assumptions cnet_ends.
(** the hypotheses, for the hierarchy of CloseNetProps *)
Example cnet_ends_case : (forall t, wlow (tower_prog t)) /\ forall t, 2 <= t -> tower_prog t = WEnd.
Proof. split; [apply cnet_ordered_case|]. intros [|[|]] H; [lia|lia|reflexivity]. Qed.
