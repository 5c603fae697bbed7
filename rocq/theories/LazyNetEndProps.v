(** Lazies whose constructors call Get of each other in order: how long it takes. *)
From Verif Require Import Base Conc LazyNetModel LazyNetProps.

Section ends.
Context {A : Type} (zero : A) (ctor main : nat -> gcode A).
Notation step := (v_step ctor).
Notation init := (v_init zero main).
(** an upper bound of the steps of code, when each Get of a Lazy calls its constructor; nine
    is what Get takes by itself *)
Inductive cost : gcode A -> nat -> Prop :=
| co_ret v : cost (GRet v) 0
| co_get j k v n m : evals ctor (ctor j) v -> cost (ctor j) n -> cost (k v) m -> cost (GGet j k) (9 + n + m).
Definition five (st : list (nat * (A -> gcode A))) : nat := match st with [] => 0 | _ => 5 end.
Fixpoint rem_in (st : list (nat * (A -> gcode A))) (r : nat) : Prop :=
  match st with [] => True | (j, k) :: st => exists v m r', evals ctor (ctor j) v /\ cost (k v) m /\ rem_in st r' /\ m + five st + r' <= r end.
Definition rem_th (x : vthr A) (r : nat) : Prop := exists r0, rem_in (v_in x) r0 /\
  match v_pc x, v_in x with
  | VRun c, st => exists m, cost c m /\ m + five st + r0 <= r
  | VLoad, (j, _) :: _ => exists n, cost (ctor j) n /\ 8 + n + r0 <= r
  | VWait, (j, _) :: _ => exists n, cost (ctor j) n /\ 7 + n + r0 <= r
  | VCheck, (j, _) :: _ => exists n, cost (ctor j) n /\ 6 + n + r0 <= r
  | VAssign _, _ => 4 + r0 <= r
  | VSetDone _, _ => 3 + r0 <= r
  | VUnlock _, _ => 2 + r0 <= r
  | VRead, _ => 1 + r0 <= r
  | _, _ => False
  end.
Lemma rem_step s l s' t r : vinv s -> val_inv ctor main s -> rem_th (g_th s t) r -> step s l s' ->
  exists r', rem_th (g_th s' t) r' /\ r' + (if decide (l = t) then 1 else 0) <= r.
Proof.
  intros HI [HV1 HV2] HT HS. pose proof (k_after _ _ _ _ (i_tok s HI t)) as KA. specialize (HV1 t).
  destruct HS as [d m v c th u j k st H|d m v c th u j k st H|d m v c th u j k st H Hm|d m v c th u j k st H Hd|d m v c th u j k st H Hd|d m v c th u j k st x H|d m v c th u j k st H|d m v c th u j k st x H|d m v c th u j k st ok H|d m v c th u j k st ok H|d m v c th u j k st H|d m v c th u j k st H];
    cbn [g_done g_val g_th] in *; (destruct (decide (u = t)) as [->|Hu]; [rewrite tset_eq|rewrite tset_ne by congruence; exists r; split; [exact HT|lia]]);
    rewrite H in HT, KA, HV1; destruct HT as (r0 & H0 & HT); cbn [v_pc v_in] in *.
  - destruct HT as (m0 & C & L). inversion C as [|? ? w n m1 E C1 C2]; subst. exists (r - 1). split; [|lia].
    exists (m1 + five st + r0). split; [exists w, m1, r0; auto|]. cbn. exists n. split; [exact C1|lia].
  - destruct HT as (n & C & L). exists (r - 1). split; [|lia]. exists r0. split; [exact H0|]. cbn. destruct (d j); [lia|]. exists n. split; [exact C|lia].
  - destruct HT as (n & C & L). exists (r - 1). split; [|lia]. exists r0. split; [exact H0|]. cbn. exists n. split; [exact C|lia].
  - destruct HT as (n & C & L). exists (r - 1). split; [|lia]. exists r0. split; [exact H0|]. cbn. lia.
  - destruct HT as (n & C & L). exists (r - 1). split; [|lia]. exists r0. split; [exact H0|]. cbn. exists n. split; [exact C|lia].
  - destruct HT as (n & C & L). cbn in L. exists (r - 1). split; [|lia]. exists r0. split; [exact H0|]. cbn. lia.
  - destruct HT as (n & C & L). inversion C.
  - exists (r - 1). split; [|lia]. exists r0. split; [exact H0|]. cbn. lia.
  - exists (r - 1). split; [|lia]. exists r0. split; [exact H0|]. cbn. lia.
  - destruct HV1 as [_ HV1]. cbn in HV1. subst ok. exists (r - 1). split; [|lia]. exists r0. split; [exact H0|]. cbn. lia.
  - cbn in KA. destruct H0 as (w & m0 & r' & E & C & R & L). rewrite (evals_fun ctor _ _ _ E (HV2 j KA)) in C. exists (r - 1). split; [|lia]. exists r'. split; [exact R|]. cbn. exists m0. split; [exact C|lia].
  - destruct HT.
Qed.
Context (HC : forall j, calm (ctor j)) (HM : forall t, calm (main t)).
(** C197: a goroutine makes no more steps than its code needs when each Get calls the
    constructor; what the others do costs it nothing but waiting *)
Theorem lazy_net_steps t n : cost (main t) n -> forall tr s, steps step init tr s -> count_occ Nat.eq_dec tr t <= n.
Proof using HC HM.
  intros HN. enough (K : forall tr s, steps step init tr s -> exists r, rem_th (g_th s t) r /\ count_occ Nat.eq_dec tr t + r <= n) by (intros tr s HS; destruct (K tr s HS) as (r & _ & L); lia).
  apply steps_trace_invariant.
  - exists n. split; [|cbn; lia]. exists 0. split; [exact I|]. cbn. exists n. split; [exact HN|lia].
  - intros tr s l s' HS (r & R & L) H1. destruct (val_reach zero ctor main HC HM s (ex_intro _ tr HS)) as [HI HV].
    destruct (rem_step s l s' t r HI HV R H1) as (r' & R' & L'). exists r'. split; [exact R'|]. rewrite count_occ_app. cbn. destruct (Nat.eq_dec l t), (decide (l = t)); try congruence; lia.
Qed.
Lemma cost_defined : (forall i, below i (ctor i)) -> forall c, calm c -> exists n, cost c n.
Proof using HC.
  intros HB. pose proof (lazy_net_defined ctor HB HC) as HE.
  assert (K : forall i c, (forall j, j < i -> exists n, cost (ctor j) n) -> below i c -> calm c -> exists n, cost c n).
  { intros i c HL. induction c as [v| |j k IH]; cbn; intros B Cc; [exists 0; constructor|contradiction|]. destruct B as [Lj B]. destruct (HL j Lj) as [n Hn]. destruct (HE (ctor j) (HC j)) as [v Hv]. destruct (IH v (B v) (Cc v)) as [m Hm]. eexists. econstructor; eassumption. }
  assert (J : forall j, exists n, cost (ctor j) n) by (intros j; induction j as [j IH] using lt_wf_ind; apply (K j); auto).
  intros c. induction c as [v| |j k IH]; cbn; intros Cc; [exists 0; constructor|contradiction|]. destruct (J j) as [n Hn]. destruct (HE (ctor j) (HC j)) as [v Hv]. destruct (IH v (Cc v)) as [m Hm]. eexists. econstructor; eassumption.
Qed.
Lemma length_counts K (tr : list nat) : (forall t, K <= t -> count_occ Nat.eq_dec tr t = 0) -> length tr <= sum_list_with (count_occ Nat.eq_dec tr) (seq 0 K).
Proof.
  intros H. assert (F : Forall (fun t => t < K) tr).
  { apply Forall_forall. intros t Ht. destruct (decide (t < K)); [assumption|]. apply elem_of_list_In, (count_occ_In Nat.eq_dec) in Ht. rewrite H in Ht by lia. lia. }
  clear H. induction F as [|x tr Hx F IH]; [cbn; lia|].
  enough (Q : forall l, x ∈ l -> sum_list_with (count_occ Nat.eq_dec tr) l + 1 <= sum_list_with (count_occ Nat.eq_dec (x :: tr)) l) by (cbn [length]; specialize (Q (seq 0 K) ltac:(apply elem_of_seq; lia)); lia).
  assert (M : forall l, sum_list_with (count_occ Nat.eq_dec tr) l <= sum_list_with (count_occ Nat.eq_dec (x :: tr)) l) by (intros l; induction l as [|y l IHl]; cbn in *; [lia|]; destruct (Nat.eq_dec x y); lia).
  intros l Hl. induction l as [|y l IHl]; [inversion Hl|]. specialize (M l). cbn in *. apply elem_of_cons in Hl as [->|Hl]; [destruct (Nat.eq_dec y y); [lia|congruence]|]. specialize (IHl Hl). destruct (Nat.eq_dec x y); lia.
Qed.
(** C197: if each constructor calls Get only of Lazies below it, nothing panics, and finitely
    many goroutines call Get, then no execution is longer than some bound, and where one
    cannot go on every goroutine has returned what its code evaluates to *)
Theorem lazy_net_ends K : (forall i, below i (ctor i)) -> (forall t, K <= t -> exists v, main t = GRet v) ->
  (exists B, forall tr s, steps step init tr s -> length tr <= B) /\
  forall s, reach init step s -> (forall u s', ~ step s u s') -> forall t, exists v, g_th s t = VT (VRun (GRet v)) [] /\ evals ctor (main t) v.
Proof using HC HM.
  intros HB HK. split.
  - assert (Q : forall L, exists B, forall tr s, steps step init tr s -> sum_list_with (count_occ Nat.eq_dec tr) L <= B).
    { intros L. induction L as [|t L [B IH]]; [exists 0; cbn; lia|]. destruct (cost_defined HB (main t) (HM t)) as [n Hn]. exists (n + B). intros tr s HS. cbn. pose proof (lazy_net_steps t n Hn tr s HS). specialize (IH tr s HS). lia. }
    destruct (Q (seq 0 K)) as [B HQ]. exists B. intros tr s HS. etransitivity; [apply length_counts|exact (HQ tr s HS)].
    intros t Ht. destruct (HK t Ht) as [v E]. pose proof (lazy_net_steps t 0 ltac:(rewrite E; constructor) tr s HS). lia.
  - intros s HR HN t. destruct (lazy_net_value zero ctor main HC HM s HR) as (_ & V1 & V2).
    assert (D : finished (g_th s t) \/ ~ finished (g_th s t)).
    { unfold finished. destruct (g_th s t) as [p [|f st]]; cbn; [|right; intros [Q _]; discriminate Q]. destruct p as [[v| |j k]| | | | | | | |]; try (right; intros [_ (c & Q & _)]; discriminate Q); [left; split; [reflexivity|exists (GRet v); auto]|left; split; [reflexivity|exists GPanic; auto]|right; intros [_ (c & Q & R)]; injection Q as <-; exact R]. }
    destruct D as [[D1 (c & D2 & D3)]|D]; [|destruct (lazy_net_ordered zero ctor main s t HB HR D) as (u & s' & H); destruct (HN u s' H)].
    assert (E : g_th s t = VT (VRun c) []) by (destruct (g_th s t); cbn in *; congruence). destruct c as [v| |j k]; [exists v; auto|destruct (V2 t E)|contradiction].
Qed.
End ends.
Print Assumptions lazy_net_steps.
Print Assumptions lazy_net_ends.

Example lazy_net_ends_case : (forall i, below i (tower_ctor i)) /\ (forall j, calm (tower_ctor j)) /\ (forall t, calm (tower_main t)) /\ (forall t, 2 <= t -> exists v, tower_main t = GRet v) /\ cost tower_ctor (tower_main 0) 36.
Proof.
  destruct lazy_net_ordered_case as (H1 & H2 & H3 & _). split; [exact H1|]. split; [exact H2|]. split; [exact H3|]. split; [intros [|[|]] Ht; [lia|lia|eexists; reflexivity]|].
  assert (E0 : evals tower_ctor (tower_ctor 0) 5) by constructor. assert (E1 : evals tower_ctor (tower_ctor 1) 6) by (apply (ev_get _ 0 _ 5); [exact E0|exact (ev_ret _ 6)]).
  assert (C0 : cost tower_ctor (tower_ctor 0) 0) by constructor. assert (C1 : cost tower_ctor (tower_ctor 1) 9) by (apply (co_get _ 0 _ 5 0 0); [exact E0|exact C0|constructor]).
  apply (co_get _ 2 _ 30 27 0); [|apply (co_get _ 1 _ 6 9 9); [exact E1|exact C1|apply (co_get _ 0 _ 5 0 0); [exact E0|exact C0|constructor]]|constructor].
  apply (ev_get _ 1 _ 6); [exact E1|]. apply (ev_get _ 0 _ 5); [exact E0|exact (ev_ret _ 30)].
Qed.
