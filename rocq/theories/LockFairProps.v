(** Liveness of syncx/lockx/lockx.go, and callbacks that write the word Lock uses. *)
From Verif Require Import Base Conc Fair LockModel LockProofs LockProps.

(** nobody has to call Lock, and no callback has to panic *)
Definition k_go (s : kstate) (l : nat * kev) (s' : kstate) : Prop := k_step s l s' /\ (l.2 = EEnter \/ l.2 = EExit \/ l.2 = ERelease).
(** no goroutine is forgotten: whoever can get in, or on, from some time on always, does *)
Definition lock_fair (e : nat -> kstate) : Prop := forall t, weakly_fair k_go (fun s => k_th s t) e.
Definition k_rank (p : kpc) : nat := match p with KIdle => 0 | KTry => 3 | KBody => 2 | KRel => 1 | KDead => 0 end.
Definition total (N : nat) (s : kstate) : nat := sum_list_with (fun t => k_rank (k_th s t)) (seq 0 N).

Lemma total_split N s t : t < N -> total N s = k_rank (k_th s t) + sum_list_with (fun u => if decide (u = t) then 0 else k_rank (k_th s u)) (seq 0 N).
Proof.
  unfold total. induction N as [|N IH]; [lia|]. intros H. rewrite seq_S. rewrite !sum_list_with_app. cbn [Nat.add sum_list_with].
  destruct (decide (t = N)) as [->|Ne].
  - rewrite decide_True by reflexivity. assert (G : forall l, (forall u, u ∈ l -> u < N) -> sum_list_with (fun t => k_rank (k_th s t)) l = sum_list_with (fun u => if decide (u = N) then 0 else k_rank (k_th s u)) l).
    { induction l as [|x l IHl]; intros L; [reflexivity|]. cbn. rewrite IHl by (intros u Hu; apply L; constructor; exact Hu). rewrite decide_False; [reflexivity|]. specialize (L x ltac:(constructor)). lia. }
    rewrite G; [lia|]. intros u Hu. apply elem_of_seq in Hu. lia.
  - rewrite decide_False by lia. rewrite IH by lia. lia.
Qed.
Lemma other_kstep s u ev s' t : k_step s (u, ev) s' -> t <> u -> k_th s' t = k_th s t.
Proof. intros H N. inversion H; subst; cbn; try apply tset_ne; auto. Qed.
Lemma total_step N s t s' : t < N -> (forall u, u <> t -> k_th s' u = k_th s u) -> k_rank (k_th s' t) < k_rank (k_th s t) -> total N s' < total N s.
Proof.
  intros H O R. rewrite (total_split N s t H), (total_split N s' t H).
  assert (G : forall l, sum_list_with (fun u => if decide (u = t) then 0 else k_rank (k_th s' u)) l = sum_list_with (fun u => if decide (u = t) then 0 else k_rank (k_th s u)) l).
  { induction l as [|x l IHl]; [reflexivity|]. cbn. rewrite IHl. case_decide as D; [reflexivity|]. rewrite (O x D). reflexivity. }
  rewrite G. lia.
Qed.
Lemma in_total N s t : t < N -> k_rank (k_th s t) <= total N s.
Proof. intros H. rewrite (total_split N s t H). lia. Qed.
Lemma lock_finitely_many w s : reach (k_init w) k_step s -> exists N, forall u, N <= u -> k_th s u = KIdle.
Proof.
  apply (reach_invariant (k_init w) k_step (fun s => exists N, forall u, N <= u -> k_th s u = KIdle)); [exists 0; reflexivity|].
  intros a [t ev] b [N H] HS. exists (N `max` S t). intros u Hu. rewrite (other_kstep a t ev b u HS) by lia. apply H. lia.
Qed.

Lemma word_step s u ev s' : k_step s (u, ev) s' -> k_word s = Own -> k_word s' <> Own -> ev = EEnter.
Proof. intros H W N. inversion H; subst; cbn in *; congruence. Qed.
Lemma try_step s t ev s' : k_step s (t, ev) s' -> k_th s t = KTry -> k_th s' t <> KTry -> ev = EEnter /\ k_th s' t = KBody.
Proof. intros H T N. inversion H; subst; cbn in *; rewrite ?tset_eq in *; try congruence; auto. Qed.
Lemma rank_step N s u ev s' : (forall t, N <= t -> k_th s t = KIdle) -> k_step s (u, ev) s' -> ev <> ECall -> k_th s' u <> KDead ->
  total N s' <= total N s /\ (ev = EEnter -> total N s' < total N s) /\ (forall t, N <= t -> k_th s' t = KIdle).
Proof.
  intros HN HS NC ND. assert (C : k_rank (k_th s' u) < k_rank (k_th s u) \/ s' = s /\ ev <> EEnter).
  { inversion HS; subst; cbn in *; rewrite ?tset_eq in *; try congruence; try (right; split; [reflexivity|discriminate]); left;
      match goal with X : _ u = _ |- _ => rewrite X end; cbn; lia. }
  destruct C as [C|[-> C]]; [|split; [lia|]; split; [congruence|exact HN]].
  assert (U : u < N) by (destruct (decide (u < N)) as [|G]; [assumption|]; rewrite HN in C by lia; cbn in C; lia).
  pose proof (total_step N s u s' U (fun t => other_kstep s u ev s' t HS) C) as T. split; [lia|]. split; [auto|].
  intros t Ht. rewrite (other_kstep _ _ _ _ _ HS) by lia. auto.
Qed.

Section live.
Context (e : nat -> kstate) (ls : nat -> option (nat * kev)) (E : execution k_step (k_init Own) e ls) (F : lock_fair e).
Lemma k_inv i : kinv (e i). Proof using E. apply kinv_reach, (exec_reach _ _ e ls E). Qed.
(** the one inside leaves *)
Lemma leaves t i : (forall j u, i <= j -> k_th (e j) u <> KDead) -> k_th (e i) t = KBody -> exists j, i <= j /\ k_th (e j) t = KRel.
Proof using E F.
  intros ND H. destruct (leads_weak _ _ e ls E k_go (fun s => k_th s t) (fun s => k_th s t = KBody) (fun s => k_th s t = KRel \/ k_th s t = KDead) (F t)) with (i := i) as (j & Hj & [J|J]); auto.
  - intros s [u ev] s' R Hs HS. destruct (decide (t = u)) as [<-|N]; [|left; rewrite (other_kstep _ _ _ _ _ HS N); auto].
    right. inversion HS; subst; cbn in *; rewrite ?tset_eq; try congruence; auto.
  - intros [w th] R Hs. exists (t, EExit). eexists. split; [split; [apply ks_exit; exact Hs|auto]|]. cbn in *. rewrite tset_eq, Hs. discriminate.
  - eauto.
  - destruct (ND j t Hj J).
Qed.
Lemma releases t i : k_th (e i) t = KRel -> exists j, i <= j /\ k_th (e j) t = KIdle /\ k_word (e j) = Own.
Proof using E F.
  intros H. refine (leads_weak _ _ e ls E k_go (fun s => k_th s t) (fun s => k_th s t = KRel) (fun s => k_th s t = KIdle /\ k_word s = Own) (F t) _ _ i H).
  - intros s [u ev] s' R Hs HS. destruct (decide (t = u)) as [<-|N]; [|left; rewrite (other_kstep _ _ _ _ _ HS N); auto].
    inversion HS; subst; cbn in *; rewrite ?tset_eq; try congruence; auto.
  - intros s R Hs. pose proof (kinv_reach s R) as [_ W]. destruct s as [w th]. cbn in *.
    assert (w = Nil) as -> by (destruct W as [[W _]|[_ N]]; [exact W|destruct (N t); rewrite Hs; exact I]).
    exists (t, ERelease). eexists. split; [split; [apply ks_release; exact Hs|auto]|]. cbn. rewrite tset_eq, Hs. discriminate.
Qed.
(** as long as no callback panics the object is free again and again *)
Lemma free_again i : (forall j u, i <= j -> k_th (e j) u <> KDead) -> exists j, i <= j /\ k_word (e j) = Own.
Proof using E F.
  intros ND. destruct (ki_word _ (k_inv i)) as [[_ [t Ht]]|[W _]]; [|eauto]. specialize (ND) as ND'.
  assert (C : exists j, i <= j /\ k_th (e j) t = KRel).
  { destruct (k_th (e i) t) eqn:T; try destruct Ht; [apply (leaves t i ND T)|eauto|destruct (ND i t (le_n _) T)]. }
  destruct C as (j & Hj & J). destruct (releases t j J) as (k & Hk & _ & K). exists k. split; [lia|exact K].
Qed.
(** whoever takes it makes the step [EEnter] *)
Lemma taken i j : i <= j -> k_word (e i) = Own -> k_word (e j) <> Own -> exists k u, i <= k < j /\ ls k = Some (u, EEnter).
Proof using E.
  intros Hij W N. induction Hij as [|j Hij IH]; [congruence|]. destruct (k_word (e j)) eqn:Wj.
  - destruct E as [_ ES]. specialize (ES j). change (S j) with (1 + j) in N. destruct (ls j) as [[u ev]|] eqn:L; [|congruence].
    exists j, u. split; [lia|]. rewrite L. do 2 f_equal. exact (word_step _ _ _ _ ES Wj N).
  - destruct IH as (k & u & Hk & K); [discriminate|]. exists k, u. split; [lia|exact K].
  - destruct IH as (k & u & Hk & K); [discriminate|]. exists k, u. split; [lia|exact K].
Qed.
Lemma went_in t i j : i <= j -> k_th (e i) t = KTry -> k_th (e j) t <> KTry -> exists k, i <= k < j /\ ls k = Some (t, EEnter) /\ k_th (e (1 + k)) t = KBody.
Proof using E.
  intros Hij T N. induction Hij as [|j Hij IH]; [congruence|]. change (S j) with (1 + j) in N. destruct (decide (k_rank (k_th (e j) t) = 3)) as [D|D].
  - assert (Tj : k_th (e j) t = KTry) by (destruct (k_th (e j) t); try discriminate D; reflexivity). destruct E as [_ ES]. specialize (ES j).
    destruct (ls j) as [[u ev]|] eqn:L; [|congruence]. destruct (decide (t = u)) as [<-|Ne]; [|rewrite (other_kstep _ _ _ _ _ ES Ne) in N; congruence].
    destruct (try_step _ _ _ _ ES Tj N) as [-> B]. exists j. split; [lia|auto].
  - destruct IH as (k & Hk & K); [intros X; rewrite X in D; apply D; reflexivity|]. exists k. split; [lia|exact K].
Qed.
Lemma someone t i : (forall j u, i <= j -> k_th (e j) u <> KDead) -> k_th (e i) t = KTry -> exists j u, i <= j /\ ls j = Some (u, EEnter).
Proof using E F.
  intros ND T. destruct (free_again i ND) as (j & Hj & W).
  destruct (until _ _ e ls E (fun s => k_th s t) (fun s => k_th s t = KTry) (fun s => k_th s t = KBody)) with (i := i) (j := j) as [[J _]|(k & Hk & K)]; auto.
  - intros s [u ev] s' R Hs HS. destruct (decide (t = u)) as [<-|N]; [|left; rewrite (other_kstep _ _ _ _ _ HS N); auto].
    inversion HS; subst; cbn in *; rewrite ?tset_eq; try congruence; auto.
  - destruct (leads_weak _ _ e ls E k_go (fun s => k_th s t) (fun s => k_th s t = KTry /\ k_word s = Own) (fun s => k_word s <> Own) (F t)) with (i := j) as (k & Hk & K); auto.
    + intros s [u ev] s' R [Hs Ws] HS. destruct (k_word s') eqn:W'; [|right; congruence|right; congruence]. left.
      destruct (decide (t = u)) as [<-|N]; [|rewrite (other_kstep _ _ _ _ _ HS N); auto].
      inversion HS; subst; cbn in *; rewrite ?tset_eq; try congruence; auto.
    + intros [w th] R [Hs Ws]. cbn in *. subst w. exists (t, EEnter). eexists. split; [split; [apply ks_enter; exact Hs|auto]|]. cbn. rewrite tset_eq, Hs. discriminate.
    + destruct (taken j k Hk W K) as (m & u & Hm & M). exists m, u. split; [lia|exact M].
  - destruct (went_in t i k ltac:(lia) T ltac:(congruence)) as (m & Hm & M). exists m, t. split; [lia|apply M].
Qed.
(** without new calls everybody gets in and returns *)
Section drain.
Context (i0 : nat) (ND : forall j u, i0 <= j -> k_th (e j) u <> KDead) (NC : forall j u, i0 <= j -> ls j <> Some (u, ECall)) (N : nat) (HN : forall u, N <= u -> k_th (e i0) u = KIdle).
Lemma down i j : i0 <= i -> i <= j -> (forall u, N <= u -> k_th (e i) u = KIdle) -> total N (e j) <= total N (e i) /\ (forall u, N <= u -> k_th (e j) u = KIdle).
Proof using E ND NC.
  intros Hi Hij H. induction Hij as [|j Hij [IH1 IH2]]; [auto|]. change (S j) with (1 + j). destruct E as [_ ES]. specialize (ES j). destruct (ls j) as [[u ev]|] eqn:L; [|rewrite ES; auto].
  destruct (rank_step N _ _ _ _ IH2 ES) as (A & _ & B); [intros ->; exact (NC j u ltac:(lia) L)|apply ND; lia|]. split; [lia|exact B].
Qed.
Lemma inside_returns t i : i0 <= i -> k_th (e i) t = KBody \/ k_th (e i) t = KRel -> exists j, i <= j /\ k_th (e j) t = KIdle.
Proof using E F ND.
  intros Hi H. assert (C : exists j, i <= j /\ k_th (e j) t = KRel).
  { destruct H as [T|T]; [apply (leaves t i); [intros; apply ND; lia|exact T]|eauto]. }
  destruct C as (j & Hj & J). destruct (releases t j J) as (k & Hk & K & _). exists k. split; [lia|exact K].
Qed.
Lemma drains t n : forall i, i0 <= i -> total N (e i) <= n -> k_th (e i) t = KTry -> exists j, i <= j /\ k_th (e j) t = KIdle.
Proof using E F ND NC HN.
  induction n as [n IH] using (well_founded_induction lt_wf). intros i Hi Hn T.
  destruct (someone t i) as (j & u & Hj & L); [intros; apply ND; lia|exact T|].
  destruct (down i0 i (le_n _) Hi HN) as [_ Ni]. destruct (down i j Hi Hj Ni) as [D Nj].
  pose proof (proj2 E j) as ES. rewrite L in ES. destruct (rank_step N _ _ _ _ Nj ES) as (_ & B & _); [discriminate|apply ND; lia|]. specialize (B eq_refl).
  destruct (decide (k_rank (k_th (e (1 + j)) t) = 3)) as [R|R].
  - assert (T' : k_th (e (1 + j)) t = KTry) by (destruct (k_th (e (1 + j)) t); try discriminate R; reflexivity).
    destruct (IH (total N (e (1 + j))) ltac:(lia) (1 + j) ltac:(lia) (le_n _) T') as (k & Hk & K). exists k. split; [lia|exact K].
  - destruct (went_in t i (1 + j) ltac:(lia) T) as (m & Hm & _ & M); [intros X; rewrite X in R; apply R; reflexivity|].
    destruct (inside_returns t (1 + m) ltac:(lia) (or_introl M)) as (k & Hk & K). exists k. split; [lia|exact K].
Qed.
End drain.
End live.

(** C137: as long as no callback panics and every callback comes to an end, whenever a
    goroutine waits in Lock some goroutine gets in. *)
Theorem lock_someone_enters :
  forall e ls, execution k_step (k_init Own) e ls -> lock_fair e ->
  forall t i, (forall j u, i <= j -> k_th (e j) u <> KDead) -> k_th (e i) t = KTry -> exists j u, i <= j /\ ls j = Some (u, EEnter).
Proof. intros e ls E F t i ND T. exact (someone e ls E F t i ND T). Qed.
Print Assumptions lock_someone_enters.
(** ... and when no new calls come, everybody gets in and returns. *)
Theorem lock_returns_partial :
  forall e ls, execution k_step (k_init Own) e ls -> lock_fair e ->
  forall i, (forall j u, i <= j -> k_th (e j) u <> KDead) -> (forall j u, i <= j -> ls j <> Some (u, ECall)) ->
  forall t, exists j, i <= j /\ k_th (e j) t = KIdle.
Proof.
  intros e ls E F i ND NC t. destruct (lock_finitely_many Own (e i) (exec_reach _ _ e ls E i)) as [N HN].
  destruct (k_th (e i) t) eqn:T.
  - eauto.
  - exact (drains e ls E F i ND NC N HN t _ i (le_n _) (le_n _) T).
  - exact (inside_returns e ls E F i ND t i (le_n _) (or_introl T)).
  - exact (inside_returns e ls E F i ND t i (le_n _) (or_intror T)).
  - destruct (ND i t (le_n _) T).
Qed.
Print Assumptions lock_returns_partial.
(** What is missing from the natural statement, that every call returns when the
    callbacks do, is false: goroutine 1 tries again and again, and each time goroutine 0
    has just got in. *)
Definition starve_lab (p : nat) : nat * kev := match p with 0 => (0, ECall) | 1 => (0, EEnter) | 2 => (1, EFail) | 3 => (0, EExit) | _ => (0, ERelease) end.
Definition starve_next (p : nat) (s : kstate) : kstate :=
  match p with
  | 0 => KS (k_word s) (tset (k_th s) 0 KTry) | 1 => KS Nil (tset (k_th s) 0 KBody) | 2 => s
  | 3 => KS (k_word s) (tset (k_th s) 0 KRel) | _ => KS Own (tset (k_th s) 0 KIdle) end.
Fixpoint starve (n : nat) : kstate := match n with O => KS Own (tset (fun _ => KIdle) 1 KTry) | S n => starve_next (n mod 5) (starve n) end.
Definition starve_pc (p : nat) : kpc := match p with 0 => KIdle | 1 => KTry | 2 | 3 => KBody | _ => KRel end.
Definition starve_word (p : nat) : word := match p with 0 | 1 => Own | _ => Nil end.
Lemma starve_inv n : k_word (starve n) = starve_word (n mod 5) /\ k_th (starve n) 0 = starve_pc (n mod 5) /\ k_th (starve n) 1 = KTry /\ forall t, 2 <= t -> k_th (starve n) t = KIdle.
Proof.
  induction n as [|n (W & P & T & O)]; [repeat split; intros [|[|t]] Ht; [lia|lia|reflexivity]|].
  assert (M : n mod 5 < 5) by (apply Nat.mod_upper_bound; lia). assert (S5 : S n mod 5 = S (n mod 5) mod 5) by (rewrite <- (Nat.add_1_l n), <- (Nat.add_1_l (n mod 5)), Nat.add_mod_idemp_r by lia; reflexivity).
  rewrite S5. cbn [starve]. destruct (n mod 5) as [|[|[|[|[|p]]]]]; [..|lia]; cbn in *; rewrite ?tset_eq, ?W; repeat split; auto; intros t Ht; rewrite tset_ne by lia; auto.
Qed.
Lemma starve_step n : k_step (starve n) (starve_lab (n mod 5)) (starve (1 + n)).
Proof.
  destruct (starve_inv n) as (W & P & T & O). assert (M : n mod 5 < 5) by (apply Nat.mod_upper_bound; lia). cbn [Nat.add starve].
  destruct (starve n) as [w th]. destruct (n mod 5) as [|[|[|[|[|p]]]]]; [..|lia]; cbn in *; subst w.
  - apply ks_call, P.
  - apply ks_enter, P.
  - apply ks_fail; [exact T|discriminate].
  - apply ks_exit, P.
  - apply ks_release, P.
Qed.
Theorem lock_returns_refuted :
  exists e ls, execution k_step (k_init Own) e ls /\ lock_fair e /\ (forall j u, k_th (e j) u <> KDead) /\
  forall i, 1 <= i -> k_th (e i) 1 = KTry /\ exists j, i <= j /\ ls j = Some (1, EFail).
Proof.
  assert (H : steps k_step (k_init Own) [(1, ECall)] (starve 0)).
  { eapply steps_cons; [apply ks_call; reflexivity|apply steps_nil]. }
  destruct (then_execution k_step (k_init Own) _ _ starve (fun n => starve_lab (n mod 5)) H eq_refl starve_step) as (e & ls & E & D & L & _).
  change (length [(1, ECall)]) with 1 in *. exists e, ls.
  assert (AT : forall p i, p < 5 -> 1 <= i -> exists n, i <= 1 + n /\ n mod 5 = p).
  { intros p i Hp Hi. exists (p + i * 5). split; [lia|]. rewrite Nat.mod_add by lia. apply Nat.mod_small. exact Hp. }
  split; [exact E|]. split; [|split].
  - intros t i. destruct t as [|[|t]].
    + destruct (AT 0 (1 `max` i) ltac:(lia) ltac:(lia)) as (n & Hn & M). exists (1 + n). split; [lia|]. right. rewrite (D n). change (1 + (1 + n)) with (1 + S n). rewrite (D (S n)).
      destruct (starve_inv n) as (_ & P & _). rewrite P. cbn [starve]. rewrite M. cbn. rewrite tset_eq. discriminate.
    + destruct (AT 2 (1 `max` i) ltac:(lia) ltac:(lia)) as (n & Hn & M). exists (1 + n). split; [lia|]. left. rewrite (D n). destruct (starve_inv n) as (W & _ & T & _). rewrite M in W. cbn in W.
      intros ([u ev] & s' & [HS _] & X). destruct (decide (1 = u)) as [<-|Ne]; [|apply X; exact (other_kstep _ _ _ _ _ HS Ne)].
      inversion HS; subst; repeat match goal with Y : _ = starve _ |- _ => rewrite <- Y in * end; cbn in *; rewrite ?tset_eq in *; congruence.
    + exists (1 `max` i). split; [lia|]. left. replace (1 `max` i) with (1 + (1 `max` i - 1)) by lia. rewrite D. set (n := 1 `max` i - 1). destruct (starve_inv n) as (_ & _ & _ & O). specialize (O (S (S t)) ltac:(lia)).
      intros ([u ev] & s' & [HS G] & X). destruct (decide (S (S t) = u)) as [<-|Ne]; [|apply X; exact (other_kstep _ _ _ _ _ HS Ne)].
      inversion HS; subst; repeat match goal with Y : _ = starve _ |- _ => rewrite <- Y in * end; cbn in *; rewrite ?tset_eq in *; intuition congruence.
  - intros [|j] u.
    + rewrite (proj1 E). discriminate.
    + change (S j) with (1 + j). rewrite D. destruct (starve_inv j) as (_ & P & T & O). destruct u as [|[|u]]; [|congruence|rewrite O by lia; discriminate]. rewrite P. destruct (j mod 5) as [|[|[|[|p]]]]; discriminate.
  - intros i Hi. split.
    + replace i with (1 + (i - 1)) by lia. rewrite D. apply starve_inv.
    + destruct (AT 2 i ltac:(lia) Hi) as (n & Hn & M). exists (1 + n). split; [lia|]. rewrite L, M. reflexivity.
Qed.
Print Assumptions lock_returns_refuted.

Lemma no_panic_step s u ev s' : k_step s (u, ev) s' -> ev <> EPanic -> k_th s u <> KDead -> k_th s' u <> KDead.
Proof. intros H N D. inversion H; subst; cbn in *; rewrite ?tset_eq; congruence. Qed.
Lemma call_step s u s' : k_step s (u, ECall) s' -> k_th s' u = KTry.
Proof. intros H. inversion H; subst; cbn. apply tset_eq. Qed.
(** the hypotheses of the theorems above: two goroutines that both return *)
Example lock_returns_case : exists e ls, execution k_step (k_init Own) e ls /\ lock_fair e /\ (forall j u, 2 <= j -> k_th (e j) u <> KDead) /\
  (forall j u, 2 <= j -> ls j <> Some (u, ECall)) /\ k_th (e 2) 1 = KTry.
Proof.
  assert (H : exists s, steps k_step (k_init Own) [(0, ECall); (1, ECall); (0, EEnter); (1, EFail); (0, EExit); (0, ERelease); (1, EEnter); (1, EExit); (1, ERelease)] s /\ forall t, k_th s t = KIdle).
  { eexists. split.
    - repeat first [eapply steps_cons; [first [apply ks_call; reflexivity|apply ks_enter; reflexivity|apply ks_fail; [reflexivity|discriminate]|apply ks_exit; reflexivity|apply ks_release; reflexivity]|]|apply steps_nil].
    - intros [|[|t]]; reflexivity. }
  destruct H as (s & H & N). destruct (settled_execution _ _ _ _ H) as (e & ls & E & D & L). exists e, ls.
  assert (K : forall j u, k_th (e j) u <> KDead).
  { intros j u. assert (G : forall j, (forall u, k_th (e j) u <> KDead)); [|apply G]. induction j0 as [|j0 IH]; intros w; [rewrite (proj1 E); discriminate|].
    pose proof (proj2 E j0) as ES. change (S j0) with (1 + j0). destruct (ls j0) as [[v ev]|] eqn:Lj; [|rewrite ES; apply IH].
    assert (H0 : ev <> EPanic). { intros ->. rewrite L in Lj. apply elem_of_list_lookup_2 in Lj. rewrite !elem_of_cons, elem_of_nil in Lj. intuition congruence. }
    destruct (decide (w = v)) as [->|Ne]; [|rewrite (other_kstep _ _ _ _ _ ES Ne); apply IH]. exact (no_panic_step _ _ _ _ ES H0 (IH v)). }
  split; [exact E|]. split; [|split; [intros; apply K|split]].
  - intros t. apply strong_weak. apply (settled_fair _ _ _ _ s D). intros ([u ev] & s' & [HS G] & M). specialize (N u). inversion HS; subst; cbn in *; intuition congruence.
  - intros j u Hj. rewrite L. do 9 (destruct j as [|j]; [try lia; cbn; congruence|]). discriminate.
  - pose proof (proj2 E 0) as S0. pose proof (proj2 E 1) as S1. rewrite L in S0, S1. cbn in S0, S1. apply (call_step _ _ _ S1).
Qed.

(** C138 (natural statement, false): the callback may do with the object what it
    likes.  One that writes the object's address back into its first word lets another
    callback in beside it; *)
Theorem lock_write_refuted :
  exists s, reach (k_init Own) kw_step s /\ k_th s 0 = KBody /\ k_th s 1 = KBody.
Proof.
  eexists. split.
  - eapply reach_snoc with (l := (1, Some EEnter)). eapply reach_snoc with (l := (0, None)). eapply reach_snoc with (l := (0, Some EEnter)).
    eapply reach_snoc with (l := (1, Some ECall)). eapply reach_snoc with (l := (0, Some ECall)). apply reach_refl.
    + apply kw_lock, ks_call. reflexivity.
    + apply kw_lock, ks_call. reflexivity.
    + apply kw_lock, ks_enter. reflexivity.
    + apply (kw_write _ Own). reflexivity.
    + apply kw_lock, ks_enter. reflexivity.
  - split; reflexivity.
Qed.
Print Assumptions lock_write_refuted.
(** ... and one that leaves another value there than nil has Lock never return: if no
    callback runs and the word is neither nil nor the address, nobody ever gets in or
    out. *)
Theorem lock_write_stuck :
  forall s, k_word s = Other -> (forall u, k_th s u <> KBody) ->
  forall tr s', steps kw_step s tr s' -> k_word s' = Other /\ forall t, k_th s' t <> KBody /\ (k_th s t = KRel -> k_th s' t = KRel).
Proof.
  intros s W N tr s' HS. eapply (steps_invariant s kw_step (fun s' => k_word s' = Other /\ forall t, k_th s' t <> KBody /\ (k_th s t = KRel -> k_th s' t = KRel))); [|clear tr s' HS; intros a l b [Wa Ha] H|exact HS]; [auto|].
  destruct H as [a t ev b H|w w' th t H]; [|cbn in *; destruct (Ha t) as [X _]; congruence].
  destruct a as [w th]. cbn in Wa, Ha. subst w. inversion H; subst; cbn in *; try congruence; try (destruct (Ha t) as [X _]; congruence); try (split; [reflexivity|exact Ha]).
  split; [reflexivity|]. intros u. specialize (Ha u). destruct (decide (u = t)) as [->|Ne]; [rewrite tset_eq|rewrite tset_ne by auto; exact Ha]. destruct Ha as [_ Ha]. split; [discriminate|]. intros K. specialize (Ha K). congruence.
Qed.
Print Assumptions lock_write_stuck.
Example lock_write_stuck_case : exists s, reach (k_init Own) kw_step s /\ k_word s = Other /\ (forall u, k_th s u <> KBody) /\ k_th s 0 = KRel.
Proof.
  eexists. split.
  - eapply reach_snoc with (l := (0, Some EExit)). eapply reach_snoc with (l := (0, None)). eapply reach_snoc with (l := (0, Some EEnter)). eapply reach_snoc with (l := (0, Some ECall)). apply reach_refl.
    + apply kw_lock, ks_call. reflexivity.
    + apply kw_lock, ks_enter. reflexivity.
    + apply (kw_write _ Other). reflexivity.
    + apply kw_lock, ks_exit. reflexivity.
  - split; [reflexivity|]. split; [intros [|u]; discriminate|reflexivity].
Qed.
