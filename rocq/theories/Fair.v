(** Infinite executions and fairness.  An execution is a sequence of states, each
    obtained from the one before by a step or by nothing happening.  A goroutine is
    what shows of it in the state, [v]; it moves when that changes. *)
From Verif Require Import Base Conc.

Section fair.
Context {S L : Type}.
Definition execution (step : S -> L -> S -> Prop) (init : S) (e : nat -> S) (ls : nat -> option L) : Prop :=
  e 0 = init /\ forall i, match ls i with Some l => step (e i) l (e (1 + i)) | None => e (1 + i) = e i end.
(** [go] are the steps that have to be taken: not, for instance, the ones that call a
    function, which nobody has to *)
Section fairness.
Context (go : S -> L -> S -> Prop).
Definition can_move {P} (v : S -> P) (s : S) : Prop := exists l s', go s l s' /\ v s' <> v s.
(** weak fairness: again and again it moves or cannot; so if from some time on it
    always could move, it does *)
Definition weakly_fair {P} (v : S -> P) (e : nat -> S) : Prop :=
  forall i, exists j, i <= j /\ (~ can_move v (e j) \/ v (e (1 + j)) <> v (e j)).
(** strong fairness: it moves again and again, or from some time on it never can; so
    if it could move again and again, it does *)
Definition strongly_fair {P} (v : S -> P) (e : nat -> S) : Prop :=
  forall i, exists j, i <= j /\ ((forall k, j <= k -> ~ can_move v (e k)) \/ v (e (1 + j)) <> v (e j)).

Lemma weak_fairness_meaning {P} (v : S -> P) e : weakly_fair v e ->
  forall i, (forall j, i <= j -> can_move v (e j)) -> exists j, i <= j /\ v (e (1 + j)) <> v (e j).
Proof. intros F i H. destruct (F i) as (j & Hj & [N|M]); [destruct (N (H j Hj))|eauto]. Qed.
Lemma strong_fairness_meaning {P} (v : S -> P) e : strongly_fair v e ->
  forall i, (forall j, i <= j -> exists k, j <= k /\ can_move v (e k)) -> exists j, i <= j /\ v (e (1 + j)) <> v (e j).
Proof.
  intros F i H. destruct (F i) as (j & Hj & [N|M]); [|eauto]. destruct (H j Hj) as (k & Hk & C). destruct (N k Hk C).
Qed.
Lemma strong_weak {P} (v : S -> P) e : strongly_fair v e -> weakly_fair v e.
Proof. intros F i. destruct (F i) as (j & Hj & [N|M]); exists j; split; auto. Qed.
End fairness.

Section exec.
Context (step : S -> L -> S -> Prop) (init : S) (e : nat -> S) (ls : nat -> option L) (E : execution step init e ls).
(** the labels up to time i *)
Definition trace (i : nat) : list L := omap ls (seq 0 i).
Lemma trace_steps i : steps step init (trace i) (e i).
Proof.
  destruct E as [E0 ES]. induction i as [|i IH]; [rewrite E0; constructor|]. unfold trace in *.
  rewrite seq_S. rewrite omap_app. cbn [Nat.add omap list_omap]. specialize (ES i). destruct (ls i) as [l|].
  - econstructor; eassumption.
  - rewrite app_nil_r. cbn in ES. rewrite ES. exact IH.
Qed.
Lemma exec_reach i : reach init step (e i).
Proof. exists (trace i). apply trace_steps. Qed.
Lemma trace_le i j : i <= j -> exists tr, trace j = trace i ++ tr.
Proof. intros H. exists (omap ls (seq i (j - i))). unfold trace. rewrite <- omap_app, <- seq_app. f_equal. f_equal. lia. Qed.
Lemma in_trace i l : l ∈ trace i <-> exists j, j < i /\ ls j = Some l.
Proof.
  unfold trace. rewrite elem_of_list_omap. split.
  - intros (j & Hj & H). apply elem_of_seq in Hj. exists j. split; [lia|exact H].
  - intros (j & Hj & H). exists j. rewrite elem_of_seq. split; [lia|exact H].
Qed.
(** what every step keeps is kept for ever *)
Lemma always (Q : S -> Prop) : (forall s l s', reach init step s -> Q s -> step s l s' -> Q s') ->
  forall i, Q (e i) -> forall j, i <= j -> Q (e j).
Proof.
  intros K i Hi j Hj. induction Hj as [|j Hj IH]; [exact Hi|]. destruct E as [_ ES]. specialize (ES j). destruct (ls j) as [l|].
  - eapply K; [apply exec_reach|exact IH|exact ES].
  - change (Datatypes.S j) with (1 + j). rewrite ES. exact IH.
Qed.
(** as long as Q does not hold, R does and the goroutine has not moved *)
Lemma until {P} (v : S -> P) (R Q : S -> Prop) :
  (forall s l s', reach init step s -> R s -> step s l s' -> R s' /\ v s' = v s \/ Q s') ->
  forall i, R (e i) -> forall j, i <= j -> (R (e j) /\ v (e j) = v (e i)) \/ exists k, i <= k <= j /\ Q (e k).
Proof.
  intros K i Hi j Hj. induction Hj as [|j Hj [[IH1 IH2]|(k & Hk & IH)]]; [left; auto| |right; exists k; split; [lia|exact IH]].
  destruct E as [_ ES]. specialize (ES j). destruct (ls j) as [l|].
  - destruct (K _ _ _ (exec_reach j) IH1 ES) as [[R1 V1]|Q1].
    + left. split; [exact R1|]. change (Datatypes.S j) with (1 + j). congruence.
    + right. exists (1 + j). split; [lia|exact Q1].
  - left. change (Datatypes.S j) with (1 + j). rewrite ES. auto.
Qed.
(** progress by a goroutine that can always move *)
Lemma leads_weak {P} go (v : S -> P) (R Q : S -> Prop) : weakly_fair go v e ->
  (forall s l s', reach init step s -> R s -> step s l s' -> R s' /\ v s' = v s \/ Q s') ->
  (forall s, reach init step s -> R s -> can_move go v s) ->
  forall i, R (e i) -> exists j, i <= j /\ Q (e j).
Proof.
  intros F K C i Hi. destruct (F i) as (j & Hj & D). destruct (until v R Q K i Hi j Hj) as [[R1 V1]|(k & Hk & Hq)]; [|exists k; split; [lia|exact Hq]].
  destruct D as [N|M]; [destruct (N (C _ (exec_reach j) R1))|].
  destruct E as [_ ES]. specialize (ES j). destruct (ls j) as [l|]; [|congruence].
  destruct (K _ _ _ (exec_reach j) R1 ES) as [[_ V2]|Q2]; [congruence|]. exists (1 + j). split; [lia|exact Q2].
Qed.
(** progress by a goroutine that can move again and again *)
Lemma leads_strong {P} go (v : S -> P) (R Q : S -> Prop) : strongly_fair go v e ->
  (forall s l s', reach init step s -> R s -> step s l s' -> R s' /\ v s' = v s \/ Q s') ->
  (forall i, R (e i) -> exists j, i <= j /\ (can_move go v (e j) \/ Q (e j))) ->
  forall i, R (e i) -> exists j, i <= j /\ Q (e j).
Proof.
  intros F K C i Hi. destruct (F i) as (j & Hj & D). destruct (until v R Q K i Hi j Hj) as [[R1 V1]|(k & Hk & Hq)]; [|exists k; split; [lia|exact Hq]].
  destruct D as [N|M].
  - destruct (C j R1) as (k & Hk & [M|Hq]); [destruct (N k Hk M)|exists k; split; [lia|exact Hq]].
  - destruct E as [_ ES]. specialize (ES j). destruct (ls j) as [l|]; [|congruence].
    destruct (K _ _ _ (exec_reach j) R1 ES) as [[_ V2]|Q2]; [congruence|]. exists (1 + j). split; [lia|exact Q2].
Qed.
(** of finitely many things that each come about for good, all come about *)
Lemma eventually_all (Q : nat -> S -> Prop) n i :
  (forall g, g < n -> forall j, i <= j -> exists k, j <= k /\ Q g (e k)) ->
  (forall g j k, g < n -> j <= k -> Q g (e j) -> Q g (e k)) ->
  exists j, i <= j /\ forall g, g < n -> Q g (e j).
Proof.
  intros H K. induction n as [|n IH]; [exists i; split; [lia|intros; lia]|].
  destruct IH as (j & Hj & HQ); [intros g Hg; apply H; lia|intros g j k Hg; apply K; lia|].
  destruct (H n ltac:(lia) j Hj) as (k & Hk & Qk). exists k. split; [lia|]. intros g Hg.
  destruct (decide (g = n)) as [->|]; [exact Qk|]. apply (K g j k ltac:(lia) Hk). apply HQ. lia.
Qed.
End exec.
(** a finite run after which nothing happens *)
Lemma settled_execution (step : S -> L -> S -> Prop) init tr s : steps step init tr s ->
  exists e ls, execution step init e ls /\ (forall j, length tr <= j -> e j = s) /\ (forall j, ls j = tr !! j).
Proof.
  intros H. revert tr s H. apply (steps_trace_invariant init step (fun tr s => exists e ls, execution step init e ls /\ (forall j, length tr <= j -> e j = s) /\ (forall j, ls j = tr !! j))); [|intros tr s l s' _ (e & ls & [E0 ES] & D & LS) HS].
  - exists (fun _ => init), (fun _ => None). split; [split; [reflexivity|intros; reflexivity]|]. split; [intros; reflexivity|]. intros j. reflexivity.
  - exists (fun j => if decide (j <= length tr) then e j else s'), (fun j => (tr ++ [l]) !! j). split; [|split].
    + split; [rewrite decide_True by lia; exact E0|]. intros i. specialize (ES i). destruct (decide (i < length tr)) as [Hi|Hi].
      * rewrite lookup_app_l by exact Hi. rewrite LS in ES. rewrite !decide_True by lia. exact ES.
      * destruct (decide (i = length tr)) as [->|N].
        { rewrite list_lookup_middle by reflexivity. rewrite decide_True by lia. rewrite decide_False by lia. rewrite D by lia. exact HS. }
        { rewrite lookup_ge_None_2 by (rewrite app_length; cbn; lia). rewrite !decide_False by lia. reflexivity. }
    + rewrite app_length. cbn. intros j Hj. rewrite decide_False by lia. reflexivity.
    + intros j. reflexivity.
Qed.
(** a finite run and then an infinite one *)
Lemma then_execution (step : S -> L -> S -> Prop) init tr s (f : nat -> S) (lf : nat -> L) : steps step init tr s -> f 0 = s -> (forall i, step (f i) (lf i) (f (1 + i))) ->
  exists e ls, execution step init e ls /\ (forall j, e (length tr + j) = f j) /\ (forall j, ls (length tr + j) = Some (lf j)) /\ (forall j, j < length tr -> ls j = tr !! j).
Proof.
  intros H F0 FS. destruct (settled_execution step init tr s H) as (e & ls & [E0 ES] & D & LS).
  exists (fun j => if decide (j <= length tr) then e j else f (j - length tr)), (fun j => if decide (j < length tr) then tr !! j else Some (lf (j - length tr))).
  split; [split; [rewrite decide_True by lia; exact E0|]|split; [|split]].
  - intros i. specialize (ES i). rewrite LS in ES. destruct (decide (i < length tr)) as [Hi|Hi].
    + rewrite !decide_True by lia. exact ES.
    + rewrite (decide_False (P := (1 + i <= length tr))) by lia. replace (1 + i - length tr) with (1 + (i - length tr)) by lia.
      destruct (decide (i <= length tr)) as [Hl|Hl]; [|apply FS]. replace (e i) with (f (i - length tr)); [apply FS|].
      replace (i - length tr) with 0 by lia. rewrite D by lia. exact F0.
  - intros j. case_decide as X; [replace j with 0 by lia; rewrite D by lia; symmetry; exact F0|]. f_equal. lia.
  - intros j. rewrite decide_False by lia. do 2 f_equal. lia.
  - intros j Hj. rewrite decide_True by exact Hj. reflexivity.
Qed.
Lemma settled_fair {P} go (v : S -> P) e m s : (forall j, m <= j -> e j = s) -> ~ can_move go v s -> strongly_fair go v e.
Proof. intros D N i. exists (i `max` m). split; [lia|left]. intros k Hk. rewrite D by lia. exact N. Qed.
End fair.
