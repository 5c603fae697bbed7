(** C129: a Decoupler used by one goroutine, exactly, drops included. *)
From Verif Require Import Base Conc DecModel DecProofs DecProps DecExactSpec DecExactProofs.
Local Open Scope Z.

(** the state in which a history ends, or hangs *)
Fixpoint reached (g : dring) (os : list dop) : dring :=
  match os with [] => g | o :: os => match dr_step g o with Ret (g', _) => reached g' os | _ => g end end.
Lemma tries_mono g o g' r : dr_step g o = Ret (g', r) -> (r_tries g <= r_tries g')%nat.
Proof.
  destruct o as [[|x b]|]; cbn [dr_step].
  - intros [= <- _]. lia.
  - case_decide; intros [= <- _]; cbn [r_tries]; lia.
  - destruct (_ !! _) as [[b|]|]; [intros [= <- _]; cbn; lia| |]; (case_decide; [intros [= <- _]; lia|discriminate]).
Qed.
Lemma reached_mono os : forall g, (r_tries g <= r_tries (reached g os))%nat.
Proof.
  induction os as [|o os IH]; intros g; cbn [reached]; [lia|]. destruct (dr_step g o) as [[g' r]| |] eqn:E; [|lia|lia].
  pose proof (tries_mono _ _ _ _ E). specialize (IH g'). lia.
Qed.
Lemma exact_sim fuel os : forall d g, xrel d g -> d_size d <= Z.of_nat fuel -> Z.of_nat (r_tries (reached g os)) <= 2^64 - 2 ->
  (run (dec_step fuel) d os).1 = (run dr_step g os).1 /\
  match (run dr_step g os).2 with
  | Ret g' => exists d', (run (dec_step fuel) d os).2 = Ret d' /\ xrel d' g' /\ d_size d' = d_size d /\ reached g os = g'
  | Panic => (run (dec_step fuel) d os).2 = Panic
  | Spin => (run (dec_step fuel) d os).2 = Spin
  end.
Proof.
  induction os as [|o os IH]; intros d g X Hf Ht; cbn [run]; [split; [reflexivity|exists d; cbn; auto]|].
  assert (G : tries_ok g o).
  { unfold tries_ok. cbn [reached] in Ht. destruct (dr_step g o) as [[g' r]| |]; [|exact I|exact I]. pose proof (reached_mono os g'). lia. }
  pose proof (step_sim fuel d g o X G Hf) as S. cbn [reached] in Ht |- *. destruct (dr_step g o) as [[g' r]| |].
  - destruct S as (d' & -> & X' & Hs). destruct (IH d' g' X' ltac:(lia) Ht) as [E1 E2].
    destruct (run (dec_step fuel) d' os) as [rs e], (run dr_step g' os) as [rs' e']. cbn [fst snd] in *. subst rs'. split; [reflexivity|].
    destruct e' as [g2| |]; [|exact E2|exact E2]. destruct E2 as (d2 & E2 & X2 & H2 & H3). exists d2. split; [exact E2|]. split; [exact X2|]. split; [lia|exact H3].
  - rewrite S. split; reflexivity.
  - rewrite S. split; reflexivity.
Qed.
(** Every history: the same answers, and it hangs exactly where the specification
    does, as long as slots have been tried at most 2^64 - 2 times. *)
Theorem decoupler_sequential_exact n os fuel : 0 < Z.of_nat n < 2^64 -> (n <= fuel)%nat ->
  Z.of_nat (r_tries (reached (dr_new n) os)) <= 2^64 - 2 ->
  (run (dec_step fuel) (new_decoupler (Z.of_nat n)) os).1 = (run dr_step (dr_new n) os).1 /\
  ended (run (dec_step fuel) (new_decoupler (Z.of_nat n)) os).2 = ended (run dr_step (dr_new n) os).2.
Proof.
  intros Hn Hf Ht. destruct (exact_sim fuel os _ _ (xrel_new n Hn) ltac:(cbn; lia) Ht) as [E1 E2]. split; [exact E1|].
  destruct (run dr_step (dr_new n) os) as [rs [g| |]]; cbn [snd] in *; [destruct E2 as (d & -> & _); reflexivity|rewrite E2; reflexivity|rewrite E2; reflexivity].
Qed.
Print Assumptions decoupler_sequential_exact.
(** a history that goes on after a drop *)
Definition drop_ops : list dop := [OWrite [1]; OWrite [2]; OWrite [3]; OWrite [4]; ONext; ONext; OWrite [5]; OWrite [6]; ONext; ONext; ONext; ONext].
Example exact_ex : 0 < Z.of_nat 3 < 2^64 /\ Z.of_nat (r_tries (reached (dr_new 3) drop_ops)) <= 2^64 - 2.
Proof. split; [lia|]. intros H. vm_compute in H. discriminate H. Qed.
(** ... delivers messages in another order than that in which they were accepted:
    another way in which C66 is false *)
Theorem decoupler_reorders_refuted : forall fuel,
  (run (dec_step (3 + fuel)) (new_decoupler 3) drop_ops).1 =
    [DStored 1; DStored 1; DStored 1; DDropped [4]; DNext (Some [1]); DNext (Some [2]); DStored 1; DStored 1;
     DNext (Some [3]); DNext (Some [6]); DNext (Some [5]); DNext None].
Proof.
  intros fuel. destruct (decoupler_sequential_exact 3 drop_ops (3 + fuel) (proj1 exact_ex) ltac:(lia) (proj2 exact_ex)) as [E _].
  change (Z.of_nat 3) with 3 in E. rewrite E. reflexivity.
Qed.
Print Assumptions decoupler_reorders_refuted.

(** *** what holds of every history *)
(** the messages accepted and those delivered, by the answers *)
Definition stored (orr : dop * dret) : option (list Z) := match orr with (OWrite b, DStored _) => Some b | _ => None end.
Definition shown (r : dret) : option (list Z) := match r with DNext (Some b) => Some b | _ => None end.
Definition accepted (os : list dop) (rs : list dret) : list (list Z) := omap stored (zip os rs).
Definition delivered (rs : list dret) : list (list Z) := omap shown rs.

Lemma omap_insert_some (l : list dslot) i b : l !! i = Some None -> omap id (<[i := Some b]> l) ≡ₚ b :: omap id l.
Proof.
  revert i. induction l as [|a l IH]; intros i H; [discriminate|]. destruct i as [|i].
  - injection H as ->. reflexivity.
  - change (<[S i := Some b]> (a :: l)) with (a :: <[i := Some b]> l). destruct a as [m|]; [|exact (IH i H)].
    change (omap id (Some m :: ?x)) with (m :: omap id x). change (omap id (Some m :: l)) with (m :: omap id l). rewrite (IH i H). apply perm_swap.
Qed.
Lemma omap_insert_none (l : list dslot) i b : l !! i = Some (Some b) -> omap id l ≡ₚ b :: omap id (<[i := None]> l).
Proof.
  revert i. induction l as [|a l IH]; intros i H; [discriminate|]. destruct i as [|i].
  - injection H as ->. reflexivity.
  - change (<[S i := None]> (a :: l)) with (a :: <[i := None]> l). destruct a as [m|]; [|exact (IH i H)].
    change (omap id (Some m :: ?x)) with (m :: omap id x). change (omap id (Some m :: l)) with (m :: omap id l). rewrite (IH i H). apply perm_swap.
Qed.
Lemma write_slot g : passes (rotate (r_tries g) (r_slots g)) <> length (r_slots g) ->
  r_slots g !! ((r_tries g + passes (rotate (r_tries g) (r_slots g))) mod length (r_slots g))%nat = Some None.
Proof.
  intros C. pose proof (passes_le (rotate (r_tries g) (r_slots g))). rewrite rotate_length in *.
  rewrite <- rot_lookup by lia. apply passes_empty. rewrite rotate_length. lia.
Qed.

Lemma conserve os : forall g rs g', run dr_step g os = (rs, Ret g') ->
  omap id (r_slots g) ++ accepted os rs ≡ₚ delivered rs ++ omap id (r_slots g') /\ length (r_slots g') = length (r_slots g).
Proof.
  induction os as [|o os IH]; intros g rs g' H; cbn [run] in H.
  - injection H as <- <-. unfold accepted, delivered. cbn [zip zip_with omap list_omap]. rewrite app_nil_r. auto.
  - destruct (dr_step g o) as [[g1 r]| |] eqn:E; try discriminate. destruct (run dr_step g1 os) as [rs1 e] eqn:E1. injection H as <- ->.
    destruct (IH g1 rs1 g' E1) as [P L].
    assert (Z : accepted (o :: os) (r :: rs1) = (match stored (o, r) with Some b => [b] | None => [] end) ++ accepted os rs1)
      by (unfold accepted; destruct o, r; reflexivity).
    assert (D : delivered (r :: rs1) = (match shown r with Some b => [b] | None => [] end) ++ delivered rs1)
      by (unfold delivered; destruct r as [| |[|]]; reflexivity).
    rewrite Z, D. clear Z D. destruct o as [[|x b]|]; cbn [dr_step] in E.
    + injection E as <- <-. cbn. auto.
    + case_decide as C; injection E as <- <-; cbn [stored shown r_slots app] in *; [auto|]. rewrite insert_length in L. split; [|exact L].
      rewrite <- P, (omap_insert_some _ _ _ (write_slot g C)). symmetry. apply Permutation_middle.
    + destruct (r_slots g !! (r_reads g mod length (r_slots g))%nat) as [[b|]|] eqn:E2.
      * injection E as <- <-. cbn [stored shown r_slots app] in *. rewrite insert_length in L. split; [|exact L].
        rewrite (omap_insert_none _ _ _ E2). cbn. rewrite P. reflexivity.
      * case_decide; [|discriminate]. injection E as <- <-. cbn. auto.
      * case_decide; [|discriminate]. injection E as <- <-. cbn. auto.
Qed.
(** what has been accepted and not delivered is in the ring *)
Lemma conserve_new n os rs g : run dr_step (dr_new n) os = (rs, Ret g) ->
  accepted os rs ≡ₚ delivered rs ++ omap id (r_slots g) /\ length (r_slots g) = n.
Proof.
  intros H. destruct (conserve os _ _ _ H) as [P L]. unfold dr_new in *. cbn [r_slots] in *. rewrite replicate_length in L.
  split; [|exact L]. rewrite <- P. replace (omap id (replicate n None : list dslot)) with (@nil (list Z)); [reflexivity|].
  clear. induction n; [reflexivity|assumption].
Qed.
Lemma fulls_full g : passes (rotate (r_tries g) (r_slots g)) = length (r_slots g) <-> fulls (r_slots g) = length (r_slots g).
Proof.
  split.
  - intros C. apply fulls_all. intros i Hi.
    assert (F : forall s, s ∈ rotate (r_tries g) (r_slots g) -> exists b, s = Some b).
    { intros s Hs. apply elem_of_list_lookup in Hs as [j Hj]. pose proof (lookup_lt_Some _ _ _ Hj). rewrite rotate_length in *.
      destruct (passes_full _ j ltac:(rewrite C; lia)) as [b Hb]. exists b. congruence. }
    destruct (F (r_slots g !!! i)) as [b Hb].
    + unfold rotate. rewrite elem_of_app. apply or_comm, elem_of_app. rewrite take_drop. apply elem_of_list_lookup_total_2. exact Hi.
    + exists b. rewrite list_lookup_lookup_total_lt by exact Hi. rewrite Hb. reflexivity.
  - intros C. destruct (decide (passes (rotate (r_tries g) (r_slots g)) = length (r_slots g))) as [|N]; [assumption|].
    pose proof (fulls_lt _ _ (write_slot g N)). lia.
Qed.

(** Nothing is lost, made up or delivered twice; at most n messages wait; a Write is
    refused exactly if n messages wait; and Next says false exactly if none does, and
    otherwise shows one that does, or hangs. *)
Theorem decoupler_sequential_laws n os fuel rs d : 0 < Z.of_nat n < 2^64 -> (n <= fuel)%nat ->
  Z.of_nat (r_tries (reached (dr_new n) os)) + Z.of_nat n <= 2^64 - 2 ->
  run (dec_step fuel) (new_decoupler (Z.of_nat n)) os = (rs, Ret d) ->
  exists waiting, accepted os rs ≡ₚ delivered rs ++ waiting /\ (length waiting <= n)%nat /\
    (forall b, b <> [] -> exists d', dec_step fuel d (OWrite b) = Ret (d', if decide (length waiting = n) then DDropped b else DStored (Z.of_nat (length b)))) /\
    (waiting = [] -> dec_step fuel d ONext = Ret (d, DNext None)) /\
    (waiting <> [] -> dec_step fuel d ONext = Spin \/ exists d' b, dec_step fuel d ONext = Ret (d', DNext (Some b)) /\ b ∈ waiting).
Proof.
  intros Hn Hf Ht E. destruct (exact_sim fuel os _ _ (xrel_new n Hn) ltac:(cbn; lia) ltac:(lia)) as [E1 E2].
  rewrite E in E1, E2. cbn [fst snd] in *. destruct (run dr_step (dr_new n) os) as [rs' e'] eqn:R. cbn [fst snd] in *. subst rs'.
  destruct e' as [g| |]; [|discriminate|discriminate]. destruct E2 as (d' & [= <-] & X & Hs & <-). set (g := reached (dr_new n) os) in *.
  destruct (conserve_new n os rs g R) as [P L]. exists (omap id (r_slots g)). split; [exact P|].
  change (length (omap id (r_slots g))) with (fulls (r_slots g)). pose proof (fulls_le (r_slots g)). split; [lia|]. change (d_size (new_decoupler (Z.of_nat n))) with (Z.of_nat n) in Hs.
  assert (T : forall o, tries_ok g o).
  { intros o. unfold tries_ok. destruct (dr_step g o) as [[g' r]| |] eqn:S; [|exact I|exact I]. pose proof (passes_le (rotate (r_tries g) (r_slots g))). rewrite rotate_length in *.
    destruct o as [[|x b]|]; cbn [dr_step] in S.
    - injection S as <- <-. lia.
    - case_decide; injection S as <- <-; cbn [r_tries]; lia.
    - destruct (_ !! _) as [[b|]|]; [injection S as <- <-; cbn [r_tries]; lia| |]; (case_decide; [injection S as <- <-; lia|discriminate]). }
  split; [|split].
  - intros b Hb. pose proof (step_sim fuel d g (OWrite b) X (T _) ltac:(lia)) as S. destruct b as [|x b]; [congruence|]. cbn [dr_step] in S.
    pose proof (fulls_full g) as F. rewrite L in *. destruct (decide (fulls (r_slots g) = n)) as [C|C].
    + rewrite decide_True in S by (apply F; exact C). destruct S as (d' & S & _). exists d'. exact S.
    + rewrite decide_False in S by (intros C'; apply C, F, C'). destruct S as (d' & S & _). exists d'. exact S.
  - intros W. assert (F0 : fulls (r_slots g) = 0%nat) by (unfold fulls; rewrite W; reflexivity).
    cbn [dec_step]. unfold dec_next. rewrite (x_len _ _ X), F0. reflexivity.
  - intros W. pose proof (step_sim fuel d g ONext X (T _) ltac:(lia)) as S. cbn [dr_step] in S.
    destruct (r_slots g !! (r_reads g mod length (r_slots g))%nat) as [[b|]|] eqn:E3.
    + right. destruct S as (d' & S & _). exists d', b. split; [exact S|]. rewrite (omap_insert_none _ _ _ E3). left.
    + left. rewrite decide_False in S; [exact S|]. intros F0. apply W. apply nil_length_inv. exact F0.
    + left. rewrite decide_False in S; [exact S|]. intros F0. apply W. apply nil_length_inv. exact F0.
Qed.
Print Assumptions decoupler_sequential_laws.
Example laws_ex : (run dr_step (dr_new 3) (take 8 drop_ops)).1 =
    [DStored 1; DStored 1; DStored 1; DDropped [4]; DNext (Some [1]); DNext (Some [2]); DStored 1; DStored 1] /\
  Z.of_nat (r_tries (reached (dr_new 3) (take 8 drop_ops))) + Z.of_nat 3 <= 2^64 - 2.
Proof. split; [reflexivity|]. intros H. vm_compute in H. discriminate H. Qed.
