(** Property C142: several goroutines that call Next. *)
From Verif Require Import Base Conc DecModel DecProofs DecProofs2 DecProofs3 DecMRModel DecMRProofs.
Local Open Scope Z.

(** one at a time, they do what one reader could have done: same writes, same messages
    shown, same slots and same length; in particular nothing is lost or shown twice *)
Theorem decoupler_readers_serial_partial msg size tr s :
  steps (fun s l s' => m_step msg s l s' /\ forall g h, m_r s' g <> NIdle -> m_r s' h <> NIdle -> g = h) (m_init size) tr s ->
  exists tr' c, steps (d_step msg) (d_init size) tr' c /\ erase tr' = erase tr /\
    c_w c = m_w s /\ d_lock (c_d c) = d_lock (m_d s) /\ d_buf (c_d c) = d_buf (m_d s) /\ d_len (c_d c) = d_len (m_d s) /\
    (0 < size < 2^64 -> num (adders tr) <= 2^64 - 2 -> published msg tr ≡ₚ viewed tr ++ contents c).
Proof.
  intros H. destruct (sim_steps msg size tr s H) as (tr' & c & St & E & _ & g & _ & _ & ->). exists tr', (CD (with_read (m_d s) (one_read (m_r s g) (d_read (m_d s)))) (m_w s) (one_pc (m_r s g))).
  split; [exact St|]. split; [exact E|]. do 4 (split; [reflexivity|]). intros Hs Ha.
  rewrite <- (erase_published msg tr), <- (erase_viewed tr), <- E, erase_published, erase_viewed. apply (v_perm msg size). apply cinv_steps; [exact Hs|exact St|]. rewrite <- erase_adders, E, erase_adders. exact Ha.
Qed.
Print Assumptions decoupler_readers_serial_partial.

(** two at a time: one message is shown twice, both calls say so, and the length is
    2^64 - 1; the next Next waits, for ever if nobody writes, for a message that is not there *)
Definition mmsg (t : nat) : list Z := [Z.of_nat t].
Definition both (n : nat) : list mmove := repeat (MNext 0%nat) n ++ repeat (MNext 1%nat) n.
Definition twice_moves : list mmove := repeat (MWrite 0%nat) 7 ++ both 3 ++ both 5 ++ [MNext 0%nat; MNext 0%nat].
Theorem decoupler_readers_refuted :
  exists tr s, steps (m_step mmsg) (m_init 1) tr s /\ published mmsg tr = [mmsg 0] /\ viewed tr = [mmsg 0; mmsg 0] /\
    d_len (m_d s) = 2^64 - 1 /\ (exists n, m_r s 0%nat = NWait n) /\
    forall tr2 s2, steps (m_step mmsg) s tr2 s2 -> (forall t, LWrite t ∉ tr2) -> (exists n, m_r s2 0%nat = NWait n) /\ viewed tr2 = [].
Proof.
  destruct (mexecs mmsg (m_init 1) twice_moves) as [[tr s]|] eqn:E; [|vm_compute in E; discriminate].
  exists tr, s. split; [exact (mexecs_steps _ _ _ _ _ E)|].
  set (JJ := fun s : mdec => d_size (m_d s) = 1 /\ d_lock (m_d s) 0 = lock_empty /\ (forall t, m_w s t = WIdle \/ m_w s t = WStored) /\
    (exists n, m_r s 0%nat = NWait n) /\ (forall g, m_r s g = NIdle \/ m_r s g = NRead \/ exists n, m_r s g = NWait n)).
  assert (C : published mmsg tr = [mmsg 0] /\ viewed tr = [mmsg 0; mmsg 0] /\ d_len (m_d s) = 2^64 - 1 /\ JJ s).
  { vm_compute in E. injection E as <- <-. split; [reflexivity|]. split; [reflexivity|]. split; [reflexivity|]. split; [reflexivity|]. split; [reflexivity|]. split; [|split].
    - intros [|t]; [right|left]; reflexivity.
    - eexists. reflexivity.
    - intros [|[|g]]; [right; right; eexists; reflexivity|left; reflexivity|left; reflexivity]. }
  destruct C as (C1 & C2 & C3 & C4). clear E. do 3 (split; [assumption|]). split; [apply C4|].
  intros tr2 s2 H N. enough (K : JJ s2 /\ viewed tr2 = []) by (split; [apply K|apply K]). revert N. induction H as [s|s tr2 s2 l s3 _ IH H]; intros N; [split; [exact C4|reflexivity]|].
  destruct (IH C3 C4) as [(J1 & J2 & J3 & (n & J4) & J5) J6]; [intros t Ht; apply (N t); apply elem_of_app; left; exact Ht|]. unfold viewed in *. rewrite omap_app, J6. cbn [app].
  assert (Nl : forall t, l <> LWrite t) by (intros t ->; apply (N t); apply elem_of_app; right; left). clear N J6 C1 C2 C3 C4.
  assert (SL : forall n, slot (m_d s2) n = 0) by (intros k; unfold slot; rewrite J1; apply Z.mod_1_r).
  assert (BAD : forall g p, m_r s2 g = p -> match p with NIdle | NRead | NWait _ => True | _ => False end) by (intros g p <-; destruct (J5 g) as [->|[->|[k ->]]]; exact I).
  destruct H; cbn [m_d m_w m_r] in *.
  - exfalso. inversion H; subst; try (eapply H0; reflexivity); try (eapply Nl; reflexivity); match goal with W : w ?t = _ |- _ => destruct (J3 t) as [W'|W']; rewrite W' in W; try discriminate end.
  - split; [|reflexivity]. repeat split; eauto.
  - split; [|reflexivity]. split; [exact J1|]. split; [exact J2|]. split; [exact J3|]. split.
    + exists n. cbn. rewrite tset_ne; [exact J4|]. intros <-. congruence.
    + intros h. cbn. destruct (decide (h = g)) as [->|Nh]; [rewrite tset_eq; auto|rewrite tset_ne by exact Nh; auto].
  - split; [|reflexivity]. split; [exact J1|]. split; [exact J2|]. split; [exact J3|]. split.
    + exists n. cbn. rewrite tset_ne; [exact J4|]. intros <-. congruence.
    + intros h. cbn. destruct (decide (h = g)) as [->|Nh]; [rewrite tset_eq; eauto|rewrite tset_ne by exact Nh; auto].
  - rewrite SL in *. congruence.
  - destruct (BAD _ _ H).
  - destruct (BAD _ _ H).
  - destruct (BAD _ _ H).
  - destruct (BAD _ _ H).
  - destruct (BAD _ _ H).
Qed.
Print Assumptions decoupler_readers_refuted.
(** a message whose Write has said that it is stored is never shown: the second reader
    empties the slot again *)
Definition lose_moves : list mmove := repeat (MWrite 0%nat) 7 ++ both 3 ++ both 1 ++ [MNext 0%nat] ++ repeat (MWrite 1%nat) 7 ++ repeat (MNext 0%nat) 3 ++ repeat (MNext 1%nat) 4.
Theorem decoupler_readers_lose_refuted :
  exists tr s, steps (m_step mmsg) (m_init 1) tr s /\ publishers tr = [0; 1]%nat /\ storers tr = [0; 1]%nat /\ viewed tr = [mmsg 0; mmsg 0] /\
    d_len (m_d s) = 0 /\ d_lock (m_d s) 0 = lock_empty /\ (forall g, m_r s g = NIdle).
Proof.
  destruct (mexecs mmsg (m_init 1) lose_moves) as [[tr s]|] eqn:E; [|vm_compute in E; discriminate].
  exists tr, s. split; [exact (mexecs_steps _ _ _ _ _ E)|]. vm_compute in E. injection E as <- <-. repeat split. intros [|[|g]]; reflexivity.
Qed.
Print Assumptions decoupler_readers_lose_refuted.
(** and a writer copies into the buffer that a reader is looking at *)
Definition race_moves : list mmove := repeat (MWrite 0%nat) 7 ++ both 3 ++ repeat (MNext 0%nat) 2 ++ repeat (MWrite 1%nat) 4.
Theorem decoupler_readers_race_refuted :
  exists tr s n ts, steps (m_step mmsg) (m_init 1) tr s /\ m_r s 1%nat = NView n /\ m_w s 1%nat = WCopy ts /\ slot (m_d s) n = slot (m_d s) ts.
Proof.
  destruct (mexecs mmsg (m_init 1) race_moves) as [[tr s]|] eqn:E; [|vm_compute in E; discriminate].
  exists tr, s, 0, 1. split; [exact (mexecs_steps _ _ _ _ _ E)|]. vm_compute in E. injection E as <- <-. repeat split.
Qed.
Print Assumptions decoupler_readers_race_refuted.
(** two readers one after the other *)
Definition serial_moves : list mmove := repeat (MWrite 0%nat) 7 ++ repeat (MWrite 1%nat) 7 ++ repeat (MNext 0%nat) 8 ++ repeat (MWrite 2%nat) 7 ++ repeat (MNext 1%nat) 8 ++ repeat (MNext 0%nat) 8.
Fixpoint mserial (s : mdec) (ms : list mmove) : bool :=
  match ms with [] => true | m :: ms => match mexec mmsg s m with
    | Some (_, s) => (match m_r s 0%nat, m_r s 1%nat with NIdle, _ | _, NIdle => true | _, _ => false end) && mserial s ms | None => false end end.
Example serial_case : mserial (m_init 2) serial_moves = true /\
  match mexecs mmsg (m_init 2) serial_moves with Some (tr, s) => viewed tr = [mmsg 0; mmsg 1; mmsg 2] | None => False end.
Proof. vm_compute. split; reflexivity. Qed.
