From Verif Require Import Base Conc DecModel DecProofs DecProofs2 DecProofs3 DecMRModel.
Local Open Scope Z.

Section proofs.
Context (msg : nat -> list Z).
Definition mexec (s : mdec) (m : mmove) : option (dlab * mdec) :=
  let d := m_d s in let w := m_w s in let r := m_r s in
  match m with
  | MWrite t => match dexec msg (CD d w RIdle) (MW t) with Some (l, CD d' w' RIdle) => Some (l, MD d' w' r) | _ => None end
  | MNext g =>
      match r g with
      | NIdle => if d_len d =? 0 then Some (LNext false, s) else Some (LDTau, MD d w (tset r g NRead))
      | NRead => Some (LDTau, MD d w (tset r g (NWait (d_read d))))
      | NWait n => if (d_lock d (slot d n) =? lock_empty) || (d_lock d (slot d n) =? lock_busy) then None else Some (LDTau, MD d w (tset r g (NView n)))
      | NView n => Some (LView (d_buf d (slot d n)), MD d w (tset r g (NEmpty n)))
      | NEmpty n => Some (LDTau, MD (with_lock d (slot d n) lock_empty) w (tset r g NDec))
      | NDec => Some (LDTau, MD (with_len d (u64 (d_len d + (2^64 - 1)))) w (tset r g NLoad))
      | NLoad => Some (LDTau, MD d w (tset r g (NStore (d_read d))))
      | NStore x => Some (LNext true, MD (with_read d (u64 (x + 1))) w (tset r g NIdle))
      end
  end.
Lemma mexec_step s m l s' : mexec s m = Some (l, s') -> m_step msg s l s'.
Proof.
  destruct s as [d w r]. destruct m as [t|g]; cbn [mexec m_d m_w m_r].
  - destruct (dexec msg (CD d w RIdle) (MW t)) as [[l1 [d1 w1 r1]]|] eqn:E; [|discriminate]. destruct r1; try discriminate. intros [= <- <-].
    apply ms_write; [apply (dexec_step msg _ _ _ _ E)|]. intros ok ->. revert E. cbn [dexec c_d c_w c_r].
    repeat first [discriminate | match goal with |- context [match ?x with _ => _ end] => destruct x end].
  - destruct (r g) eqn:G.
    + destruct (Z.eqb_spec (d_len d) 0); intros [= <- <-]; [eapply ms_none|apply ms_some]; eassumption.
    + intros [= <- <-]. apply ms_read, G.
    + destruct (Z.eqb_spec (d_lock d (slot d r0)) lock_empty); [discriminate|]. destruct (Z.eqb_spec (d_lock d (slot d r0)) lock_busy); [discriminate|]. intros [= <- <-]. apply ms_found; assumption.
    + intros [= <- <-]. apply ms_view, G.
    + intros [= <- <-]. apply ms_empty, G.
    + intros [= <- <-]. apply ms_dec, G.
    + intros [= <- <-]. apply ms_load, G.
    + intros [= <- <-]. apply ms_store, G.
Qed.
Fixpoint mexecs (s : mdec) (ms : list mmove) : option (list dlab * mdec) :=
  match ms with [] => Some ([], s) | m :: ms =>
    match mexec s m with Some (l, s) => match mexecs s ms with Some (tr, s) => Some (l :: tr, s) | None => None end | None => None end end.
Lemma mexecs_steps ms : forall s tr s', mexecs s ms = Some (tr, s') -> steps (m_step msg) s tr s'.
Proof.
  induction ms as [|m ms IH]; cbn; intros s tr s' H; [injection H as <- <-; constructor|].
  destruct (mexec s m) as [[l s1]|] eqn:E; [|discriminate]. destruct (mexecs s1 ms) as [[tr1 s2]|] eqn:E2; [|discriminate].
  injection H as <- <-. eapply steps_cons; [eapply mexec_step; exact E|apply IH; exact E2].
Qed.

(** *** one at a time *)
Definition alone (s : mdec) : Prop := forall g h, m_r s g <> NIdle -> m_r s h <> NIdle -> g = h.
(** the labels that say what was written and delivered *)
Definition shows (l : dlab) : bool := match l with LDTau | LNext _ => false | _ => true end.
Definition erase (tr : list dlab) : list dlab := List.filter shows tr.
Lemma erase_app a b : erase (a ++ b) = erase a ++ erase b.
Proof. apply List.filter_app. Qed.
Lemma erase_omap {A} (f : dlab -> option A) tr : (forall l, shows l = false -> f l = None) -> omap f (erase tr) = omap f tr.
Proof.
  intros F. induction tr as [|l tr IH]; [reflexivity|]. unfold erase in *. cbn [List.filter]. destruct (shows l) eqn:Sl; cbn [omap list_omap].
  - destruct (f l); [f_equal|]; exact IH.
  - rewrite (F l Sl). exact IH.
Qed.
Lemma erase_published tr : published msg (erase tr) = published msg tr.
Proof. apply erase_omap. intros []; try discriminate; reflexivity. Qed.
Lemma erase_viewed tr : viewed (erase tr) = viewed tr.
Proof. apply erase_omap. intros []; try discriminate; reflexivity. Qed.
Lemma erase_adders tr : adders (erase tr) = adders tr.
Proof. apply erase_omap. intros []; try discriminate; reflexivity. Qed.
(** the reader that stands for them all *)
Definition one_pc (p : npc) : rpc := match p with NIdle | NLoad | NStore _ => RIdle | NRead | NWait _ => RWait | NView _ => RView | NEmpty _ => REmpty | NDec => RDec end.
Definition one_read (p : npc) (r : Z) : Z := match p with NLoad | NStore _ => u64 (r + 1) | _ => r end.
Definition at_read (p : npc) (r : Z) : Prop := match p with NWait n | NView n | NEmpty n | NStore n => n = r | _ => True end.
Definition sim (s : mdec) (c : cdec) : Prop :=
  alone s /\ exists g, (forall h, h <> g -> m_r s h = NIdle) /\ at_read (m_r s g) (d_read (m_d s)) /\
    c = CD (with_read (m_d s) (one_read (m_r s g) (d_read (m_d s)))) (m_w s) (one_pc (m_r s g)).
(** a writer's step does not depend on the reader, nor on _read *)
Lemma write_frame d w l d' w' n r : d_step msg (CD d w RIdle) l (CD d' w' RIdle) -> (forall ok, l <> LNext ok) ->
  d_read d' = d_read d /\ d_step msg (CD (with_read d n) w r) l (CD (with_read d' n) w' r).
Proof.
  intros H N. inversion H; subst; try (exfalso; eapply N; reflexivity); (split; [reflexivity|]).
  - apply ds_write; assumption.
  - apply ds_write_empty; assumption.
  - exact (ds_add msg (with_read d n) w r t ltac:(assumption)).
  - eapply ds_load_empty; eassumption.
  - eapply ds_load_busy; eassumption.
  - eapply ds_load_full; eassumption.
  - exact (ds_cas msg (with_read d n) w r t ts ltac:(assumption) ltac:(assumption)).
  - eapply ds_cas_fail; eassumption.
  - exact (ds_copy msg (with_read d n) w r t ts ltac:(assumption)).
  - exact (ds_store msg (with_read d n) w r t ts ltac:(assumption)).
  - exact (ds_len msg (with_read d n) w r t ltac:(assumption)).
  - apply ds_drop; assumption.
  - apply ds_retry; assumption.
Qed.
Lemma with_read_id d : with_read d (d_read d) = d.
Proof. destruct d; reflexivity. Qed.
Lemma sim_step s l s' c : sim s c -> m_step msg s l s' -> alone s' -> exists tr c', steps (d_step msg) c tr c' /\ erase tr = erase [l] /\ sim s' c'.
Proof.
  intros (A & g & O & R & ->) H A'.
  assert (one : forall l2 c2 X, d_step msg X l2 c2 -> steps (d_step msg) X [l2] c2) by (intros l2 c2 X HX; eapply steps_cons; [exact HX|apply steps_nil]).
  destruct H as [d w r l d' w' H N|d w r h G H|d w r h G H|d w r h G|d w r h n G H1 H2|d w r h n G|d w r h n G|d w r h G|d w r h G|d w r h x G]; cbn [m_d m_w m_r] in *.
  - destruct (write_frame d w l d' w' (one_read (r g) (d_read d)) (one_pc (r g)) H N) as [Rd St].
    exists [l], (CD (with_read d' (one_read (r g) (d_read d))) w' (one_pc (r g))). split; [apply one, St|]. split; [reflexivity|]. split; [exact A'|].
    exists g. cbn [m_d m_w m_r]. rewrite Rd. split; [exact O|]. split; [exact R|reflexivity].
  - exists [], (CD (with_read d (one_read (r g) (d_read d))) w (one_pc (r g))). split; [apply steps_nil|]. split; [reflexivity|]. split; [exact A'|]. exists g. cbn [m_d m_w m_r]. auto.
  - assert (G0 : r g = NIdle). { destruct (decide (h = g)) as [->|Ng]; [exact G|]. destruct (r g) eqn:Rg; [reflexivity|exfalso..]; (apply Ng; apply A'; cbn; [rewrite tset_eq; discriminate|rewrite tset_ne by congruence; rewrite Rg; discriminate]). }
    rewrite G0. cbn [one_read one_pc]. rewrite with_read_id. exists [LDTau], (CD d w RWait). split; [apply one, ds_next, H|]. split; [reflexivity|]. split; [exact A'|]. exists h. cbn [m_d m_w m_r]. rewrite tset_eq. cbn [one_read one_pc at_read]. rewrite with_read_id.
    split; [|auto]. intros h' Nh. rewrite tset_ne by exact Nh. destruct (decide (h' = g)) as [->|]; [exact G0|apply O; assumption].
  - assert (h = g) as -> by (destruct (decide (h = g)); [assumption|rewrite (O h) in G by assumption; discriminate]). rewrite G in *. cbn [one_read one_pc at_read] in *. rewrite with_read_id.
    exists [], (CD d w RWait). split; [apply steps_nil|]. split; [reflexivity|]. split; [exact A'|]. exists g. cbn [m_d m_w m_r]. rewrite tset_eq. cbn [one_read one_pc at_read]. rewrite with_read_id.
    split; [intros h' Nh; rewrite tset_ne by exact Nh; apply O, Nh|auto].
  - assert (h = g) as -> by (destruct (decide (h = g)); [assumption|rewrite (O h) in G by assumption; discriminate]). rewrite G in *. cbn [one_read one_pc at_read] in *. subst n. rewrite with_read_id.
    exists [LDTau], (CD d w RView). split; [apply one, ds_found; assumption|]. split; [reflexivity|]. split; [exact A'|]. exists g. cbn [m_d m_w m_r]. rewrite tset_eq. cbn [one_read one_pc at_read]. rewrite with_read_id.
    split; [intros h' Nh; rewrite tset_ne by exact Nh; apply O, Nh|auto].
  - assert (h = g) as -> by (destruct (decide (h = g)); [assumption|rewrite (O h) in G by assumption; discriminate]). rewrite G in *. cbn [one_read one_pc at_read] in *. subst n. rewrite with_read_id.
    exists [LView (d_buf d (slot d (d_read d)))], (CD d w REmpty). split; [apply one, ds_view|]. split; [reflexivity|]. split; [exact A'|]. exists g. cbn [m_d m_w m_r]. rewrite tset_eq. cbn [one_read one_pc at_read]. rewrite with_read_id.
    split; [intros h' Nh; rewrite tset_ne by exact Nh; apply O, Nh|auto].
  - assert (h = g) as -> by (destruct (decide (h = g)); [assumption|rewrite (O h) in G by assumption; discriminate]). rewrite G in *. cbn [one_read one_pc at_read] in *. subst n. rewrite with_read_id.
    exists [LDTau], (CD (with_lock d (slot d (d_read d)) lock_empty) w RDec). split; [apply one, ds_empty|]. split; [reflexivity|]. split; [exact A'|]. exists g. cbn [m_d m_w m_r]. rewrite tset_eq. cbn [one_read one_pc at_read]. rewrite with_read_id.
    split; [intros h' Nh; rewrite tset_ne by exact Nh; apply O, Nh|auto].
  - assert (h = g) as -> by (destruct (decide (h = g)); [assumption|rewrite (O h) in G by assumption; discriminate]). rewrite G in *. cbn [one_read one_pc at_read] in *. rewrite with_read_id.
    exists [LNext true], (CD (with_read (with_len d (u64 (d_len d + (2^64 - 1)))) (u64 (d_read d + 1))) w RIdle). split; [apply one; exact (ds_dec msg d w)|]. split; [reflexivity|]. split; [exact A'|]. exists g. cbn [m_d m_w m_r]. rewrite tset_eq. cbn [one_read one_pc at_read].
    split; [intros h' Nh; rewrite tset_ne by exact Nh; apply O, Nh|auto].
  - assert (h = g) as -> by (destruct (decide (h = g)); [assumption|rewrite (O h) in G by assumption; discriminate]). rewrite G in *. cbn [one_read one_pc at_read] in *.
    exists [], (CD (with_read d (u64 (d_read d + 1))) w RIdle). split; [apply steps_nil|]. split; [reflexivity|]. split; [exact A'|]. exists g. cbn [m_d m_w m_r]. rewrite tset_eq. cbn [one_read one_pc at_read].
    split; [intros h' Nh; rewrite tset_ne by exact Nh; apply O, Nh|auto].
  - assert (h = g) as -> by (destruct (decide (h = g)); [assumption|rewrite (O h) in G by assumption; discriminate]). rewrite G in *. cbn [one_read one_pc at_read] in *. subst x.
    exists [], (CD (with_read d (u64 (d_read d + 1))) w RIdle). split; [apply steps_nil|]. split; [reflexivity|]. split; [exact A'|]. exists g. cbn [m_d m_w m_r]. rewrite tset_eq. cbn [one_read one_pc at_read].
    split; [intros h' Nh; rewrite tset_ne by exact Nh; apply O, Nh|]. split; [exact I|]. f_equal.
Qed.
Lemma sim_steps size tr s : steps (fun s l s' => m_step msg s l s' /\ alone s') (m_init size) tr s ->
  exists tr' c, steps (d_step msg) (d_init size) tr' c /\ erase tr' = erase tr /\ sim s c.
Proof.
  revert tr s. apply (steps_trace_invariant (m_init size) (fun s l s' => m_step msg s l s' /\ alone s') (fun tr s => exists tr' c, steps (d_step msg) (d_init size) tr' c /\ erase tr' = erase tr /\ sim s c)).
  - exists [], (d_init size). split; [apply steps_nil|]. split; [reflexivity|]. split; [intros g h X; destruct (X eq_refl)|]. exists 0%nat. repeat split.
  - intros tr s l s' _ (tr' & c & H & E & S) [HS A']. destruct (sim_step s l s' c S HS A') as (tr2 & c' & H2 & E2 & S2).
    exists (tr' ++ tr2), c'. split; [eapply steps_app; eassumption|]. split; [rewrite !erase_app, E, E2; reflexivity|exact S2].
Qed.
End proofs.
