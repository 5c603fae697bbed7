(** The decoupler (iox/decouplex/decouple.go) under every schedule of any number of
    writers and one reader, as long as never more than [size] messages are on their way
    (C173). *)
From Verif Require Import Base Conc Fair DecModel DecProofs DecProofs2 DecProofs3 DecProps DecRoomProofs.
Local Open Scope Z.

Section safe.
Context (msg : nat -> list Z) (size : Z) (tr : list dlab) (s : cdec).
Context (Hsize : 0 < size < 2^64) (Htr : steps (d_step msg) (d_init size) tr s).
Context (Hroom : roomy size tr) (Hcount : num (begun tr) <= 2^64 - 2).
(** C173: Next shows the messages in the order in which the Writes drew their numbers (54) *)
Theorem decoupler_room_order : viewed tr `prefix_of` map msg (adders tr).
Proof.
  destruct (rinv_steps msg size tr s Hsize Htr Hroom Hcount) as [I _].
  exists (map msg (drop (length (viewed tr)) (adders tr))). rewrite (r_view _ _ _ _ I) at 1. rewrite <- map_app, take_drop. reflexivity.
Qed.
(** no Write draws two numbers, none is dropped but the empty ones *)
Theorem decoupler_room_first_try : NoDup (adders tr) /\ forall t, t ∈ droppers tr -> msg t = [].
Proof. destruct (rinv_steps msg size tr s Hsize Htr Hroom Hcount) as [I _]. split; [exact (r_nd _ _ _ _ I)|exact (r_drops _ _ _ _ I)]. Qed.
(** a Write that has begun can finish by itself, in at most six steps *)
Theorem decoupler_room_wait_free t : LWrite t ∈ tr -> c_w s t <> WStored ->
  exists l s', d_step msg s l s' /\ (stage (c_w s' t) = S (stage (c_w s t)) /\ stage (c_w s' t) <= 6)%nat /\
    c_r s' = c_r s /\ forall u, u <> t -> c_w s' u = c_w s u.
Proof.
  intros Ht Hne. destruct (rinv_steps msg size tr s Hsize Htr Hroom Hcount) as [I C].
  assert (Hb : t ∈ begun tr) by (apply elem_of_list_omap; exists (LWrite t); split; [exact Ht|reflexivity]).
  assert (Hlock : forall k ts, adders tr !! k = Some t -> ticket (c_w s t) = Some ts -> ts = Z.of_nat k /\ d_lock (c_d s) (slot (c_d s) ts) = lock_of ts (c_w s t)).
  { intros k ts Hk Hts. destruct (find_ticket _ _ _ _ t ts I Hts) as (k' & Hk' & -> & Hge).
    assert (k' = k) as -> by (eapply NoDup_lookup; [exact (r_nd _ _ _ _ I)|eassumption|eassumption]). split; [reflexivity|].
    apply (r_lock _ _ _ _ I k t Hk). pose proof (gone_past (c_r s)). lia. }
  apply (r_beg _ _ _ _ I) in Hb as [Hb|Hb].
  - apply elem_of_list_lookup in Hb as [k Hk]. specialize (Hlock k). pose proof (r_at _ _ _ _ I k t Hk) as Ha. destruct s as [d w r]. cbn [c_d c_w c_r] in *.
    destruct (w t) eqn:W; cbn in Ha; try contradiction; try congruence.
    + destruct (Hlock ts Hk eq_refl) as [_ L]. eexists _, _. split; [eapply ds_load_empty; eassumption|]. cbn. rewrite tset_eq. cbn. repeat split; [lia|]. intros u Hu. apply tset_ne. exact Hu.
    + destruct (Hlock ts Hk eq_refl) as [_ L]. eexists _, _. split; [eapply ds_cas; eassumption|]. cbn. rewrite tset_eq. cbn. repeat split; [lia|]. intros u Hu. apply tset_ne. exact Hu.
    + eexists _, _. split; [eapply ds_copy; eassumption|]. cbn. rewrite tset_eq. cbn. repeat split; [lia|]. intros u Hu. apply tset_ne. exact Hu.
    + eexists _, _. split; [eapply ds_store; eassumption|]. cbn. rewrite tset_eq. cbn. repeat split; [lia|]. intros u Hu. apply tset_ne. exact Hu.
    + eexists _, _. split; [eapply ds_len; eassumption|]. cbn. rewrite tset_eq. cbn. repeat split; [lia|]. intros u Hu. apply tset_ne. exact Hu.
  - destruct s as [d w r]. cbn [c_d c_w c_r] in *. eexists _, _. split; [eapply ds_add; eassumption|]. cbn. rewrite tset_eq, Hb. cbn. repeat split; [lia|]. intros u Hu. apply tset_ne. exact Hu.
Qed.
End safe.
Print Assumptions decoupler_room_order.
Print Assumptions decoupler_room_first_try.
Print Assumptions decoupler_room_wait_free.

(** a Write that returns before another one begins has the smaller number: its message is
    shown first *)
Theorem decoupler_room_real_time : forall msg size tr1 t1 tr2 t2 tr3 s,
  0 < size < 2^64 -> let tr := tr1 ++ [LStored t1] ++ tr2 ++ [LWrite t2] ++ tr3 in
  steps (d_step msg) (d_init size) tr s -> roomy size tr -> num (begun tr) <= 2^64 - 2 ->
  exists k1, adders tr !! k1 = Some t1 /\ forall k2, adders tr !! k2 = Some t2 -> (k1 < k2)%nat.
Proof.
  intros msg size tr1 t1 tr2 t2 tr3 s Hsize tr Htr Hroom Hcount.
  set (pre := (tr1 ++ [LStored t1]) ++ tr2). assert (Etr : tr = pre ++ ([LWrite t2] ++ tr3)) by (unfold tr, pre; rewrite <- !app_assoc; reflexivity).
  assert (Sp : forall a b s, steps (d_step msg) (d_init size) (a ++ b) s -> exists s1, steps (d_step msg) (d_init size) a s1 /\ steps (d_step msg) s1 b s).
  { clear. intros a b. induction b as [|l b IH] using rev_ind; intros s H; [rewrite app_nil_r in H; exists s; split; [exact H|constructor]|].
    rewrite app_assoc in H. inversion H as [|? ? s1 ? ? H1 H2 E1 E2 E3]; [destruct (a ++ b); discriminate|]. apply app_inj_tail in E2 as [-> ->].
    destruct (IH s1 H1) as (sx & H3 & H4). exists sx. split; [exact H3|]. econstructor; eassumption. }
  rewrite Etr in Htr. destruct (Sp pre _ s Htr) as (s1 & H1 & H2).
  assert (Hr1 : roomy size pre) by (intros a b Eab; apply (Hroom a (b ++ [LWrite t2] ++ tr3)); rewrite Etr, Eab, <- app_assoc; reflexivity).
  assert (Hc1 : num (begun pre) <= 2^64 - 2).
  { revert Hcount. rewrite Etr. unfold begun, num. rewrite omap_app, app_length. lia. }
  destruct (rinv_steps msg size pre s1 Hsize H1 Hr1 Hc1) as [I C].
  assert (Hs1 : t1 ∈ storers pre).
  { unfold pre, storers. rewrite !omap_app. apply elem_of_app. left. apply elem_of_app. right. left. }
  apply (v_sub _ _ _ _ C) in Hs1. apply elem_of_list_lookup in Hs1 as [k1 Hk1]. exists k1.
  assert (Ea : adders tr = adders pre ++ adders tr3) by (rewrite Etr; unfold adders; rewrite !omap_app; reflexivity). rewrite Ea.
  split; [apply lookup_app_l_Some; exact Hk1|]. intros k2 Hk2. apply lookup_app_Some in Hk2 as [Hk2|[Hk2 _]]; [|apply lookup_lt_Some in Hk1; lia].
  exfalso. destruct (Sp (pre ++ [LWrite t2]) tr3 s) as (s2 & H3 & _); [rewrite <- app_assoc; exact Htr|].
  inversion H3 as [|? ? s3 ? ? H5 H6 E1 E2 E3]; [destruct pre; discriminate|]. apply app_inj_tail in E2 as [-> ->].
  assert (I3 : rinv msg size pre s3) by (apply (rinv_steps msg size pre s3 Hsize H5 Hr1 Hc1)).
  inversion H6; subst. pose proof (r_at _ _ _ _ I3 k2 t2 Hk2) as Ha. cbn in Ha. rewrite H0 in Ha. exact Ha.
Qed.
Print Assumptions decoupler_room_real_time.

(** C173: with fair goroutines every Next returns, every Write stores its message, and every
    message is shown.  The reader calls Next again and again; nobody has to call Write. *)
Theorem decoupler_room_live : forall msg size e ls, 0 < size < 2^64 ->
  execution (d_step msg) (d_init size) e ls ->
  (forall i, roomy size (trace ls i) /\ num (begun (trace ls i)) <= 2^64 - 2) ->
  (forall t, weakly_fair (go msg) (fun s => c_w s t) e) -> weakly_fair (go msg) c_r e ->
  (forall i, c_r (e i) <> RIdle -> exists j, (i <= j)%nat /\ c_r (e j) = RIdle) /\
  (forall i t, LWrite t ∈ trace ls i -> exists j, (i <= j)%nat /\ LStored t ∈ trace ls j /\
     exists k, adders (trace ls j) !! k = Some t /\ viewed (trace ls j) !! k = Some (msg t)).
Proof.
  intros msg size e ls Hsize E HR FW FR. set (e' i := (trace ls i, e i)).
  assert (E' : execution (tstep msg size) (tinit size) e' ls).
  { split; [unfold e', tinit; destruct E as [-> _]; reflexivity|]. intros i. destruct E as [_ ES]. specialize (ES i). specialize (HR (1 + i)%nat). unfold e', tstep.
    assert (Et : trace ls (1 + i) = trace ls i ++ match ls i with Some l => [l] | None => [] end).
    { unfold trace. change (1 + i)%nat with (S i). rewrite seq_S, omap_app. cbn. destruct (ls i); reflexivity. }
    destruct (ls i) as [l|]; cbn [fst snd].
    - rewrite Et in HR |- *. split; [exact ES|]. split; [reflexivity|exact HR].
    - rewrite Et, app_nil_r, ES. reflexivity. }
  assert (F' : forall P (v : cdec -> P), weakly_fair (go msg) v e -> weakly_fair (tgo msg) (fun x => v x.2) e').
  { intros P v F i. destruct (F i) as (j & Hj & D). exists j. split; [exact Hj|]. destruct D as [N|M]; [left|right; exact M].
    intros (l & y & G & V). apply N. exists l, y.2. split; [exact G|exact V]. }
  assert (FW' : forall t, weakly_fair (tgo msg) (fun x => c_w x.2 t) e') by (intros t; apply (F' _ (fun s => c_w s t)), FW).
  assert (FR' : weakly_fair (tgo msg) (fun x => c_r x.2) e') by (apply (F' _ c_r), FR).
  split.
  - intros i Hi. destruct (next_returns msg size Hsize e' ls E' FW' FR' i Hi) as (j & Hj & H & _). exists j. split; [exact Hj|exact H].
  - intros i t Ht. destruct (inv_at msg size Hsize e' ls E' i) as [I _]. cbn [e' fst snd] in I.
    assert (Hb : t ∈ begun (trace ls i)) by (apply elem_of_list_omap; exists (LWrite t); split; [exact Ht|reflexivity]).
    assert (Hst : exists j, (i <= j)%nat /\ c_w (e j) t = WStored).
    { apply (r_beg _ _ _ _ I) in Hb as [Hb|Hb].
      - apply elem_of_list_lookup in Hb as [k Hk]. destruct (adder_stored msg size Hsize e' ls E' FW' i k t Hk) as (j & Hj & H). exists j. auto.
      - destruct (writer_done msg size Hsize e' ls E' FW' t 6 i) as (j & Hj & H); [cbn; rewrite Hb; reflexivity|]. exists j. auto. }
    destruct Hst as (j & Hj & Hst). destruct (inv_at msg size Hsize e' ls E' j) as [Ij Cj]. cbn [e' fst snd] in Ij, Cj.
    assert (Ha : t ∈ adders (trace ls j)) by (apply (v_began _ _ _ _ Cj); rewrite Hst; reflexivity).
    apply elem_of_list_lookup in Ha as [k Hk].
    destruct (all_taken msg size Hsize e' ls E' FW' FR' (S k) j) as (j2 & Hj2 & Htk); [cbn [e' fst]; apply lookup_num in Hk; lia|]. cbn [e' fst] in Htk.
    exists j2. split; [lia|]. destruct (inv_at msg size Hsize e' ls E' j2) as [I2 C2]. cbn [e' fst snd] in I2, C2.
    pose proof (adders_grow msg size e' ls E' j j2 k t Hj2 Hk) as Hk2. cbn [e' fst] in Hk2.
    split.
    + pose proof (stored_always msg size e' ls E' t j j2 Hj2 Hst) as Hs2. cbn [e' snd] in Hs2.
      apply (f_sto _ _ (finv_steps msg size _ _ (trace_steps _ _ _ _ E j2))) in Hs2. unfold storers in Hs2.
      apply elem_of_list_omap in Hs2 as (l & Hl & El). destruct l; try discriminate. injection El as ->. exact Hl.
    + exists k. split; [exact Hk2|]. rewrite (r_view _ _ _ _ I2). rewrite list_lookup_fmap, lookup_take, Hk2; [reflexivity|].
      pose proof (v_viewed _ _ _ _ C2) as Hv. unfold num in Hv, Htk. destruct (c_r (e j2)); lia.
Qed.
Print Assumptions decoupler_room_live.

(** *** what does not hold *)
Fixpoint room_check (n : Z) (tr : list dlab) (have : Z) : bool :=
  (have <=? n) && match tr with
  | [] => true
  | l :: tr => room_check n tr (have + match l with LWrite _ => 1 | LNext true => -1 | _ => 0 end)
  end.
Lemma room_check_ok n tr : room_check n tr 0 = true -> roomy n tr.
Proof.
  assert (G : forall tr h, room_check n tr h = true -> forall tr1 tr2, tr = tr1 ++ tr2 -> h + num (begun tr1) - num (taken tr1) <= n).
  { clear tr. induction tr as [|l tr IH]; intros h H tr1 tr2 E.
    - symmetry in E. apply app_nil in E as [-> ->]. cbn in *. apply andb_true_iff in H as [H _]. apply Z.leb_le in H. unfold num. cbn. lia.
    - cbn [room_check] in H. apply andb_true_iff in H as [H1 H2]. apply Z.leb_le in H1.
      destruct tr1 as [|l1 tr1]; [unfold num; cbn; lia|]. injection E as <- ->. specialize (IH _ H2 tr1 tr2 eq_refl).
      unfold num, begun, taken in *. destruct l as [| | | | | |[]|]; cbn in *; lia. }
  intros H tr1 tr2 E. specialize (G tr 0 H tr1 tr2 E). lia.
Qed.
(** C173 (refuted): one message more on its way than there are slots, and the order is lost *)
Theorem decoupler_room_tight_refuted :
  exists tr s, steps (d_step omsg) (d_init 2) tr s /\ roomy 3 tr /\ droppers tr = [] /\
    ~ viewed tr `prefix_of` map omsg (adders tr) /\ ~ viewed tr `prefix_of` map omsg (publishers tr).
Proof.
  destruct (dexecs omsg (d_init 2) (hole_moves ++ write_one 3 ++ read_one ++ read_one)) as [[tr s]|] eqn:E; [|vm_compute in E; discriminate].
  exists tr, s. split; [exact (dexecs_steps _ _ _ _ _ E)|].
  assert (C : room_check 3 tr 0 = true /\ droppers tr = [] /\ viewed tr = [omsg 0; omsg 1; omsg 3; omsg 2] /\ adders tr = [0; 1; 2; 2; 3]%nat /\ publishers tr = [0; 1; 2; 3]%nat).
  { vm_compute in E. injection E as <- <-. repeat split; reflexivity. }
  destruct C as (C1 & C2 & C3 & C4 & C5). clear E. split; [apply room_check_ok, C1|]. split; [exact C2|]. rewrite C3, C4, C5. split; intros [k Hk]; discriminate.
Qed.
Print Assumptions decoupler_room_tight_refuted.
(** C68, C173 (refuted): Next can say that there is nothing although a Write has returned and
    its message was not shown: the count of the message shown instead is still to come *)
Theorem decoupler_none_refuted :
  exists tr s, steps (d_step omsg) (d_init 2) tr s /\ roomy 2 tr /\ LStored 1 ∈ tr /\ omsg 1 ∉ viewed tr /\
    exists s', d_step omsg s (LNext false) s'.
Proof.
  destruct (dexecs omsg (d_init 2) (repeat (MW 0%nat) 6 ++ repeat (MW 1%nat) 7 ++ read_one)) as [[tr s]|] eqn:E; [|vm_compute in E; discriminate].
  exists tr, s. split; [exact (dexecs_steps _ _ _ _ _ E)|].
  assert (C : room_check 2 tr 0 = true /\ storers tr = [1%nat] /\ viewed tr = [omsg 0] /\ c_r s = RIdle /\ d_len (c_d s) = 0).
  { vm_compute in E. injection E as <- <-. repeat split; reflexivity. }
  destruct C as (C1 & C2 & C3 & C4 & C5). clear E. split; [apply room_check_ok, C1|]. split.
  - assert (H : 1%nat ∈ storers tr) by (rewrite C2; left). apply elem_of_list_omap in H as (l & Hl & El). destruct l; try discriminate. injection El as ->. exact Hl.
  - split; [rewrite C3; intros H; apply elem_of_list_singleton in H; discriminate|].
    destruct s as [d w r]. cbn in C4, C5. subst r. exists (CD d w RIdle). apply ds_next_none. exact C5.
Qed.
Print Assumptions decoupler_none_refuted.

(** a run that meets the hypotheses: two writers at once, in the slots of a decoupler of
    size 2, the reader in between, and a third Write once there is room *)
Example room_ex : exists tr s, steps (d_step omsg) (d_init 2) tr s /\ roomy 2 tr /\ num (begun tr) <= 2^64 - 2 /\
  adders tr = [1; 0; 2]%nat /\ publishers tr = [0; 1; 2]%nat /\ viewed tr = [omsg 1; omsg 0].
Proof.
  destruct (dexecs omsg (d_init 2) ([MW 0; MW 1; MW 1; MW 0; MW 1; MW 0; MW 0; MW 0; MW 0; MW 0]%nat ++ [MR] ++ repeat (MW 1%nat) 4 ++ repeat MR 4 ++ repeat (MW 2%nat) 7 ++ read_one)) as [[tr s]|] eqn:E; [|vm_compute in E; discriminate].
  exists tr, s. split; [exact (dexecs_steps _ _ _ _ _ E)|].
  assert (C : room_check 2 tr 0 = true /\ num (begun tr) = 3 /\ adders tr = [1; 0; 2]%nat /\ publishers tr = [0; 1; 2]%nat /\ viewed tr = [omsg 1; omsg 0]).
  { vm_compute in E. injection E as <- <-. repeat split; reflexivity. }
  destruct C as (C1 & C2 & C3). split; [apply room_check_ok, C1|]. split; [rewrite C2; lia|exact C3].
Qed.
