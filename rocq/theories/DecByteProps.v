(** Property C171: iox/decouplex with its buffers in memory, byte by byte. *)
From Verif Require Import Base Conc DecModel DecProofs DecProofs2 DecProofs3 DecByteModel DecByteProofs DecByteProofs2 DecByteProofs3 DecByteProofs4 DecByteExec.
Local Open Scope Z.

(** *** Copying in one step loses nothing and adds nothing *)
(** whatever can be seen of the byte-wise decoupler can be seen of the one of [DecModel];
    [visible] drops the silent steps only *)
Theorem decoupler_bytes_refine_partial msg size tr s :
  0 < size < 2^64 -> steps (b_step msg) (b_init size) tr s -> num (adders tr) <= 2^64 - 2 ->
  exists tr' c, steps (d_step msg) (d_init size) tr' c /\ visible tr' = visible tr /\
    d_read (c_d c) = d_read (b_d s) /\ d_write (c_d c) = d_write (b_d s) /\ d_len (c_d c) = d_len (b_d s) /\ d_lock (c_d c) = d_lock (b_d s) /\
    (* the bytes in memory are those of the message *)
    (forall i b, holds c i = Some b ->
       length b = b_hlen (b_m s) i /\ forall j, (j < length b)%nat -> b_mem (b_m s) (b_ptr (b_m s) i) j = nth j b 0).
Proof.
  intros Hs H Ha. destruct (sim_steps msg size tr s Hs H Ha) as (tr' & c & St & V & I & S). exists tr', c. split; [exact St|]. split; [exact V|].
  destruct S as (buf & own & E1 & E2 & E3 & M). rewrite E1. do 4 (split; [reflexivity|]). intros i b Hb.
  unfold holds in Hb. rewrite E1 in Hb. cbn [with_buf d_lock d_buf d_read] in Hb. destruct (Z.eqb_spec (d_lock (b_d s) i) lock_empty) as [|N1]; [discriminate|]. destruct (Z.eqb_spec (d_lock (b_d s) i) lock_busy) as [|N2]; [discriminate|]. cbn [orb] in Hb.
  assert (Fi : filled s i).
  { right. split; [exact N1|]. split; [exact N2|]. intros a n Ha' E. rewrite E3, Ha' in Hb. cbn [absr] in Hb. change (slot (with_buf (b_d s) buf) (d_read (b_d s))) with (slot (b_d s) (d_read (b_d s))) in Hb. rewrite <- E, Z.eqb_refl in Hb. discriminate. }
  assert (Eb : buf i = b) by (destruct (c_r c); try congruence; destruct (i =? _); congruence). clear Hb.
  pose proof (m_full _ _ _ _ M i Fi) as C. rewrite Eb in C. unfold content, bytes in C. rewrite <- C. rewrite map_length, seq_length. split; [reflexivity|]. intros j Hj.
  rewrite (nth_indep _ 0 (b_mem (b_m s) (b_ptr (b_m s) i) 0)) by (rewrite map_length, seq_length; exact Hj). rewrite map_nth, seq_nth by exact Hj. reflexivity.
Qed.
Print Assumptions decoupler_bytes_refine_partial.
(** and the other way round *)
Theorem decoupler_bytes_complete_partial msg size tr c :
  0 < size < 2^64 -> steps (d_step msg) (d_init size) tr c -> num (adders tr) <= 2^64 - 2 ->
  exists tr' s, steps (b_step msg) (b_init size) tr' s /\ visible tr' = visible tr.
Proof. intros Hs H Ha. destruct (complete_steps msg size tr c Hs H Ha) as (tr' & s & A & B & _). eauto. Qed.
Print Assumptions decoupler_bytes_complete_partial.

Section conc.
Context (msg : nat -> list Z) (size : Z) (tr : list dlab) (s : bdec).
Context (Hsize : 0 < size < 2^64) (Htr : steps (b_step msg) (b_init size) tr s) (Hadd : num (adders tr) <= 2^64 - 2).
(** *** No message is torn: what a callback has seen in the end, byte after byte, is the
    message of one Write, and no message is seen more often than it was written *)
Theorem decoupler_bytes_delivered_partial : exists rest, published msg tr ≡ₚ viewed tr ++ rest.
Proof.
  destruct (sim_steps msg size tr s Hsize Htr Hadd) as (tr' & c & St & V & I & S). exists (contents c).
  rewrite <- (visible_published msg _ _ V), <- (visible_viewed _ _ V). exact (v_perm _ _ _ _ I).
Qed.
(** while the callback looks, the memory it was given holds the message of one Write *)
Theorem decoupler_view_memory_partial a n got : b_r s = BLook a n got ->
  exists t, msg t ∈ published msg tr /\ n = length (msg t) /\ (forall j, (j < n)%nat -> b_mem (b_m s) a j = nth j (msg t) 0) /\ got = take (length got) (msg t).
Proof.
  intros R. destruct (sim_steps msg size tr s Hsize Htr Hadd) as (tr' & c & St & V & I & S). pose proof (sim_excl msg size tr' c s I S) as X. destruct S as (buf & own & E1 & E2 & E3 & M).
  rewrite R in E3. cbn [absr] in E3. pose proof (m_view _ _ _ _ M) as VW. unfold rview in VW. rewrite R in VW. destruct VW as (V1 & V2 & V3 & V4). set (i := slot (b_d s) (d_read (b_d s))) in *.
  destruct X as (_ & _ & X3). rewrite R in X3. destruct (X3 (or_introl eq_refl)) as [X4 X5]. fold i in X4, X5.
  assert (Fi : filled s i) by (right; split; [exact X4|]; split; [exact X5|]; rewrite R; discriminate). pose proof (m_full _ _ _ _ M i Fi) as C.
  assert (Hc : buf i ∈ contents c).
  { unfold contents. apply elem_of_list_omap. exists i. rewrite E1. split.
    - apply in_slots. pose proof (v_size _ _ _ _ I) as Z1. rewrite E1 in Z1. unfold i, slot. cbn in *. rewrite Z1. apply Z.mod_pos_bound. lia.
    - unfold holds. rewrite E1, E3. cbn [with_buf d_lock d_buf]. apply Z.eqb_neq in X4, X5. rewrite X4, X5. reflexivity. }
  assert (Hp : buf i ∈ published msg tr) by (rewrite <- (visible_published msg _ _ V), (v_perm _ _ _ _ I); apply elem_of_app; right; exact Hc).
  assert (exists t, buf i = msg t) as [t Et].
  { revert Hp. generalize (buf i). intros b Hp. unfold published in Hp. apply elem_of_list_omap in Hp as (l & _ & Hl). destruct l; try discriminate. injection Hl as <-. eauto. }
  rewrite Et in *. exists t. split; [exact Hp|]. unfold content in C. rewrite <- V1, <- V2 in C. assert (L : length (msg t) = n) by (rewrite <- C; unfold bytes; rewrite map_length, seq_length; reflexivity).
  split; [auto|]. split.
  - intros j Hj. rewrite <- C. unfold bytes. rewrite (nth_indep _ 0 (b_mem (b_m s) a 0)) by (rewrite map_length, seq_length; exact Hj). rewrite map_nth, seq_nth by exact Hj. reflexivity.
  - rewrite V4 at 1. rewrite <- C. unfold bytes. assert (TS : forall (f : nat -> Z) k n, (k <= n)%nat -> map f (seq 0 k) = take k (map f (seq 0 n))) by (intros f k q Hk; replace q with (k + (q - k))%nat by lia; rewrite seq_app, map_app, take_app_alt; [reflexivity|rewrite map_length, seq_length; reflexivity]). apply TS. lia.
Qed.
(** *** There is no data race on headers and bytes: of two goroutines that are about to use
    the same word, neither writes *)
Theorem decoupler_bytes_race_free_partial g g' x w w' : touches msg s g x w -> touches msg s g' x w' -> g <> g' -> w = false /\ w' = false.
Proof.
  destruct (sim_steps msg size tr s Hsize Htr Hadd) as (tr' & c & St & V & I & S). pose proof (sim_excl msg size tr' c s I S) as X. destruct S as (buf & own & E1 & E2 & E3 & M).
  assert (WW : forall t t' ts ts', holder (absw (b_w s t)) = Some ts -> holder (absw (b_w s t')) = Some ts' -> slot (b_d s) ts = slot (b_d s) ts' -> Some t <> Some t' -> False) by (intros t t' ts ts' A B C D; apply D; f_equal; eapply X; eassumption).
  assert (WR : forall t ts, holder (absw (b_w s t)) = Some ts -> absr (b_r s) = RView \/ absr (b_r s) = REmpty -> slot (b_d s) ts = slot (b_d s) (d_read (b_d s)) -> False).
  { intros t ts A B C. destruct X as (_ & X2 & X3). destruct (X3 B) as [_ B2]. apply B2. rewrite <- C. apply (X2 t). exact A. }
  assert (OW : forall t ts a cp done, b_w s t = BBytes ts a cp done -> own (slot (b_d s) ts) = Some a) by (intros t ts a cp done H; exact (proj1 (m_bytes _ _ _ _ M _ _ _ _ _ H))).
  assert (OR : forall a n j, (exists got, b_r s = BLook a n got) \/ b_r s = BUse a n -> (j < n)%nat -> own (slot (b_d s) (d_read (b_d s))) = Some a).
  { intros a n j R Hj. pose proof (m_view _ _ _ _ M) as VW. unfold rview in VW. assert (VC : absr (b_r s) = RView \/ absr (b_r s) = REmpty) by (destruct R as [[got ->]| ->]; cbn; auto).
    destruct (m_hdr _ _ _ _ M _ (view_clean s X VC)) as [HL HO]. assert (a = b_ptr (b_m s) (slot (b_d s) (d_read (b_d s))) /\ n = b_hlen (b_m s) (slot (b_d s) (d_read (b_d s)))) as [Ea En] by (destruct R as [[got R]|R]; rewrite R in VW; tauto). rewrite Ea. apply HO. lia. }
  assert (RV : forall p, b_r s = p -> match p with BR RView | BLen _ | BLook _ _ _ | BUse _ _ => True | _ => False end -> absr (b_r s) = RView \/ absr (b_r s) = REmpty) by (intros p -> Hp; destruct p as [[]| | |]; cbn; tauto).
  intros T T' N.
  destruct T as [t ts H|t ts a H|t ts a cp dn j H L|t ts a cp H|t ts a cp H|t ts a cp H|H|a H|a n got j H L|a n j wr H L]; inversion T'; subst; auto; try congruence; exfalso;
    try match goal with
    | A : b_w s ?t = _, B : b_w s ?t' = _, E : slot _ _ = slot _ _ |- _ => apply (WW t' t _ _ ltac:(rewrite B; reflexivity) ltac:(rewrite A; reflexivity) E); congruence
    | A : b_w s ?t = _, B : b_w s ?t' = _, E : slot _ _ = slot _ _ |- _ => apply (WW t t' _ _ ltac:(rewrite A; reflexivity) ltac:(rewrite B; reflexivity) E); congruence
    end;
    try match goal with
    | A : b_w s ?t = BBytes _ _ _ _, B : b_w s ?t' = BBytes _ _ _ _ |- _ => apply (WW t t' _ _ ltac:(rewrite A; reflexivity) ltac:(rewrite B; reflexivity)); [eapply (m_inj _ _ _ _ M); eapply OW; eassumption|congruence]
    | A : b_w s ?t = BBytes ?us ?b _ _, B : b_r s = ?p, L : (_ < _)%nat, L2 : (_ < _)%nat |- _ => apply (WR t us); [rewrite A; reflexivity|exact (RV _ B Logic.I)|]; eapply (m_inj _ _ _ _ M); [eapply OW; exact A|]; first [eapply OR; [|exact L]; solve [eauto] | eapply OR; [|exact L2]; solve [eauto]]
    | A : b_w s ?t = _, B : b_r s = _, E : slot _ _ = slot _ _ |- _ => eapply (WR t); [rewrite A; reflexivity|exact (RV _ B Logic.I)|congruence]
    end.
Qed.
(** every byte that is read or written lies within its array *)
Theorem decoupler_bytes_in_bounds_partial g a j w : touches msg s g (WByte a j) w -> (j < b_size (b_m s) a)%nat.
Proof.
  destruct (sim_steps msg size tr s Hsize Htr Hadd) as (tr' & c & St & V & I & S). pose proof (sim_excl msg size tr' c s I S) as X. destruct S as (buf & own & E1 & E2 & E3 & M).
  intros T. assert (VV : forall n, (exists got, b_r s = BLook a n got) \/ b_r s = BUse a n -> (j < n)%nat -> (j < b_size (b_m s) a)%nat).
  { intros n R Hj. pose proof (m_view _ _ _ _ M) as VW. unfold rview in VW. assert (VC : absr (b_r s) = RView \/ absr (b_r s) = REmpty) by (destruct R as [[got ->]| ->]; cbn; auto).
    destruct (m_hdr _ _ _ _ M _ (view_clean s X VC)) as [HL HO]. assert (a = b_ptr (b_m s) (slot (b_d s) (d_read (b_d s))) /\ n = b_hlen (b_m s) (slot (b_d s) (d_read (b_d s)))) as [Ea En] by (destruct R as [[got R]|R]; rewrite R in VW; tauto).
    destruct HO as [_ HO]; [lia|]. rewrite <- Ea in HO. lia. }
  inversion T; subst.
  - match goal with H : b_w s _ = BBytes _ _ _ _ |- _ => destruct (m_bytes _ _ _ _ M _ _ _ _ _ H) as (_ & [A ->] & _) end. lia.
  - eapply VV; [left; eauto|assumption].
  - eapply VV; [right; eassumption|assumption].
Qed.
(** and no step of anybody changes what the callback is looking at *)
Theorem decoupler_view_stable_partial l s' a n got : b_step msg s l s' -> b_r s = BLook a n got ->
  (forall j, (j < n)%nat -> b_mem (b_m s') a j = b_mem (b_m s) a j) /\
  (l = LView got \/ exists more, b_r s' = BLook a n (got ++ more)).
Proof.
  intros H R. pose proof (fun g x w w' => decoupler_bytes_race_free_partial g None x w w') as RF. destruct H; cbn [b_m b_r b_d] in *; subst; try discriminate; split; auto; try (right; exists []; rewrite app_nil_r; reflexivity).
  - intros q Hq. cbn [set_byte b_mem]. destruct (decide (a = a0 /\ q = j)) as [[-> ->]|]; [|reflexivity]. exfalso.
    destruct (RF (Some t) (WByte a0 j) true false) as [E _]; [eapply to_byte; [eassumption|assumption]|eapply to_look; [reflexivity|exact Hq]|discriminate|discriminate].
  - injection R as -> -> ->. right. eauto.
  - left. congruence.
Qed.
End conc.
Print Assumptions decoupler_bytes_delivered_partial.
Print Assumptions decoupler_view_memory_partial.
Print Assumptions decoupler_bytes_race_free_partial.
Print Assumptions decoupler_bytes_in_bounds_partial.
Print Assumptions decoupler_view_stable_partial.

(** *** A callback that keeps its slice: after Next has returned, the next writer copies over
    it, and it holds bytes of two messages *)
Definition bmsg (t : nat) : list Z := [Z.of_nat t; 10 + Z.of_nat t].
Theorem decoupler_kept_view_refuted :
  exists tr1 s1 tr2 s2 a n, steps (b_step bmsg) (b_init 1) tr1 s1 /\ b_r s1 = BUse a n /\ map (b_mem (b_m s1) a) (seq 0 n) = bmsg 0 /\
    steps (b_step bmsg) s1 tr2 s2 /\ b_r s2 = BR RIdle /\ visible tr2 = [LNext true; LWrite 1; LAdd 1]%nat /\ (forall t, map (b_mem (b_m s2) a) (seq 0 n) <> bmsg t).
Proof.
  destruct (bexecs bmsg (b_init 1) (repeat (MW 0%nat) 14 ++ repeat MR 7)) as [[tr1 s1]|] eqn:E1; [|vm_compute in E1; discriminate].
  destruct (bexecs bmsg s1 (repeat MR 2 ++ repeat (MW 1%nat) 7)) as [[tr2 s2]|] eqn:E2.
  - exists tr1, s1, tr2, s2, 0%nat, 2%nat. split; [exact (bexecs_steps _ _ _ _ _ E1)|]. pose proof (bexecs_steps _ _ _ _ _ E2) as St. vm_compute in E1. injection E1 as <- <-. split; [reflexivity|]. split; [reflexivity|]. split; [exact St|]. clear St.
    vm_compute in E2. injection E2 as <- <-. split; [reflexivity|]. split; [reflexivity|]. intros t. cbn [b_m b_mem map seq]. intros H. apply (f_equal (fun l => nth 0 l 0)) in H as H0. apply (f_equal (fun l => nth 1 l 0)) in H as H1. vm_compute (b_mem _ _ _) in H0, H1 || idtac. unfold bmsg in H0, H1. cbn [nth] in H0, H1. lia.
  - exfalso. vm_compute in E1. injection E1 as <- <-. vm_compute in E2. discriminate.
Qed.
Print Assumptions decoupler_kept_view_refuted.
(** a run that meets the hypotheses: two writers copy at once, and a third message, shorter
    than the array, goes in while the reader looks at the first *)
Definition cmsg (t : nat) : list Z := match t with 2%nat => [7] | _ => [Z.of_nat t; 10 + Z.of_nat t] end.
Definition mixed_moves : list dmove := repeat (MW 0%nat) 7 ++ repeat (MW 1%nat) 7 ++ repeat (MW 0%nat) 7 ++ repeat (MW 1%nat) 7 ++ repeat MR 9 ++ repeat (MW 2%nat) 5 ++ repeat MR 5 ++ repeat (MW 2%nat) 8 ++ repeat MR 12.
Example bytes_case : match bexecs cmsg (b_init 2) mixed_moves with
  | Some (tr, s) => viewed tr = [cmsg 0; cmsg 1; cmsg 2] /\ num (adders tr) = 3 /\ b_next (b_m s) = 2%nat
  | None => False end.
Proof. vm_compute. repeat split. Qed.
