From Verif Require Import Base SeqSpec BitSetSpec BitSetModel.

Section Proofs.
Variable n : nat.
Notation w := (Z.of_nat n).
Definition brel (data : Z) (l : list bool) : Prop :=
  (0 <= data < 2^w)%Z /\ length l = n /\ forall i, i < n -> l !! i = Some (Z.testbit data (Z.of_nat i)).

Lemma high_bits data i : (0 <= data < 2^w)%Z -> (w <= i)%Z -> Z.testbit data i = false.
Proof.
  intros H Hi. destruct (decide (data = 0)%Z) as [->|H0]; [apply Z.bits_0|].
  apply Z.bits_above_log2; [lia|]. apply Z.log2_lt_pow2; [lia|].
  eapply Z.lt_le_trans; [apply H|]. apply Z.pow_le_mono_r; lia.
Qed.
Lemma word_bound z : (0 <= word w z < 2^w)%Z.
Proof. unfold word. apply Z.mod_pos_bound. apply Z.pow_pos_nonneg; lia. Qed.
Lemma word_bits z i : (0 <= i < w)%Z -> Z.testbit (word w z) i = Z.testbit z i.
Proof. intros H. unfold word. apply Z.mod_pow2_bits_low. lia. Qed.
(** an integer all of whose high bits are false is a word *)
Lemma word_of_bits z : (0 <= z)%Z -> (forall i, (w <= i)%Z -> Z.testbit z i = false) -> (0 <= z < 2^w)%Z.
Proof.
  intros H0 H. split; [exact H0|]. assert (E : z = word w z).
  { apply Z.bits_inj'. intros i Hi. destruct (Z.lt_ge_cases i w).
    - symmetry. apply word_bits. lia.
    - rewrite H by assumption. symmetry. apply high_bits; [apply word_bound|assumption]. }
  rewrite E. apply word_bound.
Qed.
Lemma wnot_bits x i : (0 <= x < 2^w)%Z -> (0 <= i < w)%Z -> Z.testbit (wnot w x) i = negb (Z.testbit x i).
Proof.
  intros Hx Hi. unfold wnot. replace (2^w - 1 - x)%Z with (Z.lnot x + 1 * 2^w)%Z by (unfold Z.lnot; lia).
  rewrite <- (Z.mod_pow2_bits_low _ w) by lia. rewrite Z_mod_plus_full, Z.mod_pow2_bits_low by lia. apply Z.lnot_spec. lia.
Qed.
Lemma wnot_bound x : (0 <= x < 2^w)%Z -> (0 <= wnot w x < 2^w)%Z.
Proof. unfold wnot. lia. Qed.
Lemma shl1_bits k j : (0 <= k)%Z -> (0 <= j < w)%Z -> Z.testbit (word w (Z.shiftl 1 k)) j = bool_decide (k = j).
Proof.
  intros Hk Hj. rewrite word_bits by exact Hj. rewrite Z.shiftl_1_l, Z.pow2_bits_eqb by exact Hk.
  destruct (Z.eqb_spec k j); symmetry; [apply bool_decide_eq_true|apply bool_decide_eq_false]; assumption.
Qed.

Lemma alter_length' (f : bool -> bool) l i : length (upd f l i) = length l.
Proof. apply alter_length. Qed.
Lemma upd_lookup f l i j b : (0 <= i)%Z -> l !! j = Some b -> upd f l i !! j = Some (if bool_decide (i = Z.of_nat j) then f b else b).
Proof.
  intros Hi Hj. unfold upd. case_bool_decide as E.
  - subst i. rewrite Nat2Z.id, list_lookup_alter, Hj. reflexivity.
  - rewrite list_lookup_alter_ne by lia. exact Hj.
Qed.

(** one element of Set, Clear, Toggle *)
Lemma one_upd (f : bool -> bool) data l i data' : brel data l -> (0 <= i)%Z ->
  (0 <= data' < 2^w)%Z ->
  (forall j, (0 <= j < w)%Z -> Z.testbit data' j = if bool_decide (i = j) then f (Z.testbit data j) else Z.testbit data j) ->
  brel data' (upd f l i).
Proof.
  intros (B & L & H) Hi B' H'. split; [exact B'|]. split; [rewrite alter_length'; exact L|].
  intros j Hj. rewrite (upd_lookup _ _ _ _ _ Hi (H j Hj)), H' by lia. reflexivity.
Qed.
Lemma lor_ok data l i : brel data l -> (0 <= i)%Z -> brel (Z.lor data (word w (Z.shiftl 1 i))) (upd (fun _ => true) l i).
Proof.
  intros R Hi. pose proof R as (B & L & H). pose proof (word_bound (Z.shiftl 1 i)) as Bw. eapply one_upd; eauto.
  - apply word_of_bits; [apply Z.lor_nonneg; lia|]. intros j Hj. rewrite Z.lor_spec, !high_bits by assumption. reflexivity.
  - intros j Hj. rewrite Z.lor_spec, shl1_bits by lia. case_bool_decide; [apply orb_true_r|apply orb_false_r].
Qed.
Lemma land_ok data l i : brel data l -> (0 <= i)%Z -> brel (Z.land data (wnot w (word w (Z.shiftl 1 i)))) (upd (fun _ => false) l i).
Proof.
  intros R Hi. pose proof R as (B & L & H). pose proof (word_bound (Z.shiftl 1 i)) as Bw. eapply one_upd; eauto.
  - apply word_of_bits; [apply Z.land_nonneg; lia|]. intros j Hj. rewrite Z.land_spec, (high_bits data) by assumption. reflexivity.
  - intros j Hj. rewrite Z.land_spec, wnot_bits, shl1_bits by (assumption || lia). case_bool_decide; [apply andb_false_r|apply andb_true_r].
Qed.
Lemma lxor_ok data l i : brel data l -> (0 <= i)%Z -> brel (Z.lxor data (word w (Z.shiftl 1 i))) (upd negb l i).
Proof.
  intros R Hi. pose proof R as (B & L & H). pose proof (word_bound (Z.shiftl 1 i)) as Bw. eapply one_upd; eauto.
  - apply word_of_bits; [apply Z.lxor_nonneg; lia|]. intros j Hj. rewrite Z.lxor_spec, !high_bits by assumption. reflexivity.
  - intros j Hj. rewrite Z.lxor_spec, shl1_bits by lia. case_bool_decide; [apply xorb_true_r|apply xorb_false_r].
Qed.
Lemma member_bit data l i : brel data l -> (0 <= i)%Z -> member l i = Z.testbit data i.
Proof.
  intros (B & L & H) Hi. unfold member. destruct (decide (Z.to_nat i < n)) as [E|E].
  - rewrite H by exact E. rewrite Z2Nat.id by exact Hi. reflexivity.
  - rewrite lookup_ge_None_2 by lia. rewrite high_bits; [reflexivity|exact B|lia].
Qed.
Lemma test_bit data i : (0 <= data < 2^w)%Z -> (0 <= i)%Z -> negb (Z.land data (word w (Z.shiftl 1 i)) =? 0)%Z = Z.testbit data i.
Proof.
  intros B Hi. destruct (Z.eqb_spec (Z.land data (word w (Z.shiftl 1 i))) 0) as [E|E]; cbn [negb].
  - destruct (Z.lt_ge_cases i w) as [Hw|Hw]; [|symmetry; apply high_bits; assumption].
    assert (T : Z.testbit (Z.land data (word w (Z.shiftl 1 i))) i = false) by (rewrite E; apply Z.bits_0).
    rewrite Z.land_spec, shl1_bits, bool_decide_eq_true_2, andb_true_r in T by (reflexivity || lia). auto.
  - destruct (Z.testbit data i) eqn:T; [reflexivity|]. exfalso. apply E. apply Z.bits_inj'. intros j Hj.
    rewrite Z.bits_0, Z.land_spec. destruct (Z.lt_ge_cases j w) as [Hw|Hw]; [|rewrite high_bits by assumption; reflexivity].
    rewrite shl1_bits by lia. case_bool_decide as Eij; [subst; rewrite T; reflexivity|apply andb_false_r].
Qed.

Lemma fold_ok (f : bool -> bool) (op : Z -> Z -> Z) (loop : Z -> list Z -> res Z) :
  (forall d, loop d [] = Ret d) ->
  (forall d i is, loop d (i :: is) = let! k := shl1 w i in loop (op d k) is) ->
  (forall d l i, brel d l -> (0 <= i)%Z -> brel (op d (word w (Z.shiftl 1 i))) (upd f l i)) ->
  forall is d l, brel d l ->
    if existsb (fun i => i <? 0)%Z is then loop d is = Panic
    else exists d', loop d is = Ret d' /\ brel d' (fold_left (upd f) is l).
Proof.
  intros E0 E1 H is. induction is as [|i is IH]; intros d l R; cbn [existsb fold_left].
  - exists d. auto.
  - rewrite E1. unfold shl1. destruct (Z.ltb_spec i 0); [reflexivity|]. cbn [rbind orb]. apply IH. apply H; assumption.
Qed.
Lemma test_true data is : b_test_loop w data true is = Ret true.
Proof. induction is as [|i is IH]; [reflexivity|exact IH]. Qed.
Lemma test_ok data l : brel data l -> forall is, b_test w data is = test_spec l is.
Proof.
  intros R is. unfold b_test. induction is as [|i is IH]; [reflexivity|]. cbn [b_test_loop test_spec]. unfold shl1.
  destruct (Z.ltb_spec i 0); [reflexivity|]. cbn [rbind]. rewrite test_bit by (auto; apply R).
  rewrite (member_bit data l i R H). destruct (Z.testbit data i); [apply test_true|exact IH].
Qed.
Lemma list_ext_bits data l l' : brel data l -> length l' = n ->
  (forall i, i < n -> l' !! i = Some (Z.testbit data (Z.of_nat i))) -> l = l'.
Proof.
  intros (B & L & H) L' H'. apply list_eq. intros i. destruct (decide (i < n)) as [E|E].
  - rewrite H, H' by exact E. reflexivity.
  - rewrite !lookup_ge_None_2 by lia. reflexivity.
Qed.
Lemma rel_inj d1 d2 l : brel d1 l -> brel d2 l -> d1 = d2.
Proof.
  intros (B1 & L1 & H1) (B2 & L2 & H2). apply Z.bits_inj'. intros i Hi. destruct (Z.lt_ge_cases i w) as [E|E].
  - specialize (H1 (Z.to_nat i) ltac:(lia)). specialize (H2 (Z.to_nat i) ltac:(lia)). rewrite Z2Nat.id in * by lia. congruence.
  - rewrite !high_bits by assumption. reflexivity.
Qed.
Lemma map_const data l b data' : brel data l -> (0 <= data' < 2^w)%Z -> (forall i, (0 <= i < w)%Z -> Z.testbit data' i = b) ->
  brel data' (map (fun _ => b) l).
Proof.
  intros (B & L & H) B' H'. split; [exact B'|]. split; [rewrite map_length; exact L|]. intros i Hi.
  change (map (fun _ => b) l) with ((fun _ : bool => b) <$> l). rewrite list_lookup_fmap, H by exact Hi. cbn. rewrite H' by lia. reflexivity.
Qed.
Lemma pow_pos' : (0 < 2^w)%Z. Proof. apply Z.pow_pos_nonneg; lia. Qed.
Lemma none_ok data l : brel data l -> brel 0 (map (fun _ => false) l).
Proof. pose proof pow_pos'. intros R. eapply map_const; [exact R|lia|]. intros. apply Z.bits_0. Qed.
Lemma all_ok data l : brel data l -> brel (wnot w 0) (map (fun _ => true) l).
Proof.
  pose proof pow_pos'. intros R. eapply map_const; [exact R|apply wnot_bound; lia|]. intros. rewrite wnot_bits by lia. rewrite Z.bits_0. reflexivity.
Qed.
Lemma same_all (b : bool) (f : bool -> bool) l : (forall x, f x = true <-> x = b) -> forallb f l = true <-> l = map (fun _ => b) l.
Proof.
  intros Hf. induction l as [|x l IH]; [split; reflexivity|]. cbn [forallb map]. rewrite andb_true_iff, IH, Hf.
  split; [intros [-> E]; f_equal; exact E|intros E; injection E as E1 E2; auto].
Qed.

Lemma b_step_ok data l o : brel data l ->
  match bitset_spec l o with
  | Ret (l', r) => exists d', b_step w data o = Ret (d', r) /\ brel d' l'
  | Panic => b_step w data o = Panic
  | Spin => b_step w data o = Spin
  end.
Proof.
  intros R. destruct o as [is|is|is|is| | | | |]; cbn [bitset_spec b_step].
  - pose proof (fold_ok (fun _ => true) Z.lor (b_set w) (fun _ => eq_refl) (fun _ _ _ => eq_refl) (fun d l i => lor_ok d l i) is data l R) as H.
    destruct (existsb _ is); [rewrite H; reflexivity|]. destruct H as (d' & -> & R'). cbn. eauto.
  - pose proof (fold_ok (fun _ => false) (fun d k => Z.land d (wnot w k)) (b_clear w) (fun _ => eq_refl) (fun _ _ _ => eq_refl) (fun d l i => land_ok d l i) is data l R) as H.
    destruct (existsb _ is); [rewrite H; reflexivity|]. destruct H as (d' & -> & R'). cbn. eauto.
  - pose proof (fold_ok negb Z.lxor (b_toggle w) (fun _ => eq_refl) (fun _ _ _ => eq_refl) (fun d l i => lxor_ok d l i) is data l R) as H.
    destruct (existsb _ is); [rewrite H; reflexivity|]. destruct H as (d' & -> & R'). cbn. eauto.
  - rewrite (test_ok data l R). destruct (test_spec l is); cbn; eauto.
  - exists data. split; [|exact R]. do 3 f_equal. unfold b_is_empty. apply eq_true_iff_eq.
    rewrite Z.eqb_eq, (same_all false negb) by (intros []; cbn; split; congruence). pose proof (none_ok data l R) as N. split.
    + intros ->. eapply list_ext_bits; [exact R|apply N|apply N].
    + intros E. rewrite <- E in N. eapply rel_inj; eauto.
  - exists data. split; [|exact R]. do 3 f_equal. unfold b_is_full. apply eq_true_iff_eq.
    rewrite Z.eqb_eq, (same_all true id) by (intros []; unfold id; split; congruence). pose proof (all_ok data l R) as N. split.
    + intros ->. eapply list_ext_bits; [exact R|apply N|apply N].
    + intros E. rewrite <- E in N. eapply rel_inj; eauto.
  - eexists. split; [reflexivity|]. apply none_ok with data, R.
  - eexists. split; [reflexivity|]. destruct R as (B & L & H). split; [apply wnot_bound, B|]. split; [rewrite map_length; exact L|].
    intros i Hi. change (map negb l) with (negb <$> l). rewrite list_lookup_fmap, H by exact Hi. cbn. unfold b_toggle_all.
    rewrite wnot_bits by (assumption || lia). reflexivity.
  - eexists. split; [reflexivity|]. apply all_ok with data, R.
Qed.
Lemma zero_rel : brel 0 (replicate n false).
Proof.
  pose proof pow_pos'. split; [lia|]. split; [apply replicate_length|]. intros i Hi. rewrite lookup_replicate_2 by exact Hi. rewrite Z.bits_0. reflexivity.
Qed.
Lemma b_history data l hist : brel data l ->
  (run (b_step w) data hist).1 = (run bitset_spec l hist).1 /\
  match (run bitset_spec l hist).2 with
  | Ret l' => exists d', (run (b_step w) data hist).2 = Ret d' /\ brel d' l'
  | Panic => (run (b_step w) data hist).2 = Panic
  | Spin => (run (b_step w) data hist).2 = Spin
  end.
Proof.
  revert data l. induction hist as [|o hist IH]; intros data l R; [cbn; eauto|]. cbn [run].
  pose proof (b_step_ok data l o R) as H. destruct (bitset_spec l o) as [[l' r]| |].
  - destruct H as (d' & -> & R'). destruct (IH d' l' R') as [E1 E2].
    destruct (run (b_step w) d' hist) as [r1 e1], (run bitset_spec l' hist) as [r2 e2]. cbn in *. subst r2. split; [reflexivity|exact E2].
  - rewrite H. cbn. auto.
  - rewrite H. cbn. auto.
Qed.
End Proofs.
