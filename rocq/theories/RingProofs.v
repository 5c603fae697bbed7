From Verif Require Import Base SeqSpec RingSpec RingModel.

Section RingProofs.
Context {A : Type} (zero : A).
Implicit Types (l : list A) (os : list (rop A)).

(** [a] Enqueues accepted so far, the last [length l] of them still inside *)
Definition ring_rel (n a : nat) (r : ring A) l : Prop :=
  a <= n /\ length l <= a /\ length (rg_data r) = n /\ rg_cap r = (Z.of_nat n + 1)%Z /\
  rg_tail r = Z.of_nat a /\ rg_head r = Z.of_nat (a - length l) /\
  l = drop (a - length l) (take a (rg_data r)) /\ drop a (rg_data r) = replicate (n - a) zero.

Lemma in_range_true i n : (0 <= i < n)%Z -> in_range i 0 n = true.
Proof. intros. unfold in_range. rewrite andb_true_iff, Z.leb_le, Z.ltb_lt. lia. Qed.

Definition inc (n : nat) l (o : rop A) : nat :=
  match o with REnqueue _ => if length l <? n then 1 else 0 | _ => 0 end.

Lemma ring_empty n a r l : 0 < n -> ring_rel n a r l -> r_is_empty r = (length l =? 0).
Proof.
  intros Hn (Ha & Hl & _ & _ & Et & Eh & _ & _). unfold r_is_empty. rewrite Et, Eh.
  destruct (Nat.eqb_spec (length l) 0), (Z.eqb_spec (Z.of_nat (a - length l)) (Z.of_nat a)); try reflexivity; lia.
Qed.
Lemma ring_full n a r l : 0 < n -> ring_rel n a r l -> r_is_full r = (length l =? n).
Proof.
  intros Hn (Ha & Hl & _ & Ec & Et & Eh & _ & _). unfold r_is_full. rewrite Et, Eh, Ec.
  destruct (decide (a = n)) as [->|Hne].
  - rewrite Z.rem_same by lia.
    destruct (Nat.eqb_spec (length l) n), (Z.eqb_spec (Z.of_nat (n - length l)) 0); try reflexivity; lia.
  - rewrite Z.rem_small by lia.
    destruct (Nat.eqb_spec (length l) n), (Z.eqb_spec (Z.of_nat (a - length l)) (Z.of_nat a + 1)); try reflexivity; lia.
Qed.
Lemma ring_front n a r l : ring_rel n a r l -> 0 < length l -> exists x, head l = Some x /\ at_ (rg_data r) (rg_head r) = Ret x.
Proof.
  intros (Ha & Hl & Ed & _ & Et & Eh & El & Ez) Hp. unfold at_. rewrite Eh, in_range_true by (unfold zlen; lia).
  rewrite Nat2Z.id. destruct l as [|x l']; [cbn in Hp; lia|]. exists x. split; [reflexivity|].
  assert (E : (take a (rg_data r)) !! (a - length (x :: l')) = Some x).
  { rewrite <- (Nat.add_0_r (a - length (x :: l'))), <- lookup_drop, <- El. reflexivity. }
  apply lookup_take_Some in E as [E _]. rewrite E. reflexivity.
Qed.

Lemma ring_step n a r l o : 0 < n -> ring_rel n a r l -> a + inc n l o <= n ->
  exists r', r_step (Some r) o = Ret (Some r', (bounded_step n l o).2) /\
             ring_rel n (a + inc n l o) r' (bounded_step n l o).1.
Proof.
  intros Hn HR Hi. pose proof (ring_empty n a r l Hn HR) as HE. pose proof (ring_full n a r l Hn HR) as HF.
  pose proof HR as (Ha & Hl & Ed & Ec & Et & Eh & El & Ez).
  destruct o as [x| | | | |]; cbn [r_step deref rbind bounded_step inc] in *; rewrite ?Nat.add_0_r.
  - unfold r_enqueue. rewrite HF. destruct (Nat.ltb_spec (length l) n) as [Hlt|Hge].
    + destruct (Nat.eqb_spec (length l) n) as [?|_]; [lia|]. unfold put_.
      rewrite Et, in_range_true by (unfold zlen; lia). cbn [rbind]. eexists. split; [reflexivity|].
      cbn [fst]. unfold ring_rel. cbn [rg_data rg_cap rg_head rg_tail]. rewrite app_length, insert_length. cbn [length].
      rewrite Ec, Eh, Nat2Z.id. replace (a + 1 - (length l + 1)) with (a - length l) by lia.
      split; [lia|]. split; [lia|]. split; [exact Ed|]. split; [reflexivity|].
      split; [rewrite Z.rem_small by lia; lia|]. split; [lia|].
      split; [|rewrite drop_insert_gt, <- drop_drop, Ez, drop_replicate by lia; f_equal; lia].
      rewrite Nat.add_1_r, (take_S_r _ a x) by (apply list_lookup_insert; lia).
      rewrite take_insert by lia. rewrite drop_app_le by (rewrite take_length; lia). rewrite <- El. reflexivity.
    + destruct (Nat.eqb_spec (length l) n) as [_|?]; [|lia]. cbn. rewrite Nat.add_0_r. eauto.
  - unfold r_dequeue. rewrite HE. destruct (Nat.eqb_spec (length l) 0) as [H0|H0].
    + destruct l; [|cbn in H0; lia]. cbn. exists r. split; [reflexivity|exact HR].
    + destruct (ring_front n a r l HR ltac:(lia)) as (x & Hx & ->). cbn [rbind]. rewrite Hx. eexists. split; [reflexivity|].
      cbn [fst]. unfold ring_rel. cbn [rg_data rg_cap rg_head rg_tail].
      destruct l as [|y l']; [cbn in H0; lia|]. cbn [tail length] in *.
      rewrite Eh, Ec. split; [exact Ha|]. split; [lia|]. split; [exact Ed|]. split; [reflexivity|]. split; [exact Et|].
      split; [rewrite Z.rem_small by lia; lia|].
      split; [|exact Ez].
      replace (a - length l') with (S (a - S (length l'))) by lia.
      rewrite <- Nat.add_1_r, <- drop_drop, <- El. reflexivity.
  - unfold r_peek. rewrite HE. destruct (Nat.eqb_spec (length l) 0) as [H0|H0].
    + destruct l; [|cbn in H0; lia]. cbn. exists r. split; [reflexivity|exact HR].
    + destruct (ring_front n a r l HR ltac:(lia)) as (x & Hx & ->). cbn [rbind]. rewrite Hx. eauto.
  - rewrite HE. eauto.
  - rewrite HF. eauto.
  - unfold r_capacity. rewrite Ec. exists r. split; [|exact HR]. f_equal. f_equal. cbn. f_equal. lia.
Qed.

Lemma accepted_cons n l o os : accepted n l (o :: os) = inc n l o + accepted n (bounded_step n l o).1 os.
Proof. reflexivity. Qed.
Lemma ring_run n os : forall a r l, 0 < n -> ring_rel n a r l -> a + accepted n l os <= n ->
  exists r', run r_step (Some r) os = (ideal_results (bounded_step n) l os, Ret (Some r')) /\
             ring_rel n (a + accepted n l os) r' (ideal_state (bounded_step n) l os).
Proof.
  induction os as [|o os IH]; intros a r l Hn HR Ha.
  - exists r. cbn. rewrite Nat.add_0_r. auto.
  - rewrite accepted_cons in *. destruct (ring_step n a r l o Hn HR ltac:(lia)) as (r1 & E1 & R1).
    destruct (IH _ r1 _ Hn R1 ltac:(lia)) as (r2 & E2 & R2).
    exists r2. cbn [run]. rewrite E1, E2. unfold ideal_results, ideal_state in *. cbn [ideal_run].
    destruct (bounded_step n l o) as [l1 x1]; cbn in *. destruct (ideal_run (bounded_step n) l1 os); cbn in *.
    split; [reflexivity|]. rewrite Nat.add_assoc. exact R2.
Qed.
Lemma ring_init n : 0 < n ->
  exists r, r_new zero (Z.of_nat n) = Ret (Some r) /\ ring_rel n 0 r [].
Proof.
  intros Hn. unfold r_new. destruct (Z.eqb_spec (Z.of_nat n) 0); [lia|]. destruct (Z.ltb_spec (Z.of_nat n) 0); [lia|].
  rewrite Nat2Z.id. eexists. split; [reflexivity|]. unfold ring_rel. cbn. rewrite replicate_length. repeat split; try lia; try reflexivity. rewrite Nat.sub_0_r. reflexivity.
Qed.

Lemma ring_until n os : 0 < n -> accepted n [] os <= n ->
  exists p, r_history zero (Z.of_nat n) os = (ideal_results (bounded_step n) [] os, Ret p).
Proof.
  intros Hn Ha. destruct (ring_init n Hn) as (r & Er & Hr). unfold r_history. rewrite Er.
  destruct (ring_run n os 0 r [] Hn Hr Ha) as (r' & E & _). eauto.
Qed.
Lemma ring_then_panics n pre x post : 0 < n -> accepted n [] pre = n ->
  length (ideal_state (bounded_step n) [] pre) < n ->
  r_history zero (Z.of_nat n) (pre ++ REnqueue x :: post) = (ideal_results (bounded_step n) [] pre, Panic).
Proof.
  intros Hn Ha Hl. destruct (ring_init n Hn) as (r & Er & Hr). unfold r_history. rewrite Er.
  destruct (ring_run n pre 0 r [] Hn Hr ltac:(lia)) as (r' & E & HR). rewrite run_app, E.
  cbn [run r_step deref rbind]. unfold r_enqueue. rewrite (ring_full n _ r' _ Hn HR).
  destruct (Nat.eqb_spec (length (ideal_state (bounded_step n) [] pre)) n); [lia|].
  destruct HR as (_ & _ & Ed & _ & Et & _ & _ & _). unfold put_, in_range, zlen.
  rewrite Et, Ed, Ha. rewrite Z.ltb_irrefl, andb_false_r. cbn. rewrite app_nil_r. reflexivity.
Qed.
Lemma accepted_app n l p q : accepted n l (p ++ q) = accepted n l p + accepted n (ideal_state (bounded_step n) l p) q.
Proof.
  revert l. induction p as [|o p IH]; intros l; [reflexivity|]. cbn [app]. rewrite !accepted_cons, IH.
  unfold ideal_state. cbn [ideal_run]. destruct (bounded_step n l o) as [l1 r1]; cbn.
  destruct (ideal_run (bounded_step n) l1 p); cbn. lia.
Qed.
(** every history is covered by one of the two *)
Lemma ring_dichotomy n os : 0 < n ->
  accepted n [] os <= n \/
  exists pre x post, os = pre ++ REnqueue x :: post /\ accepted n [] pre = n /\
    length (ideal_state (bounded_step n) [] pre) < n.
Proof.
  intros Hn. induction os as [|o os IH] using rev_ind; [left; cbn; lia|].
  destruct IH as [IH|(pre & x & post & -> & H)].
  - rewrite accepted_app. destruct (decide (accepted n [] os + accepted n (ideal_state (bounded_step n) [] os) [o] <= n)) as [|Hc]; [auto|].
    right. unfold accepted in Hc at 2. rewrite Nat.add_0_r in Hc. destruct o as [x| | | | |]; try lia.
    destruct (Nat.ltb_spec (length (ideal_state (bounded_step n) [] os)) n) as [Hlt|]; [|lia].
    exists os, x, []. split; [reflexivity|]. split; [lia|exact Hlt].
  - right. exists pre, x, (post ++ [o]). rewrite <- app_assoc. auto.
Qed.
Lemma ring_head n os : 0 < n -> accepted n [] os <= n ->
  forall rs p, r_history zero (Z.of_nat n) os = (rs, Ret (Some p)) ->
  forall x, head (ideal_state (bounded_step n) [] os) = Some x -> r_head p = Ret x.
Proof.
  intros Hn Ha rs p E x Hx. destruct (ring_init n Hn) as (r & Er & Hr). unfold r_history in E. rewrite Er in E.
  destruct (ring_run n os 0 r [] Hn Hr Ha) as (r' & E' & HR). rewrite E' in E. injection E as <- <-.
  destruct (ring_front n _ r' _ HR) as (y & Hy & E2); [destruct (ideal_state (bounded_step n) [] os); [discriminate|cbn; lia]|].
  unfold r_head. rewrite E2. congruence.
Qed.
Lemma ring_head_none n os : 0 < n -> accepted n [] os <= n ->
  forall rs p, r_history zero (Z.of_nat n) os = (rs, Ret (Some p)) ->
  ideal_state (bounded_step n) [] os = [] -> r_head p = if accepted n [] os <? n then Ret zero else Panic.
Proof.
  intros Hn Ha rs p E Hx. destruct (ring_init n Hn) as (r & Er & Hr). unfold r_history in E. rewrite Er in E.
  destruct (ring_run n os 0 r [] Hn Hr Ha) as (r' & E' & HR). rewrite E' in E. injection E as <- <-.
  rewrite Hx in HR. destruct HR as (_ & _ & Ed & _ & _ & Eh & _ & Ez). cbn in Eh, Ez. rewrite Nat.sub_0_r in Eh.
  unfold r_head, at_. rewrite Eh. destruct (Nat.ltb_spec (accepted n [] os) n) as [Hlt|Hge].
  - rewrite in_range_true by (unfold zlen; lia). rewrite Nat2Z.id.
    assert (G : rg_data r' !! accepted n [] os = Some zero).
    { rewrite <- (Nat.add_0_r (accepted n [] os)), <- lookup_drop, Ez. apply lookup_replicate. split; [reflexivity|lia]. }
    rewrite G. reflexivity.
  - unfold in_range, zlen. rewrite Ed. replace (Z.of_nat (accepted n [] os) <? Z.of_nat n)%Z with false by (symmetry; apply Z.ltb_ge; lia). rewrite andb_false_r. reflexivity.
Qed.
End RingProofs.
