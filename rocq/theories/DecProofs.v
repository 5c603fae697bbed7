From Verif Require Import Base Conc DecModel.
Local Open Scope Z.

(** *** one goroutine *)
(** the ideal: a queue of at most [size] messages *)
Definition dq_step (size : Z) (q : list (list Z)) (o : dop) : list (list Z) * dret :=
  match o with
  | OWrite [] => (q, DDropped [])
  | OWrite b => if Z.of_nat (length q) <? size then (q ++ [b], DStored (Z.of_nat (length b))) else (q, DDropped b)
  | ONext => match q with [] => (q, DNext None) | b :: q => (q, DNext (Some b)) end
  end.
(** the call does not meet a full buffer *)
Definition dq_fits (size : Z) (q : list (list Z)) (o : dop) : Prop :=
  match o with OWrite (_ :: _) => Z.of_nat (length q) < size | _ => True end.

Record drel (d : dec) (q : list (list Z)) (R : Z) : Prop := {
  dr_size : 0 < d_size d < 2^64;
  dr_r : 0 <= R;
  dr_bound : R + Z.of_nat (length q) <= 2^64 - 2;
  dr_read : d_read d = R;
  dr_write : d_write d = u64 (R + Z.of_nat (length q) - 1);
  dr_len : d_len d = Z.of_nat (length q);
  dr_le : Z.of_nat (length q) <= d_size d;
  dr_full : forall k b, q !! k = Some b -> d_lock d ((R + Z.of_nat k) mod d_size d) = R + Z.of_nat k /\ d_buf d ((R + Z.of_nat k) mod d_size d) = b;
  dr_empty : forall j, (forall k, (k < length q)%nat -> (R + Z.of_nat k) mod d_size d <> j) -> d_lock d j = lock_empty }.
Lemma zset_eq {A} (f : Z -> A) i a : zset f i a i = a.
Proof. unfold zset. rewrite Z.eqb_refl. reflexivity. Qed.
Lemma zset_ne {A} (f : Z -> A) i a j : j <> i -> zset f i a j = f j.
Proof. intros H. unfold zset. rewrite (proj2 (Z.eqb_neq j i) H). reflexivity. Qed.
Lemma drel_new size : 0 < size < 2^64 -> drel (new_decoupler size) [] 0.
Proof. intros H. constructor; cbn [new_decoupler d_size d_read d_write d_len d_lock length]; try (cbn; lia); try reflexivity. intros k b E. discriminate. Qed.
(** nearby numbers fall into different slots *)
Lemma mod_near a b n : 0 < n -> a mod n = b mod n -> - n < a - b < n -> a = b.
Proof.
  intros Hn H Hab. rewrite (Z.div_mod a n), (Z.div_mod b n) in Hab by lia. rewrite (Z.div_mod a n), (Z.div_mod b n) by lia. rewrite H in *.
  assert (E : a / n = b / n); [|rewrite E; reflexivity]. assert (- n < n * (a / n - b / n) < n) by lia. nia.
Qed.
Lemma u64_small z : 0 <= z < 2^64 -> u64 z = z.
Proof. intros H. apply u64_id. exact H. Qed.
Lemma u64_next w k : w = u64 (k - 1) -> 0 <= k < 2^64 -> u64 (w + 1) = k.
Proof.
  intros -> H. unfold u64. rewrite Zplus_mod_idemp_l. replace (k - 1 + 1) with k by lia. apply Z.mod_small. exact H.
Qed.
Lemma seq_write f d q R b : drel d q R -> b <> [] -> Z.of_nat (length q) < d_size d -> R + Z.of_nat (length q) < 2^64 - 2 ->
  exists d', dec_write (S f) d b = Ret (d', DStored (Z.of_nat (length b))) /\ drel d' (q ++ [b]) R /\ d_size d' = d_size d.
Proof.
  intros [S1 S2 S3 S4 S5 S6 S7 S8 S9] Hb Hq Hw. unfold dec_write. destruct b as [|x b0]; [congruence|]. set (b := x :: b0) in *. clearbody b. clear x b0 Hb.
  cbn [write_loop d_size d_read d_write d_len d_lock d_buf].
  rewrite (u64_next _ (R + Z.of_nat (length q)) S5) by lia.
  set (ts := R + Z.of_nat (length q)) in *.
  destruct (Z.eqb_spec (d_size d) 0); [lia|].
  assert (Hother : forall k, (k < length q)%nat -> (R + Z.of_nat k) mod d_size d <> ts mod d_size d).
  { intros k Hk E. apply mod_near in E; unfold ts in *; lia. }
  rewrite (S9 (ts mod d_size d)) by exact Hother. rewrite Z.eqb_refl.
  eexists. split; [reflexivity|]. split; [|reflexivity].
  rewrite (u64_small (d_len d + 1)) by lia.
  constructor; cbn [d_size d_read d_write d_len d_lock d_buf]; rewrite ?app_length; cbn [length]; try lia.
  - rewrite u64_small by lia. lia.
  - intros k m E. apply lookup_app_Some in E as [E|[E1 E2]].
    + pose proof (lookup_lt_Some _ _ _ E). rewrite !zset_ne by (apply Hother; assumption). apply S8. exact E.
    + destruct (k - length q)%nat eqn:Ek; [|discriminate]. injection E2 as <-. assert (k = length q) as -> by lia.
      fold ts. rewrite !zset_eq. auto.
  - intros j Hj. rewrite zset_ne; [apply S9|].
    + intros k Hk. apply Hj. lia.
    + intros ->. apply (Hj (length q)); [lia|]. reflexivity.
Qed.
Lemma seq_next f d b q R : drel d (b :: q) R ->
  exists d', dec_next (S f) d = Ret (d', DNext (Some b)) /\ drel d' q (R + 1) /\ d_size d' = d_size d.
Proof.
  intros [S1 S2 S3 S4 S5 S6 S7 S8 S9]. unfold dec_next. cbn [length] in *. rewrite S6.
  destruct (Z.eqb_spec (Z.of_nat (S (length q))) 0); [lia|]. destruct (Z.eqb_spec (d_size d) 0); [lia|].
  destruct (S8 0%nat b eq_refl) as [L0 B0]. rewrite Z.add_0_r in L0, B0. rewrite S4. cbn [wait_loop]. rewrite L0.
  assert (E1 : (R =? lock_empty) = false) by (apply Z.eqb_neq; unfold lock_empty; lia).
  assert (E2 : (R =? lock_busy) = false) by (apply Z.eqb_neq; unfold lock_busy; lia).
  rewrite E1, E2. cbn [orb rbind]. rewrite B0. eexists. split; [reflexivity|]. split; [|reflexivity].
  constructor; cbn [d_size d_read d_write d_len d_lock d_buf]; try lia.
  - apply u64_small. lia.
  - rewrite S5. f_equal. lia.
  - unfold u64. replace (Z.of_nat (S (length q)) + (2^64 - 1)) with (Z.of_nat (length q) + 1 * 2^64) by lia. rewrite Z.mod_add by lia. apply Z.mod_small. lia.
  - intros k m E. pose proof (lookup_lt_Some _ _ _ E). rewrite zset_ne.
    + destruct (S8 (S k) m E) as [L B]. replace (R + 1 + Z.of_nat k) with (R + Z.of_nat (S k)) by lia. auto.
    + intros E3. apply mod_near in E3; lia.
  - intros j Hj. destruct (decide (j = R mod d_size d)) as [->|N]; [apply zset_eq|]. rewrite zset_ne by exact N. apply S9.
    intros [|k] Hk; [rewrite Z.add_0_r; congruence|]. replace (R + Z.of_nat (S k)) with (R + 1 + Z.of_nat k) by lia. apply Hj. lia.
Qed.
Lemma seq_next_none f d R : drel d [] R -> dec_next f d = Ret (d, DNext None).
Proof. intros H. unfold dec_next. rewrite (dr_len _ _ _ H). reflexivity. Qed.
Definition writes (os : list dop) : Z := Z.of_nat (length (List.filter (fun o => match o with OWrite (_ :: _) => true | _ => false end) os)).
Lemma writes_cons o os : writes (o :: os) = (match o with OWrite (_ :: _) => 1 | _ => 0 end) + writes os.
Proof. unfold writes. cbn [List.filter]. destruct o as [[|x b]|]; cbn [length]; lia. Qed.
Lemma writes_nonneg os : 0 <= writes os.
Proof. unfold writes. lia. Qed.
Lemma seq_fifo f os : forall d q R, drel d q R -> R + Z.of_nat (length q) + writes os <= 2^64 - 2 ->
  good_history (dq_step (d_size d)) (dq_fits (d_size d)) q os ->
  exists d' R', run (dec_step (S f)) d os = (ideal_results (dq_step (d_size d)) q os, Ret d') /\
    drel d' (ideal_state (dq_step (d_size d)) q os) R' /\ d_size d' = d_size d /\
    R' + Z.of_nat (length (ideal_state (dq_step (d_size d)) q os)) = R + Z.of_nat (length q) + writes os.
Proof.
  induction os as [|o os IH]; intros d q R H B G.
  - exists d, R. split; [reflexivity|]. split; [exact H|]. split; [reflexivity|]. unfold writes, ideal_state. cbn. lia.
  - rewrite writes_cons in *. pose proof (writes_nonneg os) as W. cbn [good_history] in G. destruct G as [G1 G2].
    assert (St : exists d1 R1, dec_step (S f) d o = Ret (d1, (dq_step (d_size d) q o).2) /\ drel d1 (dq_step (d_size d) q o).1 R1 /\ d_size d1 = d_size d /\
      R1 + Z.of_nat (length (dq_step (d_size d) q o).1) = R + Z.of_nat (length q) + (match o with OWrite (_ :: _) => 1 | _ => 0 end)).
    { destruct o as [[|x b]|].
      - exists d, R. cbn. split; [reflexivity|]. split; [exact H|]. split; [reflexivity|]. lia.
      - cbn in G1. destruct (seq_write f d q R (x :: b) H ltac:(discriminate) G1 ltac:(lia)) as (d1 & E1 & E2 & E3).
        exists d1, R. cbn [dec_step dq_step]. rewrite E1. destruct (Z.ltb_spec (Z.of_nat (length q)) (d_size d)); [|lia]. cbn [fst snd].
        split; [reflexivity|]. split; [exact E2|]. split; [exact E3|]. rewrite app_length. cbn [length]. lia.
      - destruct q as [|b q].
        + exists d, R. cbn [dec_step dq_step]. rewrite (seq_next_none _ _ _ H). cbn. split; [reflexivity|]. split; [exact H|]. split; [reflexivity|]. lia.
        + destruct (seq_next f d b q R H) as (d1 & E1 & E2 & E3). exists d1, (R + 1). cbn [dec_step dq_step]. rewrite E1. cbn [fst snd].
          split; [reflexivity|]. split; [exact E2|]. split; [exact E3|]. cbn [length]. lia. }
    destruct St as (d1 & R1 & E1 & E2 & E3 & E4).
    destruct (IH d1 (dq_step (d_size d) q o).1 R1 E2) as (d2 & R2 & F1 & F2 & F3 & F4); [lia|rewrite E3; exact G2|].
    rewrite E3 in *. exists d2, R2. cbn [run]. rewrite E1, F1.
    unfold ideal_results, ideal_state in *. cbn [ideal_run]. destruct (dq_step (d_size d) q o) as [q1 r1]. cbn [fst snd] in *.
    destruct (ideal_run (dq_step (d_size d)) q1 os) as [rs q2]. cbn [fst snd] in *. split; [reflexivity|]. split; [exact F2|]. split; [congruence|]. lia.
Qed.
Lemma wait_empty f d idx : d_lock d idx = lock_empty -> wait_loop f d idx = Spin.
Proof. intros E. induction f as [|f IH]; cbn [wait_loop]; [reflexivity|]. rewrite E, Z.eqb_refl. exact IH. Qed.

(** the counter wraps: write number 2^64 - 2 marks its slot empty *)
Lemma wrap_hangs f d b R : drel d [] R -> R = 2^64 - 2 -> b <> [] ->
  exists rs, run (dec_step (S f)) d [OWrite b; ONext] = (rs, Spin) /\ length rs = 1%nat.
Proof.
  intros [S1 S2 S3 S4 S5 S6 S7 S8 S9] -> Hb. cbn [run dec_step]. unfold dec_write. destruct b as [|x b0]; [congruence|]. set (b := x :: b0) in *. clearbody b. clear x b0 Hb.
  cbn [write_loop d_size d_read d_write d_len d_lock d_buf length] in *.
  rewrite (u64_next _ (2^64 - 2)) by (try lia; rewrite S5; f_equal; lia).
  destruct (Z.eqb_spec (d_size d) 0); [lia|]. rewrite (S9 ((2^64 - 2) mod d_size d)) by (intros; lia). rewrite Z.eqb_refl. cbn [run].
  unfold dec_next. cbn [d_size d_read d_write d_len d_lock d_buf]. rewrite S6.
  change (u64 (Z.of_nat 0 + 1)) with 1. change (1 =? 0) with false. destruct (Z.eqb_spec (d_size d) 0); [lia|].
  rewrite wait_empty by (cbn [d_lock]; rewrite S4; apply zset_eq). cbn [rbind]. eexists. split; reflexivity.
Qed.
