From Verif Require Import Base Conc DecModel DecProofs DecExactSpec.
Local Open Scope Z.

Arguments fulls : simpl never.
Lemma passes_le l : (passes l <= length l)%nat.
Proof. induction l as [|[b|] l IH]; cbn; lia. Qed.
Lemma passes_full l i : (i < passes l)%nat -> exists b, l !! i = Some (Some b).
Proof. revert i. induction l as [|[b|] l IH]; cbn; intros i H; try lia. destruct i as [|i]; [eexists; reflexivity|]. apply IH. lia. Qed.
Lemma passes_empty l : (passes l < length l)%nat -> l !! passes l = Some None.
Proof. induction l as [|[b|] l IH]; cbn; intros H; [lia| |reflexivity]. apply IH. lia. Qed.
Lemma fulls_cons a l : fulls (a :: l) = ((if a then 1 else 0) + fulls l)%nat.
Proof. destruct a; reflexivity. Qed.
Lemma fulls_le l : (fulls l <= length l)%nat.
Proof. induction l as [|a l IH]; [reflexivity|]. rewrite fulls_cons. cbn [length]. destruct a; lia. Qed.
Lemma fulls_insert_some l i b : l !! i = Some None -> fulls (<[i := Some b]> l) = S (fulls l).
Proof.
  revert i. induction l as [|a l IH]; intros i H; [discriminate|]. destruct i as [|i].
  - injection H as ->. reflexivity.
  - change (<[S i := Some b]> (a :: l)) with (a :: <[i := Some b]> l). rewrite !fulls_cons, (IH i H). lia.
Qed.
Lemma fulls_insert_none l i b : l !! i = Some (Some b) -> S (fulls (<[i := None]> l)) = fulls l.
Proof.
  revert i. induction l as [|a l IH]; intros i H; [discriminate|]. destruct i as [|i].
  - injection H as ->. reflexivity.
  - change (<[S i := None]> (a :: l)) with (a :: <[i := None]> l). rewrite !fulls_cons, <- (IH i H). lia.
Qed.
Lemma fulls_all l : (forall i, (i < length l)%nat -> exists b, l !! i = Some (Some b)) -> fulls l = length l.
Proof.
  induction l as [|a l IH]; intros H; [reflexivity|]. destruct (H 0%nat ltac:(cbn; lia)) as [b E]. injection E as ->. rewrite fulls_cons. cbn [length].
  rewrite IH; [reflexivity|]. intros i Hi. exact (H (S i) ltac:(cbn; lia)).
Qed.
Lemma fulls_lt l i : l !! i = Some None -> (fulls l < length l)%nat.
Proof. intros H. pose proof (fulls_insert_some l i [] H) as E. pose proof (fulls_le (<[i := Some []]> l)). rewrite insert_length in *. lia. Qed.
Lemma fulls_pos l i b : l !! i = Some (Some b) -> fulls l <> 0%nat.
Proof. intros H. pose proof (fulls_insert_none l i b H). lia. Qed.
Lemma rot_lookup (l : list dslot) k i : (i < length l)%nat -> rotate k l !! i = l !! ((k + i) mod length l)%nat.
Proof.
  intros H. rewrite lookup_rotate_r by exact H. f_equal. unfold rotate_nat_add. rewrite <- Nat2Z.inj_add, <- Nat2Z.inj_mod. apply Nat2Z.id.
Qed.

Record xrel (d : dec) (g : dring) : Prop := {
  x_size : 0 < d_size d < 2^64 /\ d_size d = Z.of_nat (length (r_slots g));
  x_bound : Z.of_nat (r_tries g) <= 2^64 - 2;
  x_reads : (r_reads g + fulls (r_slots g) <= r_tries g)%nat;
  x_read : d_read d = Z.of_nat (r_reads g);
  x_write : d_write d = u64 (Z.of_nat (r_tries g) - 1);
  x_len : d_len d = Z.of_nat (fulls (r_slots g));
  x_none : forall i, r_slots g !! i = Some None -> d_lock d (Z.of_nat i) = lock_empty;
  x_some : forall i b, r_slots g !! i = Some (Some b) -> d_buf d (Z.of_nat i) = b /\ 0 <= d_lock d (Z.of_nat i) < 2^64 - 2 }.
Lemma xrel_new n : 0 < Z.of_nat n < 2^64 -> xrel (new_decoupler (Z.of_nat n)) (dr_new n).
Proof.
  intros H. assert (F : fulls (replicate n None) = 0%nat) by (unfold fulls; clear H; induction n; [reflexivity|assumption]).
  constructor; cbn; rewrite ?replicate_length, ?F; try lia; try reflexivity.
  intros i b E. apply lookup_replicate in E. destruct E; discriminate.
Qed.
Lemma full_not l : 0 <= l < 2^64 - 2 -> (l =? lock_empty) = false /\ (l =? lock_busy) = false.
Proof. unfold lock_empty, lock_busy. intros H. split; apply Z.eqb_neq; lia. Qed.

(** one more slot was tried in vain *)
Lemma xrel_try d g : xrel d g -> Z.of_nat (r_tries g) + 1 <= 2^64 - 2 ->
  xrel (Dec (d_read d) (u64 (d_write d + 1)) (d_len d) (d_size d) (d_lock d) (d_buf d)) (DR (r_slots g) (r_tries g + 1) (r_reads g)).
Proof.
  intros [X1 X2 X3 X4 X5 X6 X7 X8] H. constructor; cbn; try assumption; try lia.
  rewrite (u64_next (d_write d) (Z.of_nat (r_tries g))) by (auto; lia). rewrite u64_small by lia. lia.
Qed.
Lemma write_sim p : forall fuel d g b, xrel d g -> (p < fuel)%nat -> Z.of_nat (r_tries g + p) + 1 <= 2^64 - 2 ->
  (forall i, (i < p)%nat -> exists m, r_slots g !! ((r_tries g + i) mod length (r_slots g))%nat = Some (Some m)) ->
  r_slots g !! ((r_tries g + p) mod length (r_slots g))%nat = Some None ->
  exists d', write_loop fuel d b = Ret (d', DStored (Z.of_nat (length b))) /\
    xrel d' (DR (<[((r_tries g + p) mod length (r_slots g))%nat := Some b]> (r_slots g)) (r_tries g + p + 1) (r_reads g)).
Proof.
  induction p as [|p IH]; intros fuel d g b X Hf Hb Hp He; (destruct fuel as [|fuel]; [lia|]).
  - rewrite !Nat.add_0_r in *. pose proof X as [[X0 X1] X2 X3 X4 X5 X6 X7 X8]. cbn [write_loop d_size d_lock d_len d_read d_buf].
    destruct (Z.eqb_spec (d_size d) 0); [lia|]. rewrite (u64_next (d_write d) (Z.of_nat (r_tries g))) by (auto; lia).
    rewrite X1, <- Nat2Z.inj_mod, (X7 _ He), Z.eqb_refl. eexists. split; [reflexivity|].
    assert (N : (length (r_slots g) <> 0)%nat) by lia.
    pose proof (Nat.mod_upper_bound (r_tries g) _ N) as Hi. pose proof (fulls_lt _ _ He).
    constructor; cbn [d_size d_lock d_len d_read d_buf d_write r_slots r_tries r_reads]; rewrite ?insert_length, ?fulls_insert_some by exact He; try lia.
    + rewrite u64_small by lia. lia.
    + rewrite X6, u64_small by lia. lia.
    + intros i E. destruct (decide (i = (r_tries g mod length (r_slots g))%nat)) as [->|Hn].
      * rewrite list_lookup_insert in E by exact Hi. discriminate.
      * rewrite list_lookup_insert_ne in E by congruence. rewrite zset_ne by lia. apply X7, E.
    + intros i m E. destruct (decide (i = (r_tries g mod length (r_slots g))%nat)) as [->|Hn].
      * rewrite list_lookup_insert in E by exact Hi. injection E as <-. rewrite !zset_eq. split; [reflexivity|lia].
      * rewrite list_lookup_insert_ne in E by congruence. rewrite !zset_ne by lia. apply X8, E.
  - pose proof X as [[X0 X1] X2 X3 X4 X5 X6 X7 X8]. cbn [write_loop d_size d_lock d_len d_read d_buf].
    destruct (Z.eqb_spec (d_size d) 0); [lia|].
    destruct (Hp 0%nat ltac:(lia)) as [m Hm]. rewrite Nat.add_0_r in Hm. pose proof (X8 _ _ Hm) as [_ Hl].
    pose proof (xrel_try d g X ltac:(lia)) as X'. rewrite (u64_next (d_write d) (Z.of_nat (r_tries g))) in * by (auto; lia).
    rewrite X1, <- Nat2Z.inj_mod, (proj1 (full_not _ Hl)), (proj2 (full_not _ Hl)). cbn [negb andb].
    pose proof (fulls_lt _ _ He). destruct (Z.eqb_spec (d_len d) (Z.of_nat (length (r_slots g)))); [lia|].
    destruct (IH fuel _ _ b X') as (d' & E & X''); cbn [r_slots r_tries r_reads] in *.
    + lia.
    + lia.
    + intros i Hi. replace (r_tries g + 1 + i)%nat with (r_tries g + S i)%nat by lia. apply Hp. lia.
    + replace (r_tries g + 1 + p)%nat with (r_tries g + S p)%nat by lia. exact He.
    + exists d'. rewrite <- X1. split; [exact E|]. replace (r_tries g + S p)%nat with (r_tries g + 1 + p)%nat by lia. exact X''.
Qed.

Definition tries_ok (g : dring) (o : dop) : Prop := match dr_step g o with Ret (g', _) => Z.of_nat (r_tries g') <= 2^64 - 2 | _ => True end.
Lemma step_sim fuel d g o : xrel d g -> tries_ok g o -> d_size d <= Z.of_nat fuel ->
  match dr_step g o with
  | Ret (g', r) => exists d', dec_step fuel d o = Ret (d', r) /\ xrel d' g' /\ d_size d' = d_size d
  | Panic => dec_step fuel d o = Panic
  | Spin => dec_step fuel d o = Spin
  end.
Proof.
  intros X G Hf. pose proof X as [[X0 X1] X2 X3 X4 X5 X6 X7 X8]. assert (N : (length (r_slots g) <> 0)%nat) by lia.
  destruct o as [b|].
  - destruct b as [|x b]; [exists d; split; [reflexivity|split; [exact X|reflexivity]]|]. unfold tries_ok in G. cbn [dr_step] in *.
    set (rot := rotate (r_tries g) (r_slots g)) in *. assert (Lr : length rot = length (r_slots g)) by apply rotate_length.
    assert (F : forall i, (i < passes rot)%nat -> exists m, r_slots g !! ((r_tries g + i) mod length (r_slots g))%nat = Some (Some m)).
    { intros i Hi. pose proof (passes_le rot). destruct (passes_full rot i Hi) as [m E]. exists m. rewrite <- E. symmetry. apply rot_lookup. lia. }
    case_decide as C.
    + cbn [dec_step dec_write]. destruct fuel as [|fuel]; [lia|]. cbn [write_loop d_size d_lock d_len d_read d_buf].
      assert (A : fulls (r_slots g) = length (r_slots g)).
      { apply fulls_all. intros j Hj. destruct (F ((j + (length (r_slots g) - r_tries g mod length (r_slots g))) mod length (r_slots g))%nat) as [m E].
        - rewrite C. apply Nat.mod_upper_bound. exact N.
        - exists m. rewrite <- E. f_equal. pose proof (Nat.mod_upper_bound (r_tries g) _ N).
          rewrite Nat.add_mod_idemp_r by exact N. rewrite <- (Nat.add_mod_idemp_l (r_tries g)) by exact N.
          replace (r_tries g mod length (r_slots g) + (j + (length (r_slots g) - r_tries g mod length (r_slots g))))%nat with (j + 1 * length (r_slots g))%nat by lia.
          rewrite Nat.mod_add by exact N. symmetry. apply Nat.mod_small. exact Hj. }
      destruct (Z.eqb_spec (d_size d) 0); [lia|]. pose proof (xrel_try d g X ltac:(cbn in G; lia)) as X'. rewrite (u64_next (d_write d) (Z.of_nat (r_tries g))) in * by (auto; lia).
      destruct (F 0%nat ltac:(lia)) as [m Hm]. rewrite Nat.add_0_r in Hm. pose proof (X8 _ _ Hm) as [_ Hl].
      rewrite X1, <- Nat2Z.inj_mod, (proj1 (full_not _ Hl)), (proj2 (full_not _ Hl)), X6, A, Z.eqb_refl. cbn [negb andb].
      eexists. split; [reflexivity|]. split; [|reflexivity]. rewrite X1, X6, A in X'. exact X'.
    + pose proof (passes_le rot) as Lp.
      destruct (write_sim (passes rot) fuel d g (x :: b) X) as (d' & E & X'); [lia|cbn [r_tries] in G; lia|exact F| |].
      * rewrite <- rot_lookup by lia. fold rot. apply passes_empty. lia.
      * exists d'. cbn [dec_step dec_write]. split; [exact E|]. split; [exact X'|]. destruct X' as [[_ S'] _ _ _ _ _ _ _]. cbn in S'. rewrite insert_length in S'. lia.
  - cbn [dr_step dec_step]. unfold dec_next. pose proof (Nat.mod_upper_bound (r_reads g) _ N) as Hi.
    rewrite X4, X1, <- Nat2Z.inj_mod. set (i := (r_reads g mod length (r_slots g))%nat) in *.
    destruct (lookup_lt_is_Some_2 (r_slots g) i Hi) as [[b|] E]; rewrite E.
    + pose proof (fulls_pos _ _ _ E). pose proof (X8 _ _ E) as [Hb Hl]. pose proof (fulls_insert_none _ _ _ E). pose proof (fulls_le (r_slots g)).
      destruct (Z.eqb_spec (d_len d) 0); [lia|]. destruct (Z.eqb_spec (Z.of_nat (length (r_slots g))) 0); [lia|].
      destruct fuel as [|fuel]; [lia|]. cbn [wait_loop]. rewrite (proj1 (full_not _ Hl)), (proj2 (full_not _ Hl)). cbn [orb rbind]. rewrite Hb.
      eexists. split; [reflexivity|]. split; [|cbn; lia].
      constructor; cbn [d_size d_lock d_len d_read d_buf d_write r_slots r_tries r_reads]; rewrite ?insert_length; try lia.
      * rewrite u64_small by lia. lia.
      * rewrite X6. unfold u64. replace (Z.of_nat (fulls (r_slots g)) + (2 ^ 64 - 1)) with (Z.of_nat (fulls (<[i:=None]> (r_slots g))) + 1 * 2 ^ 64) by lia.
        rewrite Z.mod_add by lia. apply Z.mod_small. lia.
      * intros j Ej. destruct (decide (j = i)) as [->|Hn]; [rewrite zset_eq; reflexivity|].
        rewrite list_lookup_insert_ne in Ej by congruence. rewrite zset_ne by lia. apply X7, Ej.
      * intros j m Ej. destruct (decide (j = i)) as [->|Hn]; [rewrite list_lookup_insert in Ej by exact Hi; discriminate|].
        rewrite list_lookup_insert_ne in Ej by congruence. rewrite zset_ne by lia. apply X8, Ej.
    + case_decide as C.
      * exists d. rewrite X6, C. cbn. auto.
      * destruct (Z.eqb_spec (d_len d) 0); [lia|]. destruct (Z.eqb_spec (Z.of_nat (length (r_slots g))) 0); [lia|].
        rewrite wait_empty by (apply X7, E). reflexivity.
Qed.
