(** Properties of dsx/slicex/stackx (C22) and dsx/slicex/listx (C23). *)
From Verif Require Import Base SeqSpec GoSlice SliceStackSpec SliceStackModel SliceProofs SliceStackProofs.

(** C22: every history of a new stack answers as the ideal stack, whatever
    append's growth; no call panics; nothing but newly allocated memory is touched. *)
Theorem slice_stack_lifo :
  forall (A : Type) (zero : A) (m : list (list A)) (hist : list (nat * kop A)),
    exists m' s', run (k_step zero) (k_new m) hist = (ideal_results kstack_step [] hist.*2, Ret (m', s')) /\
      wf m' s' /\ contents m' s' = reverse (ideal_state kstack_step [] hist.*2) /\
      forall b, b < length m -> arr m' b = arr m b.
Proof.
  intros A zero m hist. pose proof (alloc_wf m []) as (W & C & F). unfold k_new. destruct (alloc m []) as [m1 s1] eqn:E.
  destruct (k_history zero m1 s1 m1 s1 [] hist) as ([m' s'] & E' & W' & C' & (_ & L & _)).
  { unfold krel. cbn [fst snd] in *. change (reverse []) with (@nil A). rewrite <- C. apply became_refl, W. }
  exists m', s'. split; [exact E'|]. split; [exact W'|]. split; [exact C'|]. intros b Hb. cbn [fst] in *.
  unfold alloc in E. injection E as <- <-. rewrite L; [apply arr_app_old; exact Hb|rewrite app_length; lia|cbn; auto].
Qed.
Print Assumptions slice_stack_lifo.
(** the same for a stack that already holds something, from any point on *)
Theorem slice_stack_lifo_from :
  forall (A : Type) (zero : A) m s (hist : list (nat * kop A)), wf m s ->
    exists m' s', run (k_step zero) (m, s) hist = (ideal_results kstack_step (reverse (contents m s)) hist.*2, Ret (m', s')) /\
      became m s m' s' (reverse (ideal_state kstack_step (reverse (contents m s)) hist.*2)).
Proof.
  intros A zero m s hist W. destruct (k_history zero m s m s (reverse (contents m s)) hist) as ([m' s'] & E' & B).
  { unfold krel. rewrite reverse_involutive. apply became_refl, W. }
  exists m', s'. split; [exact E'|exact B].
Qed.
Print Assumptions slice_stack_lifo_from.
Example slice_stack_case :
  (run (k_step 0) (k_new []) [(0, KIsEmpty); (0, KOp Pop); (0, KOp (Push 1)); (2, KOp (Push 2)); (0, KOp (Push 3)); (0, KOp STop);
     (0, KOp Pop); (0, KOp Pop); (0, KOp (Push 4)); (0, KOp SLen); (0, KOp Pop); (0, KOp Pop); (0, KIsEmpty)]).1
  = [RBool true; RVal None; RBool true; RBool true; RBool true; RVal (Some 3); RVal (Some 3); RVal (Some 2); RBool true; RInt 2;
     RVal (Some 4); RVal (Some 1); RBool true].
Proof. reflexivity. Qed.

(** C23: every history behaves as the ideal sequence, except that Insert panics
    exactly when its index is outside [0, Len]. *)
Theorem slice_list_sequence :
  forall (A : Type) (zero : A) m s (hist : list (nat * lop A)), wf m s ->
    (forall pre o post l', hist.*2 = pre ++ o :: post -> (run vlist_step (contents m s) pre).2 = Ret l' ->
       lop_ints o /\ (zlen l' + 1 < 2^63)%Z) ->
    (run (v_step zero) (m, s) hist).1 = (run vlist_step (contents m s) hist.*2).1 /\
    match (run vlist_step (contents m s) hist.*2).2 with
    | Ret l' => exists m' s', (run (v_step zero) (m, s) hist).2 = Ret (m', s') /\ became m s m' s' l'
    | Panic => (run (v_step zero) (m, s) hist).2 = Panic
    | Spin => False
    end.
Proof.
  intros A zero m s hist W H. destruct (v_history zero m s m s (contents m s) hist) as [H1 H2];
    [apply became_refl, W|exact H|]. split; [exact H1|].
  destruct (run vlist_step (contents m s) hist.*2) as [rs [l'| |]] eqn:E; cbn [fst snd] in *.
  - destruct H2 as ([m' s'] & E' & B). eauto.
  - exact H2.
  - clear -E. revert E. generalize (contents m s). generalize (hist.*2). intros os. revert rs.
    induction os as [|o os IH]; intros rs l E; [discriminate|]. cbn [run] in E.
    destruct (vlist_step l o) as [[l' r]| |] eqn:Eo; [|discriminate|].
    + destruct (run vlist_step l' os) as [rs' e] eqn:E2. injection E as <- ->. eapply IH; eauto.
    + destruct o; cbn in Eo; try discriminate. destruct (in_range _ _ _); discriminate.
Qed.
Print Assumptions slice_list_sequence.
(** and an Insert at a wrong index panics in every state *)
Theorem slice_list_insert_panics :
  forall (A : Type) (zero x : A) g m s (i : Z), wf m s -> is_i64 i -> (zlen (contents m s) + 1 < 2^63)%Z ->
    (v_insert zero g m s i x = Panic <-> (i < 0 \/ zlen (contents m s) < i)%Z).
Proof.
  intros A zero x g m s i W Hi Hl. pose proof (v_insert_ok zero g m s i x W Hi Hl) as H. unfold in_range in H.
  destruct (Z.leb_spec 0 i), (Z.ltb_spec i (zlen (contents m s) + 1)); cbn [andb] in H;
    try (split; [intros _; lia|intros _; exact H]).
  destruct H as (m' & t & -> & _). split; [discriminate|lia].
Qed.
Print Assumptions slice_list_insert_panics.
(** Cap: at least Len; as long as it is larger, Append and Insert keep it and stay in the
    same array; otherwise they get more; Remove never changes it *)
Theorem slice_list_cap :
  forall (A : Type) (zero x : A) g m s (i : Z), wf m s -> (zlen (contents m s) + 1 < 2^63)%Z ->
    (zlen (contents m s) = v_len s /\ v_len s <= v_cap s)%Z /\
    (let s' := (v_append zero g m s x).2 in
     (v_len s < v_cap s -> v_cap s' = v_cap s /\ sl_arr s' = sl_arr s)%Z /\ (v_len s = v_cap s -> v_cap s' > v_cap s)%Z) /\
    (forall m' s', v_insert zero g m s i x = Ret (m', s') ->
     (v_len s < v_cap s -> v_cap s' = v_cap s /\ sl_arr s' = sl_arr s)%Z /\ (v_len s = v_cap s -> v_cap s' > v_cap s)%Z) /\
    (forall m' s' r, v_remove zero g m s i = Ret (m', s', r) -> v_cap s' = v_cap s /\ sl_arr s' = sl_arr s).
Proof.
  intros A zero x g m s i W HL. pose proof (contents_length m s W) as HC. pose proof W as [W1 _]. unfold v_len, v_cap, zlen in *.
  assert (HA : forall m' s', append zero g m s [x] = (m', s') -> (Z.of_nat (sl_len s) < Z.of_nat (sl_cap s) -> Z.of_nat (sl_cap s') = Z.of_nat (sl_cap s) /\ sl_arr s' = sl_arr s)%Z /\
    (Z.of_nat (sl_len s) = Z.of_nat (sl_cap s) -> Z.of_nat (sl_cap s') > Z.of_nat (sl_cap s))%Z).
  { intros m' s' E. unfold append in E. cbn [length] in E. destruct (Nat.leb_spec (sl_len s + 1) (sl_cap s)); injection E as _ <-; cbn [sl_cap sl_arr]; split; intros; lia || (split; lia || reflexivity). }
  split; [rewrite HC; lia|]. split; [|split].
  - unfold v_append. destruct (append zero g m s [x]) as [m' s'] eqn:E. exact (HA m' s' eq_refl).
  - intros m' s' E. unfold v_insert in E. destruct (append zero g m s [x]) as [m1 s1] eqn:E1. apply HA with (m' := m1).
    repeat (match type of E with (rbind ?r _) = _ => destruct r; [cbn [rbind] in E|discriminate|discriminate] end). injection E as _ <-. reflexivity.
  - intros m' s' r E. unfold v_remove in E. destruct ((i <? 0) || (Z.of_nat (sl_len s) <=? i))%Z eqn:Ei; [injection E as _ <- _; auto|].
    apply orb_false_iff in Ei as [E1 E2]. apply Z.ltb_ge in E1. apply Z.leb_gt in E2.
    destruct (sl_get m s i); [|discriminate|discriminate]. cbn [rbind] in E. unfold sl_sub at 1 in E. rewrite (proj2 (Z.leb_le 0 0)), (proj2 (Z.leb_le 0 i)), (proj2 (Z.leb_le i (Z.of_nat (sl_cap s)))) in E by lia. cbn [andb rbind] in E.
    destruct (sl_sub s (i64 (i + 1)) (Z.of_nat (sl_len s))) as [po| |] eqn:Ep; [|discriminate|discriminate]. cbn [rbind] in E.
    injection E as E _. unfold append in E. cbn [sl_len sl_cap sl_arr sl_off] in E.
    assert (Hp : length (contents m po) <= sl_len s - Z.to_nat i).
    { unfold sl_sub in Ep. destruct (_ && _ && _)%Z eqn:Eb; [|discriminate]. injection Ep as <-. unfold contents. rewrite take_length. cbn [sl_len].
      apply andb_true_iff in Eb as [Eb _]. apply andb_true_iff in Eb as [Eb1 Eb2]. rewrite i64_id in * by (unfold is_i64; lia). lia. }
    destruct (Nat.leb_spec (Z.to_nat (i - 0) + length (contents m po)) (sl_cap s - Z.to_nat 0)) as [|Hx]; [injection E as _ <-; cbn [sl_cap sl_arr]; split; [lia|reflexivity]|]. exfalso. lia.
Qed.
Print Assumptions slice_list_cap.
Example slice_list_case :
  let hist := [(0, Append 1); (1, Append 2); (0, Insert 1 9); (0, Insert 3 8); (0, Insert 0 7); (0, Remove 2); (0, Remove 9); (0, At 1);
               (0, Iterate (fun x => x <? 2)); (0, LLen); (0, Insert 5 1)] in
  (run (v_step 0) ([], nil_slice) hist) = ([RUnit; RUnit; RUnit; RUnit; RUnit; RVal (Some 9); RVal None; RVal (Some 1); RSeen [7]; RInt 4], Panic)
  /\ wf (A:=nat) [] nil_slice.
Proof. split; [reflexivity|vm_compute; split; lia]. Qed.
