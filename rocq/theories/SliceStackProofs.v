From Verif Require Import Base SeqSpec GoSlice SliceStackSpec SliceStackModel SliceModel SliceProofs.

Section Proofs.
Context {A : Type} (zero : A).
Notation mem := (list (list A)).
Implicit Types (m : mem) (s : slice).

Definition krel (m0 : mem) (s0 : slice) (st : mem * slice) (l : list A) : Prop := became m0 s0 st.1 st.2 (reverse l).
Definition vrel (m0 : mem) (s0 : slice) (st : mem * slice) (l : list A) : Prop := became m0 s0 st.1 st.2 l.

Lemma reverse_last (l : list A) : last (reverse l) = head l.
Proof. destruct l; [reflexivity|]. rewrite reverse_cons, last_snoc. reflexivity. Qed.
Lemma reverse_take (l : list A) : take (length l - 1) (reverse l) = reverse (tail l).
Proof. destruct l; [reflexivity|]. rewrite reverse_cons. apply take_app_alt. rewrite reverse_length. cbn [length tail]. lia. Qed.

Lemma last_at (l : list A) : 0 < length l -> l !! (length l - 1) = last l.
Proof. intros H. rewrite last_lookup. f_equal. lia. Qed.

Lemma k_step_ok m0 s0 st l g o : krel m0 s0 st l ->
  exists st', k_step zero st (g, o) = Ret (st', (kstack_step l o).2) /\ krel m0 s0 st' (kstack_step l o).1.
Proof.
  destruct st as [m s]. unfold krel. cbn [fst snd]. intros B. pose proof B as (W & C & L).
  pose proof (contents_length m s W) as HL. rewrite C, reverse_length in HL.
  assert (G : forall x, head l = Some x -> sl_get m s (Z.of_nat (sl_len s) - 1) = Ret x).
  { intros x Hx. destruct l as [|y l]; [discriminate|]. cbn in HL, Hx. injection Hx as <-.
    destruct (sl_get_ok m s (Z.of_nat (sl_len s) - 1) W) as (z & Ez & ->); [lia|]. f_equal.
    rewrite C in Ez. replace (Z.to_nat (Z.of_nat (sl_len s) - 1)) with (length (reverse (y :: l)) - 1) in Ez
      by (rewrite reverse_length; cbn; lia).
    rewrite last_at, reverse_last in Ez by (rewrite reverse_length; cbn; lia). cbn in Ez. congruence. }
  destruct o as [[x| | |]|]; cbn [k_step kstack_step lifo_step fst snd].
  - eexists. split; [reflexivity|]. rewrite reverse_cons, <- C. eapply became_trans; [exact B|]. apply append_became, W.
  - unfold k_pop. destruct l as [|y l].
    + cbn in HL. rewrite <- HL. cbn. eauto.
    + cbn [length] in HL. destruct (Z.eqb_spec (Z.of_nat (sl_len s)) 0); [lia|]. rewrite (G y eq_refl). cbn [rbind].
      destruct (sub_became m s 0 (Z.of_nat (sl_len s) - 1) W) as (t & -> & Bt & _); [lia|unfold len; lia|].
      cbn [rbind]. eexists. split; [reflexivity|]. cbn [fst snd tail].
      assert (E : take (Z.to_nat (Z.of_nat (sl_len s) - 1 - 0)) (drop (Z.to_nat 0) (contents m s)) = reverse l).
      { rewrite C, drop_0. replace (Z.to_nat (Z.of_nat (sl_len s) - 1 - 0)) with (length (y :: l) - 1) by (cbn; lia).
        rewrite reverse_take. reflexivity. }
      rewrite E in Bt. eapply became_trans; eauto.
  - unfold k_peek. destruct l as [|y l].
    + cbn in HL. rewrite <- HL. cbn. eauto.
    + cbn [length] in HL. destruct (Z.eqb_spec (Z.of_nat (sl_len s)) 0); [lia|]. rewrite (G y eq_refl). cbn. eauto.
  - exists (m, s). split; [|exact B]. unfold k_len. rewrite HL. reflexivity.
  - exists (m, s). split; [|exact B]. unfold k_is_empty. rewrite <- HL. destruct l; reflexivity.
Qed.

Lemma k_history m0 s0 m s l hist : krel m0 s0 (m, s) l ->
  exists st', run (k_step zero) (m, s) hist = (ideal_results kstack_step l hist.*2, Ret st') /\
    krel m0 s0 st' (ideal_state kstack_step l hist.*2).
Proof.
  intros H. apply (run_refines_oracle (k_step zero) kstack_step (krel m0 s0) (fun _ _ => True)); [|exact H|auto].
  intros. apply k_step_ok. assumption.
Qed.

(** *** list *)
Lemma iterate_loop_ok f m s : wf m s -> forall fuel i, i + fuel = sl_len s ->
  v_iterate_loop f m s (Z.of_nat i) fuel = Ret (seen_until_false f (drop i (contents m s))).
Proof.
  intros W. pose proof (contents_length m s W) as L. induction fuel as [|k IH]; intros i Hi; cbn [v_iterate_loop].
  - rewrite drop_ge by lia. reflexivity.
  - destruct (sl_get_ok m s (Z.of_nat i) W) as (x & Ex & ->); [lia|]. cbn [rbind]. rewrite Nat2Z.id in Ex.
    rewrite (drop_S _ x i Ex). cbn [seen_until_false]. destruct (f x); [|reflexivity].
    replace (Z.of_nat i + 1)%Z with (Z.of_nat (S i)) by lia. rewrite IH by lia. reflexivity.
Qed.

Lemma v_insert_ok g m s i x : wf m s -> is_i64 i -> (zlen (contents m s) + 1 < 2^63)%Z ->
  if in_range i 0 (zlen (contents m s) + 1)
  then exists m' t, v_insert zero g m s i x = Ret (m', t) /\
         became m s m' t (take (Z.to_nat i) (contents m s) ++ x :: drop (Z.to_nat i) (contents m s))
  else v_insert zero g m s i x = Panic.
Proof.
  intros W Hi Hl. unfold v_insert. pose proof (append_became zero g m s [x] W) as B.
  pose proof (contents_length m s W) as L. set (l := contents m s) in *. clearbody l. unfold zlen in *.
  destruct (append zero g m s [x]) as [m1 s1]. cbn [fst snd] in B. pose proof B as (W1 & C1 & L1).
  pose proof (contents_length m1 s1 W1) as HL1. rewrite C1, app_length in HL1. cbn [length] in HL1.
  unfold is_i64 in Hi. unfold in_range.
  destruct (Z.leb_spec 0 i) as [H0|H0]; cbn [andb].
  2:{ destruct (Z.leb_spec 0 (i64 (i + 1))) as [H1|H1].
      - rewrite i64_id in * by (unfold is_i64; lia). assert (i = -1)%Z as -> by lia.
        destruct (sl_sub_ok m1 s1 (-1 + 1) (Z.of_nat (sl_len s1)) W1) as (dst & -> & _); [lia|lia|]. reflexivity.
      - unfold sl_sub at 1. rewrite (proj2 (Z.leb_gt _ _)) by lia. reflexivity. }
  destruct (Z.ltb_spec i (Z.of_nat (length l) + 1)) as [H1|H1].
  2:{ unfold sl_sub at 1. destruct (decide (i = max_i64)) as [->|Hm].
      - vm_compute (i64 _). reflexivity.
      - rewrite i64_id by (unfold is_i64, max_i64 in *; lia). rewrite (proj2 (Z.leb_gt (i+1) _)) by lia.
        rewrite andb_false_r. reflexivity. }
  rewrite i64_id by (unfold is_i64; lia).
  destruct (sl_sub_ok m1 s1 (i+1) (Z.of_nat (sl_len s1)) W1) as (dst & -> & Wd & Ad & Ld & Od & Cd & _); [lia|lia|].
  destruct (sl_sub_ok m1 s1 i (Z.of_nat (sl_len s1)) W1) as (src & -> & Ws & As & Ls & Os & Cs & _ & ECs); [lia|lia|].
  cbn [rbind]. unfold sl_copy. rewrite Ad, Od, Ld, ECs, C1.
  set (ys := take _ (take _ _)).
  assert (Hys : length ys = length l - Z.to_nat i).
  { subst ys. rewrite !take_length, drop_length, app_length. cbn [length]. lia. }
  set (k := S (Z.to_nat i)). replace (sl_off s1 + Z.to_nat (i + 1)) with (sl_off s1 + k) by lia.
  assert (Hk : k + length ys <= sl_len s1) by lia.
  pose proof (contents_write m1 s1 k ys W1 Hk) as CW.
  pose proof (write_wf m1 s1 k ys s1 W1 ltac:(destruct W1; lia) W1) as WW.
  pose proof (local_write m1 s1 k ys ltac:(destruct W1; lia)) as LW.
  set (m2 := write m1 (sl_arr s1) (sl_off s1 + k) ys) in *.
  destruct (set_became m2 s1 i x WW) as (m3 & -> & B3); [unfold len; lia|]. cbn [rbind].
  do 2 eexists. split; [reflexivity|]. eapply became_trans; [exact B|].
  assert (B2 : became m1 s1 m2 s1 (contents m2 s1)) by (split; [exact WW|split; [reflexivity|exact LW]]).
  pose proof (became_trans _ _ _ _ _ _ _ _ B2 B3) as B23.
  assert (E : <[Z.to_nat i := x]> (contents m2 s1) = take (Z.to_nat i) l ++ x :: drop (Z.to_nat i) l); [|rewrite E in B23; exact B23].
  rewrite CW, C1. assert (Hys' : ys = drop (Z.to_nat i) l).
  { subst ys. rewrite take_take. rewrite drop_app_le by lia. rewrite take_app_alt; [reflexivity|]. rewrite drop_length. lia. }
  rewrite Hys'. rewrite (drop_ge (l ++ [x])) by (rewrite app_length, drop_length; cbn; lia). rewrite app_nil_r.
  subst k. rewrite insert_app_l by (rewrite take_length, app_length; cbn [length]; lia).
  assert (HT : exists y, (l ++ [x]) !! Z.to_nat i = Some y) by (apply lookup_lt_is_Some; rewrite app_length; cbn; lia).
  destruct HT as [y Hy]. rewrite (take_S_r _ _ y Hy), insert_app_r_alt by (rewrite take_length; lia).
  rewrite take_length, app_length. cbn [length]. replace (_ - _) with 0 by lia. cbn.
  rewrite take_app_le by lia. rewrite <- app_assoc. reflexivity.
Qed.

Lemma v_remove_ok g m s i : wf m s -> (zlen (contents m s) < 2^63)%Z ->
  exists m' t, v_remove zero g m s i
    = Ret (m', t, if in_range i 0 (zlen (contents m s)) then contents m s !! Z.to_nat i else None) /\
    became m s m' t (if in_range i 0 (zlen (contents m s))
                     then take (Z.to_nat i) (contents m s) ++ drop (S (Z.to_nat i)) (contents m s) else contents m s).
Proof.
  intros W Hl. unfold v_remove. pose proof (contents_length m s W) as L. unfold in_range, zlen in *.
  rewrite L in *. destruct (Z.ltb_spec i 0), (Z.leb_spec (Z.of_nat (sl_len s)) i), (Z.leb_spec 0 i), (Z.ltb_spec i (Z.of_nat (sl_len s))); try lia;
    cbn [orb andb]; try (exists m, s; split; [reflexivity|apply became_refl; exact W]).
  destruct (sl_get_ok m s i W) as (x & Ex & ->); [lia|]. cbn [rbind]. rewrite Ex.
  destruct (sub_became m s 0 i W) as (pre & -> & Bp & _); [lia|unfold len; lia|]. cbn [rbind].
  rewrite i64_id by (unfold is_i64; lia).
  destruct (sub_became m s (i+1) (Z.of_nat (sl_len s)) W) as (post & -> & (_ & Cq & _) & _); [lia|unfold len; lia|]. cbn [rbind].
  rewrite Cq. pose proof Bp as (Wp & Cp & _).
  match goal with |- context [append zero g m pre ?xs] => pose proof (append_became zero g m pre xs Wp) as Ba;
     destruct (append zero g m pre xs) as [m' t] end.
  exists m', t. split; [reflexivity|]. cbn [fst snd] in Ba. rewrite Cp in Ba.
  match type of Ba with became _ _ _ _ ?u =>
    assert (E : u = take (Z.to_nat i) (contents m s) ++ drop (S (Z.to_nat i)) (contents m s)) end.
  { rewrite drop_0. f_equal; [f_equal; lia|]. replace (Z.to_nat (i + 1)) with (S (Z.to_nat i)) by lia.
    apply take_ge. rewrite drop_length. lia. }
  rewrite E in Ba. eapply became_trans; eauto.
Qed.

Lemma v_step_ok m0 s0 st l g o : vrel m0 s0 st l -> lop_ints o /\ (zlen l + 1 < 2^63)%Z ->
  match vlist_step l o with
  | Ret (l', r) => exists st', v_step zero st (g, o) = Ret (st', r) /\ vrel m0 s0 st' l'
  | Panic => v_step zero st (g, o) = Panic
  | Spin => v_step zero st (g, o) = Spin
  end.
Proof.
  destruct st as [m s]. unfold vrel. cbn [fst snd]. intros B [Hi Hl]. pose proof B as (W & C & L).
  pose proof (contents_length m s W) as HL. rewrite C in HL.
  destruct o as [x|i x|i|i|f|]; cbn [vlist_step seq_step v_step lop_ints] in *.
  - eexists. split; [reflexivity|]. cbn. rewrite <- C. eapply became_trans; [exact B|]. apply append_became, W.
  - pose proof (v_insert_ok g m s i x W Hi) as H. rewrite C in H. specialize (H Hl).
    destruct (in_range i 0 (zlen l + 1)).
    + destruct H as (m' & t & -> & B'). cbn [rbind]. eexists. split; [reflexivity|]. eapply became_trans; eauto.
    + rewrite H. reflexivity.
  - destruct (v_remove_ok g m s i W) as (m' & t & E & B'); [rewrite C; lia|]. rewrite C in E, B'. rewrite E. cbn [rbind].
    destruct (in_range i 0 (zlen l)); (eexists; split; [reflexivity|]; eapply became_trans; eauto).
  - unfold v_at, in_range, zlen. rewrite HL.
    destruct (Z.ltb_spec i 0), (Z.leb_spec (Z.of_nat (sl_len s)) i), (Z.leb_spec 0 i), (Z.ltb_spec i (Z.of_nat (sl_len s))); try lia;
      cbn [orb andb rbind]; try (exists (m, s); split; [reflexivity|exact B]).
    destruct (sl_get_ok m s i W) as (x & Ex & ->); [lia|]. rewrite C in Ex. rewrite Ex. cbn. eauto.
  - unfold v_iterate. change 0%Z with (Z.of_nat 0). rewrite (iterate_loop_ok f m s W) by lia. rewrite drop_0, C. cbn. eauto.
  - exists (m, s). split; [|exact B]. unfold v_len, zlen. rewrite HL. reflexivity.
Qed.
Lemma v_history m0 s0 m s l hist : vrel m0 s0 (m, s) l ->
  (forall pre o post l', hist.*2 = pre ++ o :: post -> (run vlist_step l pre).2 = Ret l' -> lop_ints o /\ (zlen l' + 1 < 2^63)%Z) ->
  (run (v_step zero) (m, s) hist).1 = (run vlist_step l hist.*2).1 /\
  match (run vlist_step l hist.*2).2 with
  | Ret l' => exists st', (run (v_step zero) (m, s) hist).2 = Ret st' /\ vrel m0 s0 st' l'
  | Panic => (run (v_step zero) (m, s) hist).2 = Panic
  | Spin => (run (v_step zero) (m, s) hist).2 = Spin
  end.
Proof.
  intros H HG. apply (run_sim_good (v_step zero) vlist_step (vrel m0 s0) (fun l o => lop_ints o /\ (zlen l + 1 < 2^63)%Z)).
  - intros. apply v_step_ok; assumption.
  - exact H.
  - exact HG.
Qed.
End Proofs.
