(** Refinement of whole histories of dsx/slicex/slicex.go *)
From Verif Require Import Base SeqSpec GoSlice SliceSpec SliceModel SliceProofs SliceProofs2.

Section History.
Context {A : Type} (zero : A) (maxlen : Z).
Notation mem := (list (list A)).
Implicit Types (m : mem) (s t v : slice) (l xs vs : list A).

Lemma x_repeat_exact g m s cnt : wf m s ->
  ((i64 (len s * cnt) <? 0) || (maxlen <? i64 (len s * cnt)))%Z = false ->
  exists m' t, x_repeat zero maxlen g m s cnt = Ret (m', t) /\
    became m s m' t (concat (replicate (Z.to_nat cnt) (contents m s))).
Proof.
  intros W Hc. unfold x_repeat. rewrite Hc.
  set (c := Z.to_nat (i64 (len s * cnt))). set (r := Sl (length m) 0 0 c). set (m1 := m ++ [replicate c zero]).
  assert (G : grown m m1) by (split; [unfold m1; rewrite app_length; lia|intros; apply arr_app_old; assumption]).
  destruct (grown_wf m m1 s G W) as [W1 C1].
  assert (Wr : wf m1 r).
  { split; cbn; [lia|]. unfold window. cbn. unfold m1. rewrite arr_app_new, drop_0, take_ge by (rewrite replicate_length; lia).
    apply replicate_length. }
  destruct (repeat_loop_ok zero g (Z.to_nat cnt) m1 s r (contents m s) W1 Wr C1) as (m' & t & E & W' & C' & L').
  { destruct (decide (sl_cap s = 0)); [auto|]. right; right. pose proof (wf_arr m s W ltac:(lia)). cbn. lia. }
  exists m', t. split; [rewrite <- E; reflexivity|]. split; [exact W'|]. split; [exact C'|].
  destruct L' as (La & Lb & Lc), G as [Ga Gb]. split; [lia|]. split.
  - intros b Hb _. rewrite Lb; [apply Gb; exact Hb|lia|left; cbn; lia].
  - destruct Lc as [H3|[H3|[H3 _]]]; [auto|right; left; lia|right; left; cbn in H3; lia].
Qed.
Lemma rotated_list n l : rotated n l (rotate_list n l).
Proof.
  unfold rotate_list. destruct l as [|x l].
  - split; [destruct (Z.to_nat _); reflexivity|cbn; lia].
  - assert (0 < zlen (x :: l))%Z by (unfold zlen; cbn; lia).
    pose proof (Z.mod_pos_bound n (zlen (x :: l))). apply rotated_drop_take; [unfold zlen in *; lia|cbn; lia|].
    rewrite Z2Nat.id by lia. rewrite Zminus_mod_idemp_l, Z.sub_diag. reflexivity.
Qed.
Lemma keep_pure (p : A -> bool) l : (keep (fun (b : unit) x => (b, p x)) tt l).2 = filter (fun x => p x = true) l.
Proof.
  induction l as [|x l IH]; [reflexivity|]. cbn [keep]. rewrite filter_cons.
  destruct (keep (fun (b : unit) x => (b, p x)) tt l) as [b r]. cbn [snd] in *. destruct (p x) eqn:E.
  - rewrite decide_True by reflexivity. congruence.
  - rewrite decide_False by discriminate. exact IH.
Qed.

Lemma step_ok m s l c o : wf m s -> contents m s = l -> (zlen l < 2^63)%Z -> (0 <= maxlen)%Z -> xop_ints o ->
  match slice_spec zero maxlen l o with
  | Ret (l', r) => exists m' t, x_step zero maxlen (m, s) (c, o) = Ret ((m', t), r) /\ became m s m' t l'
  | Panic => x_step zero maxlen (m, s) (c, o) = Panic
  | Spin => False
  end.
Proof.
  intros W El Hl Hx Hi. pose proof (zlen_contents m s W) as Z0. rewrite El in Z0.
  destruct o; cbn [slice_spec x_step xop_ints] in *; cbn [fst snd]; subst l.
  - destruct (Z.ltb_spec maxlen n) as [Hn|Hn].
    + rewrite x_extend_panics by assumption. reflexivity.
    + destruct (x_extend_ok zero maxlen (c 0) m s n W Hn Hx) as (m' & t & -> & B). eauto.
  - destruct (x_clear_ok m s W) as (t & -> & B). eauto.
  - destruct (x_set_ok m s i x W) as (m' & -> & B). eauto.
  - rewrite x_get_ok by exact W. exists m, s. split; [reflexivity|apply became_refl, W].
  - destruct (x_slice_ok m s i j W) as (t & -> & B). eauto.
  - destruct (x_splice_args_ok zero (c 0, c 1) m s i j vs W) as (m' & t & -> & B). eauto.
  - unfold x_expand. destruct (x_splice_args_ok zero (c 0, c 1) m s i i vs W) as (m' & t & -> & B). eauto.
  - unfold x_insert, x_expand. destruct (x_splice_args_ok zero (c 0, c 1) m s i i [x] W) as (m' & t & -> & B). eauto.
  - unfold x_cut. destruct (x_splice_args_ok zero (c 0, c 1) m s i j [] W) as (m' & t & -> & B). eauto.
  - destruct (Z.eqb_spec i max_i64) as [->|Hne].
    + destruct (x_delete_max zero (c 0, c 1) m s W) as (m' & t & -> & B); [lia|]. eauto.
    + destruct (x_delete_ok zero (c 0, c 1) m s i W Hi Hne) as (m' & t & -> & B). eauto.
  - destruct (x_push_ok zero (c 0, c 1) m s x W) as (m' & t & -> & B). eauto.
  - destruct (x_pop_ok zero (c 0, c 1) m s W) as (m' & t & -> & B); [lia|]. eauto.
  - destruct (x_unshift_ok zero (c 0, c 1) m s x W) as (m' & t & -> & B). eauto.
  - destruct (x_shift_ok zero (c 0, c 1) m s W) as (m' & t & -> & B). eauto.
  - rewrite Z0. destruct (Z.ltb_spec i (len s)); [destruct (Z.ltb_spec 0 (len s))|]; cbn [andb].
    + destruct (x_delete_replace_ok zero m s i W) as (m' & t & -> & B); [assumption|assumption|]. eauto.
    + rewrite x_delete_replace_panics; [reflexivity|exact W|pose proof (len_nonneg s); lia].
    + rewrite x_delete_replace_panics; [reflexivity|exact W|lia].
  - destruct (x_reverse_ok m s W) as (m' & -> & B). eauto.
  - rewrite Z0. pose proof (len_nonneg s). destruct (Z.eqb_spec n min_i64) as [->|Hne]; [destruct (Z.eqb_spec (len s) 0) as [E0|E0]|]; cbn [andb negb].
    + assert (E : x_rotate zero (c 0) m s min_i64 = Ret (m, s)) by (unfold x_rotate; rewrite E0; reflexivity).
      rewrite E. exists m, s. split; [reflexivity|]. rewrite (len_lt_empty m s W E0).
      replace (rotate_list min_i64 []) with (@nil A) by (unfold rotate_list; destruct (Z.to_nat _); reflexivity).
      rewrite <- (len_lt_empty m s W E0). apply became_refl, W.
    + destruct (Z.eqb_spec (2 ^ 63 mod len s) 0) as [Ed|Ed].
      * destruct (x_rotate_min_div zero (c 0) m s W) as (m' & t & -> & B); [lia|exact Ed|]. eauto.
      * rewrite x_rotate_min; [reflexivity|exact W|lia|exact Ed].
    + destruct (x_rotate_ok zero (c 0) m s n W Hi Hne) as (m' & t & l' & -> & B & R). exists m', t. split; [reflexivity|].
      rewrite (rotated_unique n _ _ _ (rotated_list n (contents m s)) R). exact B.
  - destruct (x_shuffle_ok js m s W) as (m' & -> & B). eauto.
  - destruct (x_filter_ok (fun (b : unit) x => (b, p x)) m s tt W) as (m' & t & -> & B). exists m', t. split; [reflexivity|].
    rewrite keep_pure in B. exact B.
  - rewrite Z0. destruct ((i64 (len s * n) <? 0) || (maxlen <? i64 (len s * n)))%Z eqn:E.
    + unfold x_repeat. rewrite E. reflexivity.
    + destruct (x_repeat_exact c m s n W E) as (m' & t & -> & B). eauto.
  - exists m, s. split; [rewrite Z0; reflexivity|apply became_refl, W].
Qed.

Lemma slice_history m s : wf m s -> (0 <= maxlen)%Z -> forall hist,
  Forall (fun o => xop_ints o) hist.*2 ->
  (forall pre post l', hist.*2 = pre ++ post -> (run (slice_spec zero maxlen) (contents m s) pre).2 = Ret l' -> (zlen l' < 2^63)%Z) ->
  (run (x_step zero maxlen) (m, s) hist).1 = (run (slice_spec zero maxlen) (contents m s) hist.*2).1 /\
  match (run (slice_spec zero maxlen) (contents m s) hist.*2).2 with
  | Ret l' => exists m' t, (run (x_step zero maxlen) (m, s) hist).2 = Ret (m', t) /\ became m s m' t l'
  | Panic => (run (x_step zero maxlen) (m, s) hist).2 = Panic
  | Spin => False
  end.
Proof.
  intros W Hx hist HI HL.
  pose proof (run_sim_good (x_step zero maxlen) (slice_spec zero maxlen)
    (fun ms l => became m s ms.1 ms.2 l) (fun l o => (zlen l < 2^63)%Z /\ xop_ints o)) as G.
  destruct (G) with (hist := hist) (s := (m, s)) (a := contents m s) as [E1 E2].
  - intros [m1 s1] l c o (W1 & C1 & L1) [Hl Hi]. cbn [fst snd] in *.
    pose proof (step_ok m1 s1 l c o W1 C1 Hl Hx Hi) as S1. destruct (slice_spec zero maxlen l o) as [[l' r]| |]; [|exact S1|contradiction].
    destruct S1 as (m' & t & E & W2 & C2 & L2). exists (m', t). split; [exact E|]. split; [exact W2|]. split; [exact C2|]. eapply local_trans; eauto.
  - apply became_refl, W.
  - intros pre o post a' E H. split; [apply (HL pre (o :: post) a' E H)|].
    rewrite E, Forall_app, Forall_cons in HI. apply HI.
  - split; [exact E1|]. clear HL.
    destruct (run (slice_spec zero maxlen) (contents m s) hist.*2) as [rs [l'| |]] eqn:ER; cbn [snd] in *.
    + destruct E2 as ([m' t] & -> & B). exists m', t. split; [reflexivity|exact B].
    + exact E2.
    + (* the specification never loops *)
      clear - ER. revert ER. generalize (contents m s) as l. revert rs. induction (hist.*2) as [|o os IH]; intros rs l ER; [discriminate|].
      cbn [run] in ER. destruct (slice_spec zero maxlen l o) as [[l1 r]| |] eqn:Es; [| discriminate |].
      * destruct (run (slice_spec zero maxlen) l1 os) as [rs' e] eqn:Er. injection ER as <- ->. eapply IH; eauto.
      * destruct o; unfold slice_spec in Es; repeat case_match; discriminate.
Qed.

(** two variables that share no cell *)
Definition apart s t : Prop := sl_cap s = 0 \/ sl_cap t = 0 \/ sl_arr s <> sl_arr t.
Lemma apart_sym s t : apart s t -> apart t s.
Proof. unfold apart. intuition. Qed.
Lemma apart_step m s m' s' t : wf m t -> apart s t -> local m s m' s' -> apart s' t.
Proof.
  intros W Ha (_ & _ & H). unfold apart in *. destruct (wf_old m t W) as [|Hb]; [auto|].
  destruct H as [H|[H|[H H']]]; [auto|right; right; lia|]. rewrite H. intuition.
Qed.

Lemma two_history m s t : wf m s -> wf m t -> apart s t -> (0 <= maxlen)%Z -> forall hist,
  Forall (fun o => xop_ints o.2) hist.*2 ->
  (forall pre post p, hist.*2 = pre ++ post -> (run (two_spec zero maxlen) (contents m s, contents m t) pre).2 = Ret p ->
     (zlen p.1 < 2^63 /\ zlen p.2 < 2^63)%Z) ->
  (run (x_step2 zero maxlen) (m, s, t) hist).1 = (run (two_spec zero maxlen) (contents m s, contents m t) hist.*2).1 /\
  match (run (two_spec zero maxlen) (contents m s, contents m t) hist.*2).2 with
  | Ret p => exists m' s' t', (run (x_step2 zero maxlen) (m, s, t) hist).2 = Ret (m', s', t') /\
               contents m' s' = p.1 /\ contents m' t' = p.2
  | Panic => (run (x_step2 zero maxlen) (m, s, t) hist).2 = Panic
  | Spin => (run (x_step2 zero maxlen) (m, s, t) hist).2 = Spin
  end.
Proof.
  intros Ws Wt Hap Hx hist HI HL.
  pose proof (run_sim_good (x_step2 zero maxlen) (two_spec zero maxlen)
    (fun st p => let '(m', s', t') := st in wf m' s' /\ wf m' t' /\ apart s' t' /\ contents m' s' = p.1 /\ contents m' t' = p.2)
    (fun p o => ((zlen p.1 < 2^63)%Z /\ (zlen p.2 < 2^63)%Z) /\ xop_ints o.2)) as G.
  destruct (G) with (hist := hist) (s := (m, s, t)) (a := (contents m s, contents m t)) as [E1 E2].
  - intros [[m1 s1] t1] [l1 l2] c [b o] (W1 & W2 & Ha & C1 & C2) [[Hl1 Hl2] Hi]. cbn [fst snd] in *.
    unfold two_spec, x_step2. cbn [fst snd]. destruct b.
    + pose proof (step_ok m1 s1 l1 c o W1 C1 Hl1 Hx Hi) as S1. destruct (slice_spec zero maxlen l1 o) as [[l' r]| |]; [|rewrite S1; reflexivity|contradiction].
      destruct S1 as (m' & s' & E & W' & C' & L'). rewrite E. cbn [rbind fst snd].
      destruct (local_other m1 s1 m' s' t1 L' W2) as [W2' C2']; [unfold apart in Ha; intuition|].
      exists (m', s', t1). split; [reflexivity|]. split; [exact W'|]. split; [exact W2'|].
      split; [exact (apart_step m1 s1 m' s' t1 W2 Ha L')|]. split; [exact C'|congruence].
    + pose proof (step_ok m1 t1 l2 c o W2 C2 Hl2 Hx Hi) as S1. destruct (slice_spec zero maxlen l2 o) as [[l' r]| |]; [|rewrite S1; reflexivity|contradiction].
      destruct S1 as (m' & t' & E & W' & C' & L'). rewrite E. cbn [rbind fst snd].
      destruct (local_other m1 t1 m' t' s1 L' W1) as [W1' C1']; [unfold apart in Ha; intuition|].
      exists (m', s1, t'). split; [reflexivity|]. split; [exact W1'|]. split; [exact W'|].
      split; [apply apart_sym; exact (apart_step m1 t1 m' t' s1 W1 (apart_sym _ _ Ha) L')|]. split; [congruence|exact C'].
  - auto.
  - intros pre o post a' E H. split; [apply (HL pre (o :: post) a' E H)|].
    rewrite E, Forall_app, Forall_cons in HI. apply HI.
  - split; [exact E1|]. revert E2. destruct (run (two_spec zero maxlen) (contents m s, contents m t) hist.*2) as [rs [p| |]]; cbn [snd]; intros E2; [|exact E2|exact E2].
    destruct E2 as ([[m' s'] t'] & E & _ & _ & _ & H1 & H2). exists m', s', t'. auto.
Qed.
Lemma copy_apart g m s : wf m s -> let '(m', c) := x_copy zero g m s in wf m' s /\ wf m' c /\ apart s c /\ contents m' s = contents m s /\ contents m' c = contents m s.
Proof.
  intros W. pose proof (x_copy_ok zero g m s W) as H. destruct (x_copy zero g m s) as [m' c]. destruct H as (Wc & Cc & G & Hc).
  destruct (grown_wf m m' s G W) as [Ws Cs]. repeat split; try (apply Ws); try (apply Wc); try assumption.
  destruct Hc as [Hc|Hc]; [right; left; exact Hc|]. destruct (wf_old m s W) as [|Ho]; [left; assumption|right; right; lia].
Qed.
End History.
