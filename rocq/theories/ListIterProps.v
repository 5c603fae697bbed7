(** The two implementations of dsx.List, and Iterate of dsx/slicex/listx with callbacks that
    use the list (C119). *)
From Verif Require Import Base SeqSpec GoSlice SliceStackSpec SliceStackModel SliceStackProofs SliceStackProps SliceProofs SliceReProofs
  LinkedHeap LinkedListModel LinkedListSpec LinkedListProofs LinkedListProps LinkedIterModel LinkedIterProps.

Section model.
Context {A : Type} (zero : A).
Notation mem := (list (list A)).
(** a callback (as in LinkedIterModel; here the number is the growth that the runtime chooses) *)
Fixpoint v_run_prog {R} (p : lprog A R) (m : mem) (s : slice) : res (mem * slice * R) :=
  match p with
  | LPRet r => Ret (m, s, r)
  | LPCall o k => let! (st, r) := v_step zero (m, s) o in v_run_prog (k r) st.1 st.2
  end.
(** slicex/listx/listx.go 38-44: range has copied the header, as h *)
Fixpoint v_iter_prog {B} (f : B -> A -> lprog A (B * bool)) (k : nat) (m : mem) (s h : slice) (i : Z) (b : B) : res (mem * slice * B) :=
  match k with
  | O => Ret (m, s, b)
  | S k => let! v := sl_get m h i in let! (m, s, (b, go)) := v_run_prog (f b v) m s in
           if go : bool then v_iter_prog f k m s h (i + 1) b else Ret (m, s, b)
  end.
Definition v_iterate_prog {B} (f : B -> A -> lprog A (B * bool)) m s b := v_iter_prog f (sl_len s) m s s 0 b.

(** on lists: the callback is called on the elements xs, and calls the methods on l *)
Fixpoint run_seq {R} (p : lprog A R) (l : list A) : list A * R :=
  match p with
  | LPRet r => (l, r)
  | LPCall o k => let '(l, r) := seq_step l o.2 in run_seq (k r) l
  end.
Fixpoint iter_snap {B} (f : B -> A -> lprog A (B * bool)) (xs l : list A) (b : B) : list A * B :=
  match xs with
  | [] => (l, b)
  | x :: xs => let '(l, (b, go)) := run_seq (f b x) l in if go : bool then iter_snap f xs l b else (l, b)
  end.
(** the callback calls Append, At, Len and Iterate (with a function) only *)
Fixpoint only_appends {R} (p : lprog A R) : Prop :=
  match p with
  | LPRet _ => True
  | LPCall o k => match o.2 with Insert _ _ | Remove _ => False | _ => True end /\ forall r, only_appends (k r)
  end.
End model.

Section props.
Context {A : Type} (zero : A).
Notation mem := (list (list A)).
Implicit Types (m : mem) (s h : slice).

Lemma v_append_step m s h g o : wf m s -> wf m h -> tied h s -> match o with Insert _ _ | Remove _ => False | _ => True end ->
  exists m' t, v_step zero (m, s) (g, o) = Ret ((m', t), (seq_step (contents m s) o).2) /\
    wf m' t /\ contents m' t = (seq_step (contents m s) o).1 /\ wf m' h /\ contents m' h = contents m h /\ tied h t.
Proof.
  intros Ws Wh Ht Ho. destruct o as [x|i x|i|i|f|]; try contradiction; cbn [v_step seq_step fst snd].
  - unfold v_append. pose proof (append_tied zero g m s h [x] Ws Wh Ht) as H. destruct (append zero g m s [x]) as [m' t]. exists m', t. tauto.
  - pose proof (contents_length m s Ws) as HL. unfold v_at, in_range, zlen. rewrite HL.
    destruct (Z.ltb_spec i 0), (Z.leb_spec (Z.of_nat (sl_len s)) i), (Z.leb_spec 0 i), (Z.ltb_spec i (Z.of_nat (sl_len s))); try lia;
      cbn [orb andb rbind]; try (exists m, s; tauto).
    destruct (sl_get_ok m s i Ws) as (x & Ex & ->); [lia|]. rewrite Ex. cbn [rbind]. exists m, s. tauto.
  - unfold v_iterate. change 0%Z with (Z.of_nat 0). rewrite (iterate_loop_ok f m s Ws) by lia. rewrite drop_0. cbn [rbind]. exists m, s. tauto.
  - exists m, s. unfold v_len, zlen. rewrite (contents_length m s Ws). tauto.
Qed.
Lemma v_append_prog {R} (p : lprog A R) : forall m s h, only_appends p -> wf m s -> wf m h -> tied h s ->
  exists m' t, v_run_prog zero p m s = Ret (m', t, (run_seq p (contents m s)).2) /\
    wf m' t /\ contents m' t = (run_seq p (contents m s)).1 /\ wf m' h /\ contents m' h = contents m h /\ tied h t.
Proof.
  induction p as [r|[g o] k IH]; intros m s h Hc Ws Wh Ht; cbn [run_seq v_run_prog]; [exists m, s; cbn; tauto|].
  destruct Hc as [Ho Hk]. cbn [snd] in *. destruct (v_append_step m s h g o Ws Wh Ht Ho) as (m1 & t1 & -> & W1 & C1 & W2 & C2 & T1). cbn [rbind fst snd].
  destruct (seq_step (contents m s) o) as [l1 r1]. cbn [fst snd] in *. subst l1.
  destruct (IH r1 m1 t1 h (Hk r1) W1 W2 T1) as (m2 & t2 & E & IH'). exists m2, t2. rewrite <- C2. tauto.
Qed.
Lemma v_append_iter {B} (f : B -> A -> lprog A (B * bool)) : (forall b x, only_appends (f b x)) ->
  forall xs m s h i b, wf m s -> wf m h -> tied h s -> drop i (contents m h) = xs ->
  exists m' t, v_iter_prog zero f (length xs) m s h (Z.of_nat i) b = Ret (m', t, (iter_snap f xs (contents m s) b).2) /\
    wf m' t /\ contents m' t = (iter_snap f xs (contents m s) b).1.
Proof.
  intros Hf. induction xs as [|x xs IH]; intros m s h i b Ws Wh Ht E; cbn [length v_iter_prog iter_snap]; [exists m, s; cbn; auto|].
  assert (Hx : contents m h !! i = Some x) by (rewrite <- (Nat.add_0_r i), <- lookup_drop, E; reflexivity).
  pose proof (lookup_lt_Some _ _ _ Hx) as Hlt. rewrite (contents_length m h Wh) in Hlt.
  destruct (sl_get_ok m h (Z.of_nat i) Wh) as (y & Ey & ->); [lia|]. rewrite Nat2Z.id in Ey. rewrite Hx in Ey. injection Ey as <-. cbn [rbind].
  destruct (v_append_prog (f b x) m s h (Hf b x) Ws Wh Ht) as (m1 & t1 & -> & W1 & C1 & W2 & C2 & T1). cbn [rbind].
  destruct (run_seq (f b x) (contents m s)) as [l1 [b1 [|]]]; cbn [fst snd] in *; [|exists m1, t1; auto].
  subst l1. replace (Z.of_nat i + 1)%Z with (Z.of_nat (S i)) by lia. apply IH; auto.
  rewrite C2. replace (S i) with (i + 1) by lia. rewrite <- drop_drop, E. reflexivity.
Qed.

(** C119: callbacks that append: they are shown the elements the list had at the start, and
    their calls act on the list as it is *)
Theorem slice_list_iterate_snapshot_partial {B} (f : B -> A -> lprog A (B * bool)) m s b :
  wf m s -> (forall b x, only_appends (f b x)) ->
  exists m' s' l' b', iter_snap f (contents m s) (contents m s) b = (l', b') /\
    v_iterate_prog zero f m s b = Ret (m', s', b') /\ wf m' s' /\ contents m' s' = l'.
Proof.
  intros W Hf. unfold v_iterate_prog. rewrite <- (contents_length m s W).
  destruct (v_append_iter f Hf (contents m s) m s s 0 b W W (tied_refl s) (drop_0 _)) as (m' & t & E & W' & C). change (Z.of_nat 0) with 0%Z in E.
  destruct (iter_snap f (contents m s) (contents m s) b) as [l' b'] eqn:Es. exists m', t, l', b'. auto.
Qed.

(** C119: on histories that stay away from the last position, with plain callbacks, the two
    lists give the same answers, whatever the pool of the one and the growth of the other *)
Theorem lists_interchangeable_partial (hist1 hist2 : list (nat * lop A)) m s :
  hist1.*2 = hist2.*2 -> wf m s -> contents m s = [] ->
  (forall pre o post, hist1.*2 = pre ++ o :: post ->
     safe_list_op (ideal_state seq_step [] pre) o /\ lop_ints o /\ (zlen (ideal_state seq_step [] pre) + 1 < 2^63)%Z) ->
  (run (l_step zero) l_new hist1).1 = (run (v_step zero) (m, s) hist2).1 /\
  exists l m' s', (run (l_step zero) l_new hist1).2 = Ret l /\ (run (v_step zero) (m, s) hist2).2 = Ret (m', s').
Proof.
  intros HE W HN HG.
  destruct (linked_list_away_from_last A zero hist1) as (l & E1); [intros; eapply HG; eauto|].
  destruct (run_refines_oracle (v_step zero) seq_step (fun st xs => vrel m s st xs) (fun xs o => safe_list_op xs o /\ lop_ints o /\ (zlen xs + 1 < 2^63)%Z)) with (hist := hist2) (s := (m, s)) (a := @nil A) as (st & E2 & _).
  - intros st xs c o HR (Hs & Hi & Hz). pose proof (v_step_ok zero m s st xs c o HR (conj Hi Hz)) as H.
    assert (EV : vlist_step xs o = Ret (seq_step xs o)).
    { destruct o; try reflexivity. cbn in Hs |- *. unfold in_range. rewrite (proj2 (Z.leb_le 0 i)), (proj2 (Z.ltb_lt i (zlen xs + 1))) by lia. reflexivity. }
    rewrite EV in H. destruct (seq_step xs o) as [xs' r]. exact H.
  - unfold vrel. cbn. rewrite <- HN. apply became_refl, W.
  - rewrite <- HE. exact HG.
  - rewrite E1, E2, HE. cbn. split; [reflexivity|]. destruct st as [m' s']. exists l, m', s'. auto.
Qed.
End props.
Print Assumptions slice_list_iterate_snapshot_partial.
Print Assumptions lists_interchangeable_partial.

(** Natural, and false: the two implementations of dsx.List can be exchanged.  After the removal
    of the last element the linked one loses what is appended; and a callback that appends is
    called once for each element by the one, and for ever by the other. *)
Theorem lists_interchangeable_refuted :
  let os := [Append 1; Remove 0; Append 2; At 0] in
  (forall c, (run (l_step 0) l_new ((c,.) <$> os)).1 <> (run (v_step 0) ([], Sl 0 0 0 0) ((0,.) <$> os)).1) /\
  let f := fun n x => LPCall (0, Append x) (fun _ => LPRet (S n, true)) in
  (exists l, (run (l_step 0) l_new [(0, Append 1)]).2 = Ret l /\ forall fuel, l_iterate_prog 0 fuel f l 0 = Spin) /\
  exists m s m' s', (run (v_step 0) ([], Sl 0 0 0 0) [(0, Append 1)]).2 = Ret (m, s) /\ v_iterate_prog 0 f m s 0 = Ret (m', s', 1) /\ contents m' s' = [1; 1].
Proof.
  cbn [fmap list_fmap]. split; [intros [|c] E; vm_compute in E; discriminate E|]. split.
  - eexists. split; [reflexivity|]. apply (linked_list_iterate_append_endless 0 (fun _ _ => 0) (fun _ x => x) (fun n _ => S n) [(0, Append 1)]); [|discriminate|reflexivity].
    apply good_history_forall. vm_compute. repeat split.
  - eexists _, _, _, _. split; [reflexivity|]. split; reflexivity.
Qed.
Print Assumptions lists_interchangeable_refuted.
(** the hypotheses of lists_interchangeable_partial are met *)
Example lists_interchangeable_case :
  let hist := [(0, Append 1); (0, Append 2); (0, Insert 1 7); (0, Remove 0); (0, At 1); (0, Iterate (fun x => x <? 8)); (0, LLen)] in
  wf (@nil (list nat)) (Sl 0 0 0 0) /\
  (forall pre o post, hist.*2 = pre ++ o :: post ->
     safe_list_op (ideal_state (@seq_step nat) [] pre) o /\ lop_ints o /\ (zlen (ideal_state (@seq_step nat) [] pre) + 1 < 2^63)%Z) /\
  (run (v_step 0) ([], Sl 0 0 0 0) hist).1 = [RUnit; RUnit; RUnit; RVal (Some 1); RVal (Some 2); RSeen [7; 2]; RInt 2].
Proof.
  split; [split; cbn; lia|]. split; [|reflexivity].
  apply (good_history_forall _ (fun xs o => safe_list_op xs o /\ lop_ints o /\ (zlen xs + 1 < 2^63)%Z)). vm_compute. repeat split; discriminate.
Qed.
