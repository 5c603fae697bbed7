(** C115: callbacks of dsx/slicex that use the slice they are called from *)
From Verif Require Import Base SeqSpec GoSlice SliceSpec SliceModel SliceReModel SliceReProofs.

(** Full statement: whatever methods the callback calls, ForEach, Each, IndexOf, Contains and
    Filter call it on the elements the slice had at the start, in order, and every call the
    callback makes answers and acts as on the list.  Proved for callbacks that look (Get, Len) and
    add at the end (Push, Extend), whatever the runtime's growth; refuted below for the others. *)
Theorem slice_callbacks_partial : forall {A} (zero : A) (maxlen : Z) {B} (f : B -> Z -> A -> sprog A B) m s b,
    wf m s -> (0 <= maxlen)%Z -> (forall b i x, calls_only grow_op (f b i x)) ->
    match each_spec zero maxlen f (contents m s) (contents m s) 0 b with
    | Ret (l', b') => exists m' t, x_for_each_prog zero maxlen f m s b = Ret (m', t, b') /\ wf m' t /\ contents m' t = l'
    | Panic => x_for_each_prog zero maxlen f m s b = Panic
    | Spin => False
    end.
Proof.
  intros A zero maxlen B f m s b W Hx Hf.
  pose proof (each_grow zero maxlen f Hx Hf (contents m s) m s s 0 b W W (tied_refl s) (drop_0 _)) as H.
  unfold x_for_each_prog. rewrite <- (contents_length m s W). change (Z.of_nat 0) with 0%Z in H.
  destruct (each_spec zero maxlen f (contents m s) (contents m s) 0 b) as [[l' b']| |]; [|exact H|exact H].
  destruct H as (m' & t & E & Wt & C & _). eauto.
Qed.
Print Assumptions slice_callbacks_partial.

Theorem slice_index_callbacks_partial : forall {A} (zero : A) (maxlen : Z) {B} (f : B -> A -> sprog A (B * bool)) m s b,
    wf m s -> (0 <= maxlen)%Z -> (forall b x, calls_only grow_op (f b x)) ->
    match index_spec zero maxlen f (contents m s) (contents m s) 0 b with
    | Ret (l', b', j) => exists m' t, x_index_of_prog zero maxlen f m s b = Ret (m', t, b', j) /\
        x_contains_prog zero maxlen f m s b = Ret (m', t, b', (0 <=? j)%Z) /\ wf m' t /\ contents m' t = l'
    | Panic => x_index_of_prog zero maxlen f m s b = Panic /\ x_contains_prog zero maxlen f m s b = Panic
    | Spin => False
    end.
Proof.
  intros A zero maxlen B f m s b W Hx Hf.
  pose proof (index_grow zero maxlen f Hx Hf (contents m s) m s s 0 b W W (tied_refl s) (drop_0 _)) as H.
  unfold x_contains_prog, x_index_of_prog. rewrite <- (contents_length m s W). change (Z.of_nat 0) with 0%Z in H.
  destruct (index_spec zero maxlen f (contents m s) (contents m s) 0 b) as [[[l' b'] j]| |]; [|rewrite H; auto|exact H].
  destruct H as (m' & t & E & Wt & C). exists m', t. rewrite E. auto.
Qed.
Print Assumptions slice_index_callbacks_partial.

(** Filter keeps the original elements the callback says to keep; what the callback adds is
    visible to its later calls and lost at the end *)
Theorem slice_filter_callbacks_partial : forall {A} (zero : A) (maxlen : Z) {B} (f : B -> A -> sprog A (B * bool)) m s b,
    wf m s -> (0 <= maxlen)%Z -> (forall b x, calls_only grow_op (f b x)) ->
    match filter_spec zero maxlen f (contents m s) (contents m s) [] b with
    | Ret (l', b') => exists m' t, x_filter_prog zero maxlen f m s b = Ret (m', t, b') /\ wf m' t /\ contents m' t = l' /\
        l' `sublist_of` contents m s
    | Panic => x_filter_prog zero maxlen f m s b = Panic
    | Spin => False
    end.
Proof.
  intros A zero maxlen B f m s b W Hx Hf.
  pose proof (filter_grow zero maxlen f Hx Hf (contents m s) m s s 0 [] b W W (tied_refl s) (drop_0 _)
    (contents_length m s W) (Nat.le_refl 0) eq_refl) as H.
  unfold x_filter_prog. rewrite <- (contents_length m s W). cbn [length] in H. change (Z.of_nat 0) with 0%Z in H.
  assert (HS : forall xs l kept b l' b', filter_spec zero maxlen f xs l kept b = Ret (l', b') -> exists r, l' = kept ++ r /\ r `sublist_of` xs).
  { clear. intros xs. induction xs as [|x xs IH]; intros l kept b l' b' E; cbn [filter_spec] in E.
    - injection E as <- <-. exists []. rewrite app_nil_r. auto using sublist_nil.
    - destruct (run_spec zero maxlen (f b x) l) as [[l1 [b1 [|]]]| |]; cbn [rbind] in E; [| |discriminate|discriminate].
      + destruct (IH _ _ _ _ _ E) as (r & -> & Hr). exists (x :: r). rewrite <- app_assoc. split; [reflexivity|]. apply sublist_skip, Hr.
      + destruct (IH _ _ _ _ _ E) as (r & -> & Hr). exists r. split; [reflexivity|]. apply sublist_cons, Hr. }
  specialize (HS (contents m s) (contents m s) [] b).
  destruct (filter_spec zero maxlen f (contents m s) (contents m s) [] b) as [[l' b']| |]; [|rewrite H; reflexivity|exact H].
  destruct H as (m' & t & E & Wt & C). rewrite E. cbn [rbind].
  assert (Hl : length l' <= sl_len t) by (rewrite <- (contents_length m' t Wt), <- C, take_length; lia).
  destruct (sl_sub_ok m' t 0 (zlen l') Wt) as (t' & -> & Wt' & _ & _ & _ & _ & _ & C'); [unfold zlen; lia|unfold zlen; lia|].
  cbn [rbind]. exists m', t'. split; [reflexivity|]. split; [exact Wt'|]. destruct (HS l' b' eq_refl) as (r & -> & Hr).
  split; [|exact Hr]. rewrite C'. cbn [Z.to_nat]. rewrite drop_0, Z.sub_0_r. unfold zlen. rewrite Nat2Z.id. exact C.
Qed.
Print Assumptions slice_filter_callbacks_partial.

(** callbacks that change elements in place: position i is shown as it is when its turn comes *)
Theorem slice_callbacks_in_place : forall {A} (zero : A) (maxlen : Z) {B} (f : B -> Z -> A -> sprog A B) m s b,
    wf m s -> (forall b i x, calls_only inplace_op (f b i x)) ->
    exists m' l' b', each_live zero maxlen f (length (contents m s)) 0 (contents m s) b = Ret (l', b') /\
      x_for_each_prog zero maxlen f m s b = Ret (m', s, b') /\ wf m' s /\ contents m' s = l'.
Proof.
  intros A zero maxlen B f m s b W Hf. rewrite (contents_length m s W).
  pose proof (each_inplace zero maxlen f Hf (sl_len s) m s 0 b W eq_refl) as H. unfold x_for_each_prog. change (Z.of_nat 0) with 0%Z in H.
  destruct (each_live zero maxlen f (sl_len s) 0 (contents m s) b) as [[l' b']| |]; [|contradiction|contradiction].
  destruct H as (m' & E & Wm & C). exists m', l', b'. auto.
Qed.
Print Assumptions slice_callbacks_in_place.

(** a callback that deletes: element 2 is never shown and 3 is shown twice, whatever the growth *)
Definition delete_first (c : nat -> nat) (log : list nat) (i : Z) (v : nat) : sprog nat (list nat) :=
  if (i =? 0)%Z then SCall c (XDelete 0) (fun _ => SRet (log ++ [v])) else SRet (log ++ [v]).
Theorem slice_delete_in_callback_refuted : exists (m : list (list nat)) s,
    wf m s /\ contents m s = [1; 2; 3] /\
    forall c maxlen, exists m' t, x_for_each_prog 0 maxlen (delete_first c) m s [] = Ret (m', t, [1; 3; 3]) /\ contents m' t = [2; 3].
Proof.
  exists [[1; 2; 3]], (Sl 0 0 3 3). split; [split; cbn; lia|]. split; [reflexivity|].
  intros c maxlen. do 2 eexists. split; reflexivity.
Qed.
Print Assumptions slice_delete_in_callback_refuted.

(** a callback that adds and then changes an element: what it is shown next depends on the spare
    capacity, so it is no function of the elements *)
Definition push_set (log : list nat) (i : Z) (v : nat) : sprog nat (list nat) :=
  SCall (fun _ => 0) (XPush 9) (fun _ => SCall (fun _ => 0) (XSet 1 7) (fun _ => SRet (log ++ [v]))).
Theorem slice_callback_capacity_refuted : exists (m : list (list nat)) s1 s2,
    wf m s1 /\ wf m s2 /\ contents m s1 = contents m s2 /\
    forall maxlen, exists m1 t1 m2 t2, x_for_each_prog 0 maxlen push_set m s1 [] = Ret (m1, t1, [1; 7]) /\
      x_for_each_prog 0 maxlen push_set m s2 [] = Ret (m2, t2, [1; 2]).
Proof.
  exists [[1; 2; 0; 0]], (Sl 0 0 2 4), (Sl 0 0 2 2). split; [split; cbn; lia|]. split; [split; cbn; lia|]. split; [reflexivity|].
  intros maxlen.
  assert (E1 : match x_for_each_prog 0 maxlen push_set [[1; 2; 0; 0]] (Sl 0 0 2 4) [] with Ret (_, _, r) => r = [1; 7] | _ => False end)
    by (vm_compute; reflexivity).
  assert (E2 : match x_for_each_prog 0 maxlen push_set [[1; 2; 0; 0]] (Sl 0 0 2 2) [] with Ret (_, _, r) => r = [1; 2] | _ => False end)
    by (vm_compute; reflexivity).
  destruct (x_for_each_prog 0 maxlen push_set [[1; 2; 0; 0]] (Sl 0 0 2 4) []) as [[[m1 t1] r1]| |]; [|contradiction|contradiction].
  destruct (x_for_each_prog 0 maxlen push_set [[1; 2; 0; 0]] (Sl 0 0 2 2) []) as [[[m2 t2] r2]| |]; [|contradiction|contradiction].
  subst. eauto 10.
Qed.
Print Assumptions slice_callback_capacity_refuted.

(** a Filter callback that clears the slice and keeps the element panics *)
Theorem slice_filter_clear_refuted : forall (m : list (list nat)) s, wf m s -> sl_len s <> 0 -> forall maxlen,
    x_filter_prog 0 maxlen (fun (b : unit) (_ : nat) => SCall (fun _ => 0) XClear (fun _ => SRet (b, true))) m s tt = Panic.
Proof.
  intros m s W Hn maxlen. unfold x_filter_prog. destruct (sl_len s) as [|k] eqn:E; [contradiction|]. cbn [filter_prog].
  destruct (sl_get_ok m s 0 W) as (x & _ & ->); [rewrite E; lia|]. cbn [rbind].
  destruct (sl_sub s 0 0) as [t| |] eqn:Es; cbn [run_prog x_step fst snd]; unfold x_clear; rewrite Es; cbn [rbind fst snd run_prog].
  - assert (Et : sl_len t = 0).
    { unfold sl_sub in Es. destruct (_ && _ && _)%bool; [|discriminate]. injection Es as <-. reflexivity. }
    unfold sl_set. rewrite Et. reflexivity.
  - reflexivity.
  - unfold sl_sub in Es. destruct (_ && _ && _)%bool; discriminate.
Qed.
Print Assumptions slice_filter_clear_refuted.

(** a case of each *)
Definition push_all (log : list nat) (i : Z) (v : nat) : sprog nat (list nat) :=
  SCall (fun _ => 1) (XPush (v + 10)) (fun _ => SCall (fun _ => 0) (XGet 2) (fun r => SRet (log ++ [v; match r with RVal (Some x) => x | _ => 0 end]))).
Example slice_callbacks_hyp : let m := [[1; 2; 0]] in let s := Sl 0 0 2 3 in
  wf m s /\ (forall b i x, calls_only grow_op (push_all b i x)) /\
  each_spec 0 100 push_all (contents m s) (contents m s) 0 [] = Ret ([1; 2; 11; 12], [1; 11; 2; 11]).
Proof. cbn zeta. split; [split; cbn; lia|]. split; [cbn; auto|reflexivity]. Qed.
Example slice_index_callbacks_hyp : index_spec 0 100 (fun (b : nat) (v : nat) => SCall (fun _ => 0) (XPush v) (fun _ => SRet (S b, v =? 2))) [1; 2; 3] [1; 2; 3] 0 0
  = Ret ([1; 2; 3; 1; 2], 2, 1%Z).
Proof. reflexivity. Qed.
Example slice_filter_callbacks_hyp : filter_spec 0 100 (fun (b : nat) (v : nat) => SCall (fun _ => 0) (XPush v) (fun _ => SRet (S b, Nat.odd v))) [1; 2; 3] [1; 2; 3] [] 0
  = Ret ([1; 3], 3).
Proof. reflexivity. Qed.
Example slice_callbacks_in_place_hyp : each_live 0 100 (fun (b : list nat) (i : Z) (v : nat) => SCall (fun _ => 0) XReverse (fun _ => SRet (b ++ [v]))) 3 0 [1; 2; 3] []
  = Ret ([3; 2; 1], [1; 2; 3]).
Proof. reflexivity. Qed.
