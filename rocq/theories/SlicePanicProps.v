(** slicex.Slice when panics are recovered (C168). *)
From Verif Require Import Base SeqSpec GoSlice SliceSpec SliceModel SliceProofs SliceProofs2 SliceHistory RecModel SlicePanicModel.

(** calling a callback on elements in order, until it panics: the state it leaves, and the
    answers it gave *)
Fixpoint answers {B E C} (f : B -> E -> B * option C) (b : B) (l : list E) : B * list C :=
  match l with
  | [] => (b, [])
  | x :: l' =>
      match f b x with
      | (b1, Some c) => let '(b2, cs) := answers f b1 l' in (b2, c :: cs)
      | (b1, None) => (b1, [])
      end
  end.
(** the elements whose answer was true *)
Fixpoint chosen {A} (l : list A) (cs : list bool) : list A :=
  match l, cs with
  | x :: l', c :: cs' => if c then x :: chosen l' cs' else chosen l' cs'
  | _, _ => []
  end.
(** the position of the first element a callback says true of *)
Fixpoint first_true {A B} (f : B -> A -> B * option bool) (b : B) (i : Z) (l : list A) : B * res (option Z) :=
  match l with
  | [] => (b, Ret None)
  | x :: l' =>
      match f b x with
      | (b1, Some true) => (b1, Ret (Some i))
      | (b1, Some false) => first_true f b1 (i + 1) l'
      | (b1, None) => (b1, Panic)
      end
  end.
(** the elements with their positions *)
Definition numbered {A} (l : list A) : list (Z * A) := imap (fun i x => (Z.of_nat i, x)) l.

(** what a call does to the list of elements.  A panic leaves the list as it was, but
    for Filter: if its callback panics after [k] elements were chosen, these are the first
    [k], and the others are what they were. *)
Definition pspec {A B} (zero : A) (maxlen : Z) (st : list A * B) (o : pcall A B) : (list A * B) * res (ret A) :=
  let '(l, b) := st in
  match o with
  | POp o => let '(l', r) := recovered l (slice_spec zero maxlen l o) in ((l', b), r)
  | PFilter f =>
      let '(b1, cs) := answers f b l in
      let k := chosen l cs in
      if bool_decide (length cs = length l) then ((k, b1), Ret RUnit)
      else ((k ++ drop (length k) l, b1), Panic)
  | PIndexOf f => let '(b1, r) := first_true f b 0 l in
                  ((l, b1), let! i := r in Ret (RInt (default (-1)%Z i)))
  | PContains f => let '(b1, r) := first_true f b 0 l in
                   ((l, b1), let! i := r in Ret (RBool (bool_decide (is_Some i))))
  | PEach f => let '(b1, cs) := answers f b l in
               ((l, b1), if bool_decide (length cs = length l) then Ret RUnit else Panic)
  | PForEach f => let '(b1, cs) := answers (fun b p => f b p.1 p.2) b (numbered l) in
                  ((l, b1), if bool_decide (length cs = length l) then Ret RUnit else Panic)
  end.

Section Proofs.
Context {A B : Type} (zero : A) (maxlen : Z).
Notation mem := (list (list A)).

Lemma answers_le {E C} (f : B -> E -> B * option C) l : forall b, length (answers f b l).2 <= length l.
Proof.
  induction l as [|x l IH]; intros b; cbn; [lia|]. destruct (f b x) as [b1 [c|]]; cbn; [|lia].
  specialize (IH b1). destruct (answers f b1 l). cbn in *. lia.
Qed.
Lemma chosen_le (l : list A) cs : length (chosen l cs) <= length l.
Proof. revert cs. induction l as [|x l IH]; intros [|[] cs]; cbn; try lia; specialize (IH cs); lia. Qed.

Lemma pfilter_loop_ok (f : B -> A -> B * option bool) k : forall (m : mem) s idx kept b l0,
  wf m s -> idx + k = sl_len s -> length kept <= idx -> length l0 = sl_len s ->
  contents m s = kept ++ drop (length kept) l0 ->
  let '(b1, cs) := answers f b (drop idx l0) in
  let ks := kept ++ chosen (drop idx l0) cs in
  exists m', pfilter_loop f k m s (Z.of_nat idx) (Z.of_nat (length kept)) b =
    (m', b1, if bool_decide (length cs = k) then Ret (Z.of_nat (length ks)) else Panic) /\
    wf m' s /\ local m s m' s /\ contents m' s = ks ++ drop (length ks) l0.
Proof.
  induction k as [|k IH]; intros m s idx kept b l0 W Hk Hn Hl Hc; cbn [pfilter_loop].
  - rewrite (drop_ge l0) by lia. cbn. rewrite app_nil_r. exists m. split; [reflexivity|].
    split; [exact W|]. split; [apply local_refl|exact Hc].
  - destruct (sl_get_ok m s (Z.of_nat idx) W) as (x & Ex & Gx); [lia|]. rewrite Gx. rewrite Nat2Z.id in Ex.
    assert (Ex0 : l0 !! idx = Some x).
    { rewrite Hc, lookup_app_r, lookup_drop in Ex by lia. replace (length kept + (idx - length kept)) with idx in Ex by lia. exact Ex. }
    rewrite (drop_cons l0 idx x Ex0). cbn [answers]. destruct (f b x) as [b1 [[|]|]].
    + destruct (set_became m s (Z.of_nat (length kept)) x W) as (m1 & E1 & W1 & C1 & L1); [unfold len; lia|]. rewrite E1.
      rewrite Nat2Z.id in C1. specialize (IH m1 s (S idx) (kept ++ [x]) b1 l0 W1).
      destruct (answers f b1 (drop (S idx) l0)) as [b2 cs] eqn:Ea. cbn [chosen length].
      destruct IH as (m2 & E2 & W2 & L2 & C2); [lia|rewrite app_length; cbn; lia|exact Hl| |].
      { rewrite C1, Hc, app_length. cbn [length]. replace (length kept) with (length kept + 0) at 1 by lia.
        rewrite insert_app_r. rewrite <- app_assoc. f_equal.
        destruct (drop (length kept) l0) as [|y r] eqn:Ed.
        { apply (f_equal length) in Ed. rewrite drop_length in Ed. cbn in Ed. lia. }
        cbn. f_equal. rewrite <- drop_drop, Ed. reflexivity. }
      rewrite app_length in E2. cbn [length] in E2.
      replace (Z.of_nat (S idx)) with (Z.of_nat idx + 1)%Z in E2 by lia.
      replace (Z.of_nat (length kept + 1)) with (Z.of_nat (length kept) + 1)%Z in E2 by lia.
      rewrite <- (app_assoc kept [x]) in E2, C2. cbn [app] in E2, C2. exists m2. rewrite E2. split.
      { f_equal. destruct (decide (length cs = k)); [rewrite !bool_decide_eq_true_2 by congruence|rewrite !bool_decide_eq_false_2 by congruence]; reflexivity. }
      split; [exact W2|]. split; [eapply local_trans; eauto|exact C2].
    + specialize (IH m s (S idx) kept b1 l0 W).
      destruct (answers f b1 (drop (S idx) l0)) as [b2 cs] eqn:Ea. cbn [chosen length].
      destruct IH as (m2 & E2 & W2 & L2 & C2); [lia|lia|exact Hl|exact Hc|].
      replace (Z.of_nat (S idx)) with (Z.of_nat idx + 1)%Z in E2 by lia. exists m2. rewrite E2. split; [|auto].
      f_equal. destruct (decide (length cs = k)); [rewrite !bool_decide_eq_true_2 by congruence|rewrite !bool_decide_eq_false_2 by congruence]; reflexivity.
    + cbn. rewrite app_nil_r. exists m. split; [reflexivity|]. split; [exact W|]. split; [apply local_refl|exact Hc].
Qed.

Lemma pindex_loop_ok (f : B -> A -> B * option bool) (m : mem) s k : forall i b, wf m s -> i + k = sl_len s ->
  pindex_loop f k m s (Z.of_nat i) b = first_true f b (Z.of_nat i) (drop i (contents m s)).
Proof.
  induction k as [|k IH]; intros i b W Hk; cbn [pindex_loop].
  - rewrite drop_ge by (rewrite contents_length by exact W; lia). reflexivity.
  - destruct (sl_get_ok m s (Z.of_nat i) W) as (x & Ex & Gx); [lia|]. rewrite Gx. rewrite Nat2Z.id in Ex.
    rewrite (drop_cons _ i x Ex). cbn [first_true]. destruct (f b x) as [b1 [[|]|]]; try reflexivity.
    replace (Z.of_nat i + 1)%Z with (Z.of_nat (S i)) by lia. apply IH; [exact W|lia].
Qed.
Lemma peach_loop_ok (f : B -> Z -> A -> B * option unit) (m : mem) s k : forall i b, wf m s -> i + k = sl_len s ->
  peach_loop f k m s (Z.of_nat i) b =
    let '(b1, cs) := answers (fun b p => f b p.1 p.2) b (imap (fun j x => (Z.of_nat (i + j), x)) (drop i (contents m s))) in
    (b1, if bool_decide (length cs = k) then Ret tt else Panic).
Proof.
  induction k as [|k IH]; intros i b W Hk; cbn [peach_loop].
  - rewrite drop_ge by (rewrite contents_length by exact W; lia). reflexivity.
  - destruct (sl_get_ok m s (Z.of_nat i) W) as (x & Ex & Gx); [lia|]. rewrite Gx. rewrite Nat2Z.id in Ex.
    rewrite (drop_cons _ i x Ex). cbn [imap answers fst snd]. rewrite Nat.add_0_r. destruct (f b (Z.of_nat i) x) as [b1 [[]|]]; [|reflexivity].
    replace (Z.of_nat i + 1)%Z with (Z.of_nat (S i)) by lia. rewrite IH by (auto; lia).
    rewrite (imap_ext ((λ j x0, (Z.of_nat (i + j), x0)) ∘ S) (fun j y => (Z.of_nat (S i + j), y))) by (intros; cbn; do 2 f_equal; lia).
    destruct (answers _ b1 _) as [b2 cs]. cbn [length].
    destruct (decide (length cs = k)); [rewrite !bool_decide_eq_true_2 by congruence|rewrite !bool_decide_eq_false_2 by congruence]; reflexivity.
Qed.

(** a callback that ignores the position *)
Lemma answers_imap {C} (f : B -> A -> B * option C) l : forall (g : nat -> Z) b,
  answers (fun b (p : Z * A) => f b p.2) b (imap (fun j x => (g j, x)) l) = answers f b l.
Proof.
  induction l as [|x l IH]; intros g b; cbn; [reflexivity|]. destruct (f b x) as [b1 [c|]]; [|reflexivity].
  specialize (IH (fun j => g (S j)) b1).
  rewrite (imap_ext ((λ j x0, (g j, x0)) ∘ S) (fun j y => (g (S j), y))) by reflexivity. rewrite IH. reflexivity.
Qed.

Definition pcall_ints (o : pcall A B) : Prop := match o with POp o => xop_ints o | _ => True end.

Lemma px_step_ok (m0 : mem) s0 m s b l c o :
  became m0 s0 m s l -> (zlen l < 2^63)%Z -> (0 <= maxlen)%Z -> pcall_ints o ->
  exists m' s', px_step zero maxlen (m, s, b) (c, o) =
      ((m', s', (pspec zero maxlen (l, b) o).1.2), (pspec zero maxlen (l, b) o).2) /\
    became m0 s0 m' s' (pspec zero maxlen (l, b) o).1.1.
Proof.
  intros Hb Hl Hx Hi. pose proof Hb as (W & C & L).
  assert (Hlen : length l = sl_len s) by (rewrite <- C; apply contents_length, W).
  destruct o as [o|f|f|f|f|f]; cbn [px_step pspec snd fst pcall_ints] in *.
  - pose proof (step_ok zero maxlen m s l c o W C Hl Hx Hi) as S1.
    destruct (slice_spec zero maxlen l o) as [[l' r]| |]; cbn [recovered]; [|rewrite S1|contradiction].
    + destruct S1 as (m' & t & -> & B1). exists m', t. split; [reflexivity|]. cbn.
      destruct B1 as (W1 & C1 & L1). split; [exact W1|]. split; [exact C1|]. eapply local_trans; eauto.
    + exists m, s. split; [reflexivity|exact Hb].
  - unfold px_filter. pose proof (pfilter_loop_ok f (sl_len s) m s 0 [] b l W) as P. cbn [length app Z.of_nat] in P.
    rewrite drop_0 in P. destruct (answers f b l) as [b1 cs].
    destruct P as (m' & E & W' & L' & C'); [lia|lia|exact Hlen|exact C|]. change (Z.of_nat 0) with 0%Z in E. rewrite E, Hlen.
    pose proof (chosen_le l cs) as Hle. destruct (decide (length cs = sl_len s)) as [Hd|Hd].
    + rewrite bool_decide_eq_true_2 by exact Hd. cbn [rbind].
      destruct (sub_became m' s 0 (Z.of_nat (length (chosen l cs))) W') as (t & Et & (Wt & Ct & Lt) & _); [lia|unfold len; lia|].
      rewrite Et. exists m', t. split; [reflexivity|]. cbn [fst snd]. split; [exact Wt|].
      split; [|eapply local_trans; [exact L|]; eapply local_trans; eauto].
      rewrite Ct, drop_0, Z.sub_0_r, Nat2Z.id, C', take_app. reflexivity.
    + rewrite bool_decide_eq_false_2 by exact Hd. cbn [rbind]. exists m', s. split; [reflexivity|]. cbn [fst snd].
      split; [exact W'|]. split; [exact C'|]. eapply local_trans; eauto.
  - change 0%Z with (Z.of_nat 0). rewrite (pindex_loop_ok f m s (sl_len s) 0 b W) by lia. rewrite drop_0, C.
    destruct (first_true f b (Z.of_nat 0) l) as [b1 r]. exists m, s. split; [|exact Hb]. cbn. destruct r as [[]| |]; reflexivity.
  - change 0%Z with (Z.of_nat 0). rewrite (pindex_loop_ok f m s (sl_len s) 0 b W) by lia. rewrite drop_0, C.
    destruct (first_true f b (Z.of_nat 0) l) as [b1 r]. exists m, s. split; [|exact Hb]. cbn. destruct r as [[]| |]; reflexivity.
  - change 0%Z with (Z.of_nat 0). rewrite (peach_loop_ok _ m s (sl_len s) 0 b W) by lia. rewrite drop_0, C, Hlen.
    rewrite (answers_imap f l (fun j => Z.of_nat (0 + j)) b).
    destruct (answers f b l) as [b1 cs]. exists m, s. split; [|exact Hb]. cbn. case_bool_decide; reflexivity.
  - change 0%Z with (Z.of_nat 0). rewrite (peach_loop_ok f m s (sl_len s) 0 b W) by lia. rewrite drop_0, C, Hlen. unfold numbered. cbn [Nat.add].
    destruct (answers _ b _) as [b1 cs]. exists m, s. split; [|exact Hb]. cbn. case_bool_decide; reflexivity.
Qed.
End Proofs.

(** C168: any history of method calls of a Slice in which every panic is recovered, with
    callbacks that may panic: every outcome, what each callback has seen, and the elements at the end. *)
Theorem slice_recovered :
  forall (A B : Type) (zero : A) (maxlen : Z) m (s : slice) (b : B), wf m s -> (0 <= maxlen)%Z ->
  forall hist : list ((nat -> nat) * pcall A B),
    Forall pcall_ints hist.*2 ->
    (forall pre post, hist.*2 = pre ++ post -> (zlen (rec_run (pspec zero maxlen) (contents m s, b) pre).2.1 < 2^63)%Z) ->
    let code := rec_run (px_step zero maxlen) (m, s, b) hist in
    let spec := rec_run (pspec zero maxlen) (contents m s, b) hist.*2 in
    code.1 = spec.1 /\ code.2.2 = spec.2.2 /\ became m s code.2.1.1 code.2.1.2 spec.2.1.
Proof.
  intros A B zero maxlen m s b W Hx hist.
  assert (G : forall m1 s1 b1 l1, became m s m1 s1 l1 -> Forall pcall_ints hist.*2 ->
    (forall pre post, hist.*2 = pre ++ post -> (zlen (rec_run (pspec zero maxlen) (l1, b1) pre).2.1 < 2^63)%Z) ->
    let code := rec_run (px_step zero maxlen) (m1, s1, b1) hist in
    let spec := rec_run (pspec zero maxlen) (l1, b1) hist.*2 in
    code.1 = spec.1 /\ code.2.2 = spec.2.2 /\ became m s code.2.1.1 code.2.1.2 spec.2.1).
  { induction hist as [|[c o] hist IH]; intros m1 s1 b1 l1 Hb HI HL; cbn [rec_run fmap list_fmap snd].
    - cbn. auto.
    - cbn in HI. apply Forall_cons in HI as [HI1 HI2].
      destruct (px_step_ok zero maxlen m s m1 s1 b1 l1 c o Hb) as (m2 & s2 & E & Hb2); [|exact Hx|exact HI1|].
      { apply (HL [] (o :: hist.*2)). reflexivity. }
      rewrite E. destruct (pspec zero maxlen (l1, b1) o) as [[l2 b2] r] eqn:Ep. cbn [fst snd] in *.
      specialize (IH m2 s2 b2 l2 Hb2 HI2). cbn zeta in IH.
      change (list_fmap _ _ snd hist) with (hist.*2) in *. change (@list_fmap _ _ snd hist) with (hist.*2) in *.
      destruct IH as (E1 & E2 & E3).
      { intros pre post Ee. specialize (HL (o :: pre) post). cbn [rec_run] in HL. rewrite Ep in HL.
        destruct (rec_run (pspec zero maxlen) (l2, b2) pre) as [rs st]. apply HL. cbn. f_equal. exact Ee. }
      destruct (rec_run (px_step zero maxlen) (m2, s2, b2) hist) as [rs1 st1].
      destruct (rec_run (pspec zero maxlen) (l2, b2) hist.*2) as [rs2 st2]. cbn [fst snd] in *. subst rs1. auto. }
  intros HI HL. apply (G m s b (contents m s)); [apply became_refl, W|exact HI|exact HL].
Qed.
Print Assumptions slice_recovered.

(** in particular: only Filter can leave a change behind when it panics, and then the length is what it was *)
Theorem slice_panic_keeps :
  forall (A B : Type) (zero : A) (maxlen : Z) (l : list A) (b : B) (o : pcall A B),
    (pspec zero maxlen (l, b) o).2 = Panic ->
    match o with
    | PFilter f =>
        exists n, n < length l /\ (answers f b (take n l)).2 = (answers f b l).2 /\
          length (answers f b (take n l)).2 = n /\
          let k := chosen (take n l) (answers f b (take n l)).2 in
          (pspec zero maxlen (l, b) o).1.1 = k ++ drop (length k) l
    | _ => (pspec zero maxlen (l, b) o).1.1 = l
    end.
Proof.
  intros A B zero maxlen l b o. destruct o as [o|f|f|f|f|f]; cbn [pspec].
  - destruct (slice_spec zero maxlen l o) as [[l' r]| |]; cbn; [discriminate|reflexivity|reflexivity].
  - intros H. exists (length (answers f b l).2).
    assert (G : forall b, length (answers f b l).2 <> length l -> length (answers f b l).2 < length l /\
      (answers f b (take (length (answers f b l).2) l)).2 = (answers f b l).2 /\
      chosen (take (length (answers f b l).2) l) (answers f b l).2 = chosen l (answers f b l).2).
    { clear. induction l as [|x l IH]; intros b Hn; cbn in *; [lia|]. destruct (f b x) as [b1 [c|]] eqn:Ef.
      - specialize (IH b1). destruct (answers f b1 l) as [b2 cs] eqn:Ea. cbn in *. destruct IH as (I1 & I2 & I3); [lia|].
        split; [lia|]. rewrite Ef. destruct (answers f b1 (take (length cs) l)) as [b3 cs3]. cbn in *. subst cs3. split; [reflexivity|]. rewrite I3. reflexivity.
      - cbn. split; [lia|]. split; reflexivity. }
    specialize (G b). destruct (answers f b l) as [b1 cs]. cbn [fst snd] in *.
    destruct (bool_decide (length cs = length l)) eqn:Ed; [discriminate|]. apply bool_decide_eq_false in Ed.
    destruct (G Ed) as (G1 & G2 & G3). rewrite G2. cbn zeta. rewrite G3. auto.
  - destruct (first_true f b 0 l). reflexivity.
  - destruct (first_true f b 0 l). reflexivity.
  - destruct (answers f b l). reflexivity.
  - destruct (answers _ b (numbered l)). reflexivity.
Qed.
Print Assumptions slice_panic_keeps.

(** C168 (refuted): Filter is not all or nothing; an element can be lost and another one be there twice *)
Theorem slice_filter_atomic_refuted :
  ~ (forall (A B : Type) (zero : A) maxlen (l : list A) (b : B) f,
       (pspec zero maxlen (l, b) (PFilter f)).2 = Panic -> (pspec zero maxlen (l, b) (PFilter f)).1.1 ≡ₚ l).
Proof.
  intros H. specialize (H nat unit 0 100%Z [1; 2; 3] tt (fun b x => (b, if decide (x = 3) then None else Some (bool_decide (x = 2)))) eq_refl).
  cbn in H. assert (1 ∈ [2; 2; 3]) as H1 by (rewrite H; left).
  repeat (apply elem_of_cons in H1 as [H1|H1]; [discriminate|]). inversion H1.
Qed.
Print Assumptions slice_filter_atomic_refuted.

(** a history with a panic of the slice, one of Filter's callback, one of a nil function, and calls after them;
    the callback counts its calls *)
Example slice_recovered_ex :
  let f := fun b x => (S b, if decide (x = 3) then None else Some (bool_decide (x = 2))) in
  let hist : list ((nat -> nat) * pcall nat nat) :=
    map (fun o => (fun _ => 0, o))
      [POp (XDeleteReplace 9); PFilter f; POp (XPush 7%nat); PContains (fun b x => (b, None)); PIndexOf f; PForEach (fun b i x => (b, Some tt)); POp XLen]%Z in
  let out := rec_run (px_step 0 100%Z) ([[1; 2; 3; 4]], Sl 0 0 4 4, 0) hist in
  out.1 = [Panic; Panic; Ret RUnit; Panic; Ret (RInt 0); Ret RUnit; Ret (RInt 5)] /\
  contents out.2.1.1 out.2.1.2 = [2; 2; 3; 4; 7] /\ out.2.2 = 4.
Proof. vm_compute. auto. Qed.
