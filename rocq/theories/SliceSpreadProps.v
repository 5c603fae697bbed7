(** dsx/slicex/slicex.go Splice(i, j, v...) for any argument slice, whatever memory it shares
    with the receiver: every cell of every array afterwards (C25, C37). *)
From Verif Require Import Base SeqSpec GoSlice SliceSpec SliceModel SliceProofs.

(** cell [p] of array [b] is among the [n] behind the first [k] elements of [s], and all of
    them are within its capacity: the cells in which append(s[:k], ...) puts [n] elements
    (language specification, append; slicex.go 61) *)
Definition lands (s : slice) (k n b p : nat) : Prop :=
  sl_arr s = b /\ k + n <= sl_cap s /\ sl_off s + k <= p /\ p < sl_off s + k + n.
Global Instance lands_dec s k n b p : Decision (lands s k n b p) := _.
(** what is in that cell, if [old] was there before; slicex.go 61 *)
Definition put {A} (s : slice) (k : nat) (xs : list A) (b p : nat) (old : option A) : option A :=
  if decide (lands s k (length xs) b p) then xs !! (p - (sl_off s + k)) else old.

Section Spread.
Context {A : Type} (zero : A).
Implicit Types (m : list (list A)) (s v : slice).

Lemma append_cells g m s xs b p : wf m s -> b < length m ->
  arr (append zero g m s xs).1 b !! p = put s (sl_len s) xs b p (arr m b !! p).
Proof.
  intros W Hb. unfold append, put.
  destruct (Nat.leb_spec (sl_len s + length xs) (sl_cap s)) as [H|H]; cbn [fst].
  2:{ rewrite arr_app_old by exact Hb. rewrite decide_False; [reflexivity|]. unfold lands. lia. }
  destruct (decide (sl_arr s = b)) as [E|E].
  2:{ rewrite arr_write_ne by exact E. rewrite decide_False; [reflexivity|]. unfold lands. tauto. }
  subst b. rewrite arr_write_eq by exact Hb.
  destruct (window_bound m s W) as [H0|H0].
  { assert (xs = []) as -> by (apply nil_length_inv; lia). cbn [app length]. rewrite Nat.add_0_r, take_drop.
    rewrite decide_False; [reflexivity|]. unfold lands. lia. }
  set (o := sl_off s + sl_len s) in *. set (l := arr m (sl_arr s)) in *.
  assert (Ho : o + length xs <= length l) by lia.
  case_decide as D; unfold lands in D.
  - rewrite lookup_app_r by (rewrite take_length; lia). rewrite take_length, Nat.min_l by lia.
    rewrite lookup_app_l by lia. reflexivity.
  - destruct (decide (p < o)) as [Hp|Hp].
    + rewrite lookup_app_l by (rewrite take_length; lia). apply lookup_take. exact Hp.
    + rewrite lookup_app_r by (rewrite take_length; lia). rewrite take_length, Nat.min_l by lia.
      rewrite lookup_app_r by lia. rewrite lookup_drop. f_equal. lia.
Qed.

Lemma contents_cells m s k : wf m s -> k < sl_len s -> contents m s !! k = arr m (sl_arr s) !! (sl_off s + k).
Proof.
  intros [W _] Hk. unfold contents, window. rewrite lookup_take, lookup_take, lookup_drop by lia. reflexivity.
Qed.

End Spread.

(** C25, C37: what Splice(i, j, v...) leaves in every cell there was, and what the receiver is
    afterwards.  The tail is put behind [v] first, then [v] and the tail behind the prefix, each
    in place if there is room. *)
Theorem slice_splice_spread_exact :
  forall (A : Type) (zero : A) g m (s v : slice) (i j : Z), wf m s -> wf m v ->
  let l := contents m s in
  let lo := Nat.min (clampn l i) (clampn l j) in
  let tail := drop (Nat.max (clampn l i) (clampn l j)) l in
  let inner := contents m v ++ tail in
  exists m' t, x_splice zero g m s i j v = Ret (m', t) /\ wf m' t /\
    (forall b p, b < length m -> arr m' b !! p = put s lo inner b p (put v (sl_len v) tail b p (arr m b !! p))) /\
    length (contents m' t) = lo + length inner /\
    (forall k, k < lo -> contents m' t !! k = put v (sl_len v) tail (sl_arr s) (sl_off s + k) (l !! k)) /\
    (forall k, contents m' t !! (lo + k) = inner !! k) /\
    (if decide (lo + length inner <= sl_cap s) then t = Sl (sl_arr s) (sl_off s) (lo + length inner) (sl_cap s) else length m <= sl_arr t).
Proof.
  intros A zero g m s v i j W Wv l lo tail inner.
  destruct (splice_shape m s i j W) as (lo' & hi & front & back & EP & E1 & E2 & B1 & A1 & C1 & EB & ES & H1 & H2).
  pose proof (splice_hi m s i j lo' hi W EP) as EH. fold l in EH.
  assert (EL : lo = Z.to_nat lo').
  { rewrite preproc2_spec in EP by apply len_nonneg. injection EP as <- _.
    unfold lo, clampn, l. rewrite zlen_contents by exact W. lia. }
  assert (EF : front = Sl (sl_arr s) (sl_off s) lo (sl_cap s)).
  { unfold sl_sub in E1. destruct (_ && _)%bool in E1; [|discriminate]. injection E1 as <-. rewrite EL. f_equal; lia. }
  unfold x_splice. rewrite EP, E1. cbn [rbind]. rewrite E2. cbn [rbind]. rewrite EB.
  change (drop (Z.to_nat hi) (contents m s)) with (drop (Z.to_nat hi) l). rewrite <- EH. fold tail.
  pose proof (append_cells zero g.1 m v tail) as P1. pose proof (append_contents zero g.1 m v tail Wv) as P2.
  pose proof (append_wf zero g.1 m v tail Wv) as P3. pose proof (append_frame zero g.1 m v tail) as [P4 _].
  assert (Wf1 : wf (append zero g.1 m v tail).1 front).
  { destruct B1 as (Wf & _). unfold append. destruct (Nat.leb_spec (sl_len v + length tail) (sl_cap v)); cbn [fst].
    - apply write_wf; assumption.
    - apply (grown_wf m); [|exact Wf]. pose proof (append_grown zero g.1 m v tail) as G. unfold append in G.
      destruct (Nat.leb_spec (sl_len v + length tail) (sl_cap v)); [lia|]. apply G. auto. }
  destruct (append zero g.1 m v tail) as [m1 w]. cbn [fst snd] in *.
  assert (Linner : contents m1 w = inner) by exact P2. rewrite Linner.
  pose proof (append_cells zero g.2 m1 front inner) as Q1. pose proof (append_contents zero g.2 m1 front inner Wf1) as Q2.
  pose proof (append_wf zero g.2 m1 front inner Wf1) as Q3.
  assert (Hlo : lo <= sl_len s). { rewrite EL. unfold len in H2. lia. }
  assert (Hfl : length (contents m1 front) = lo). { rewrite contents_length by exact Wf1. rewrite EF. reflexivity. }
  assert (Hshape : if decide (lo + length inner <= sl_cap s) then (append zero g.2 m1 front inner).2 = Sl (sl_arr s) (sl_off s) (lo + length inner) (sl_cap s)
    else length m <= sl_arr (append zero g.2 m1 front inner).2).
  { unfold append. rewrite EF. cbn [sl_arr sl_off sl_len sl_cap].
    destruct (Nat.leb_spec (lo + length inner) (sl_cap s)); case_decide; try lia; cbn [snd sl_arr]; [reflexivity|exact P4]. }
  destruct (append zero g.2 m1 front inner) as [m2 t]. cbn [fst snd] in *.
  exists m2, t. split; [reflexivity|]. split; [exact Q3|]. split; [|split; [|split; [|split; [|exact Hshape]]]].
  - intros b p Hb. rewrite Q1 by (exact Wf1 || lia). rewrite P1 by assumption. rewrite EF. reflexivity.
  - rewrite Q2, app_length, Hfl. reflexivity.
  - intros k Hk. rewrite Q2, lookup_app_l by lia.
    rewrite contents_cells by (exact Wf1 || (rewrite EF; cbn; lia)). rewrite A1.
    rewrite P1; [|exact Wv|apply wf_arr; [exact W|destruct W; lia]].
    rewrite EF. cbn [sl_off]. unfold l. rewrite (contents_cells m s) by (exact W || lia). reflexivity.
  - intros k. rewrite Q2, lookup_app_r by lia. f_equal. lia.
Qed.
Print Assumptions slice_splice_spread_exact.

(** C25: so the receiver gets the elements it should exactly if none of its first elements that
    stay is among the cells behind [v] that the tail is put in, or the right element is put there. *)
Theorem slice_splice_spread_iff :
  forall (A : Type) (zero : A) g m (s v : slice) (i j : Z), wf m s -> wf m v ->
  let l := contents m s in
  let lo := Nat.min (clampn l i) (clampn l j) in
  let tail := drop (Nat.max (clampn l i) (clampn l j)) l in
  exists m' t, x_splice zero g m s i j v = Ret (m', t) /\
    (contents m' t = splice l i j (contents m v) <->
     forall k n, k < lo -> n < length tail -> sl_arr v = sl_arr s -> sl_len v + length tail <= sl_cap v ->
       sl_off s + k = sl_off v + sl_len v + n -> l !! k = tail !! n).
Proof.
  intros A zero g m s v i j W Wv l lo tail.
  destruct (slice_splice_spread_exact A zero g m s v i j W Wv) as (m' & t & E & _ & _ & EL & EK & ER & _).
  fold l lo tail in EL, EK, ER. exists m', t. split; [exact E|].
  assert (Hlo : lo <= length l). { unfold lo, clampn. unfold zlen. lia. }
  assert (Hs : splice l i j (contents m v) = take lo l ++ contents m v ++ tail) by reflexivity. rewrite Hs. split.
  - intros C k n Hk Hn Ha Hc Ho. specialize (EK k Hk). rewrite C, lookup_app_l, lookup_take in EK by (rewrite ?take_length; lia).
    rewrite EK. unfold put. rewrite decide_True by (unfold lands; lia). f_equal. lia.
  - intros C. apply list_eq. intros k. destruct (decide (k < lo)) as [Hk|Hk].
    + rewrite EK by exact Hk. rewrite lookup_app_l, lookup_take by (rewrite ?take_length; lia).
      unfold put. case_decide as D; [|reflexivity]. destruct D as (D1 & D2 & D3 & D4). symmetry. apply C; try assumption; lia.
    + assert (exists d, k = lo + d) as [d ->] by (exists (k - lo); lia). rewrite ER.
      rewrite (lookup_app_r (take lo l)) by (rewrite take_length; lia). rewrite take_length, Nat.min_l by lia. f_equal. lia.
Qed.
Print Assumptions slice_splice_spread_iff.

(** s is a[0:5], v is a[0:1] with room behind it: Splice(3, 3, v...) on 1 2 3 4 5 puts the tail
    4 5 in cells 1 and 2 and then 1 4 5 from cell 3 on, in a new array *)
Example slice_spread_ex :
  let m := [[1; 2; 3; 4; 5]] in let s := Sl 0 0 5 5 in let v := Sl 0 0 1 5 in
  wf m s /\ wf m v /\
  exists m' t, x_splice 0 (0, 0) m s 3 3 v = Ret (m', t) /\ contents m' t = [1; 4; 5; 1; 4; 5] /\ arr m' 0 = [1; 4; 5; 4; 5].
Proof. split; [split; cbn; lia|]. split; [split; cbn; lia|]. do 2 eexists. split; [reflexivity|]. split; reflexivity. Qed.
