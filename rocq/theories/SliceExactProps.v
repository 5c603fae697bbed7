(** dsx/slicex/slicex.go for every int argument, whatever its value (C159). *)
From Verif Require Import Base SeqSpec GoSlice SliceSpec SliceModel SliceProofs SliceProofs2 SliceHistory.

(** C159: any history of method calls with any int arguments: the results, the panics and
    the elements at the end are those of [slice_spec]. *)
Theorem slice_history_exact :
  forall (A : Type) (zero : A) (maxlen : Z) m (s : slice), wf m s -> (0 <= maxlen)%Z ->
  forall hist : list ((nat -> nat) * xop A),
    Forall (fun o => xop_ints o) hist.*2 ->
    (forall pre post l', hist.*2 = pre ++ post -> (run (slice_spec zero maxlen) (contents m s) pre).2 = Ret l' -> (zlen l' < 2^63)%Z) ->
    (run (x_step zero maxlen) (m, s) hist).1 = (run (slice_spec zero maxlen) (contents m s) hist.*2).1 /\
    match (run (slice_spec zero maxlen) (contents m s) hist.*2).2 with
    | Ret l' => exists m' t, (run (x_step zero maxlen) (m, s) hist).2 = Ret (m', t) /\ became m s m' t l'
    | Panic => (run (x_step zero maxlen) (m, s) hist).2 = Panic
    | Spin => False
    end.
Proof. intros A zero maxlen m s W Hx hist. exact (slice_history zero maxlen m s W Hx hist). Qed.
Print Assumptions slice_history_exact.
(** the corner cases among others *)
Example slice_history_exact_ex :
  let hist : list (xop nat) := [XExtend 2; XSet 0 7%nat; XRotate min_i64; XRotate 3; XDelete (-5); XRepeat 3; XDelete max_i64; XDeleteReplace 0]%Z in
  run (slice_spec 0 100%Z) [1; 2] hist =
    ([RUnit; RUnit; RUnit; RUnit; RUnit; RUnit; RUnit], Panic).
Proof. vm_compute. reflexivity. Qed.

(** *** Split *)
(** where the cuts are: each size is added to the last cut, in int64, and the sum brought
    into the slice *)
Fixpoint cuts (n e : Z) (sizes : list Z) : list Z :=
  match sizes with [] => [e] | d :: r => e :: cuts n (Z.max 0 (Z.min (i64 (e + d)) n)) r end.
(** the elements between two positions, in either order *)
Definition between {A} (l : list A) (a b : Z) : list A := take (Z.to_nat (Z.max a b - Z.min a b)) (drop (Z.to_nat (Z.min a b)) l).
Fixpoint pieces {A} (l : list A) (cs : list Z) : list (list A) :=
  match cs with
  | a :: ((b :: _) as r) => between l a b :: pieces l r
  | [a] => match drop (Z.to_nat a) l with [] => [] | x => [x] end
  | [] => []
  end.
Lemma pieces_cons {A} (l : list A) a b r : pieces l (a :: b :: r) = between l a b :: pieces l (b :: r).
Proof. reflexivity. Qed.
Lemma split_loop_exact {A} (m : list (list A)) s splits : forall e, wf m s -> (0 <= e <= len s)%Z ->
  exists ps e', split_loop s splits e = Ret (ps, e') /\ (0 <= e' <= len s)%Z /\ Forall (wf m) ps /\
    map (contents m) ps ++ match drop (Z.to_nat e') (contents m s) with [] => [] | x => [x] end = pieces (contents m s) (cuts (len s) e splits).
Proof.
  induction splits as [|d r IH]; intros e W He; cbn [split_loop].
  - exists [], e. split; [reflexivity|]. split; [exact He|]. split; [constructor|]. reflexivity.
  - rewrite preproc1_spec by lia. cbn [cuts]. set (n := Z.max 0 (Z.min (i64 (e + d)) (len s))). pose proof (contents_length m s W) as L.
    assert (P : exists p, (if (n <? e)%Z then sl_sub s n e else sl_sub s e n) = Ret p /\ wf m p /\ contents m p = between (contents m s) e n).
    { unfold between. destruct (Z.ltb_spec n e) as [Hlt|Hge].
      - destruct (sub_became m s n e W) as (p & Ep & (Wp & Cp & _) & _); [lia|lia|]. exists p. split; [exact Ep|]. split; [exact Wp|].
        rewrite Z.max_l, Z.min_r by lia. exact Cp.
      - destruct (sub_became m s e n W) as (p & Ep & (Wp & Cp & _) & _); [lia|lia|]. exists p. split; [exact Ep|]. split; [exact Wp|].
        rewrite Z.max_r, Z.min_l by lia. exact Cp. }
    destruct P as (p & -> & Wp & Cp). cbn [rbind]. destruct (IH n W ltac:(lia)) as (ps & e' & -> & He' & HF & HL). cbn [rbind].
    exists (p :: ps), e'. split; [reflexivity|]. split; [exact He'|]. split; [constructor; assumption|].
    cbn [map app]. rewrite HL, Cp. destruct r; reflexivity.
Qed.
(** C159: what Split returns for any sizes, negative and overflowing ones included: what lies
    between each cut and the next, and what is left after the last. *)
Theorem slice_split_exact :
  forall (A : Type) m (s : slice) (splits : list Z), wf (A:=A) m s ->
    exists ps, x_split s splits = Ret ps /\ Forall (wf m) ps /\ map (contents m) ps = pieces (contents m s) (cuts (zlen (contents m s)) 0 splits).
Proof.
  intros A m s splits W. unfold x_split. pose proof (len_nonneg s). pose proof (contents_length m s W) as L. rewrite zlen_contents by exact W.
  destruct (split_loop_exact m s splits 0 W) as (ps & e & -> & He & HF & HL); [lia|]. cbn [rbind].
  destruct (Z.ltb_spec e (len s)) as [Hlt|Hge].
  - destruct (sub_became m s e (len s) W) as (p & Ep & (Wp & Cp & _) & _); [lia|lia|]. rewrite Ep. cbn [rbind].
    exists (ps ++ [p]). split; [reflexivity|]. split; [apply Forall_app; auto|].
    rewrite map_app, <- HL. f_equal. cbn. rewrite Cp, take_ge by (rewrite drop_length; unfold len in *; lia).
    destruct (drop (Z.to_nat e) (contents m s)) eqn:ED; [|reflexivity].
    apply (f_equal length) in ED. rewrite drop_length in ED. cbn in ED. unfold len in *. lia.
  - exists ps. split; [reflexivity|]. split; [exact HF|]. rewrite <- HL. rewrite drop_ge by (unfold len in *; lia). rewrite app_nil_r. reflexivity.
Qed.
Print Assumptions slice_split_exact.
(** a size that overflows, and a negative one: elements are lost, and come twice *)
Example slice_split_exact_ex : pieces [1; 2; 3; 4] (cuts 4 0 [3; max_i64; 2; -1]%Z) = [[1; 2; 3]; [1; 2; 3]; [1; 2]; [2]; [2; 3; 4]].
Proof. vm_compute. reflexivity. Qed.
