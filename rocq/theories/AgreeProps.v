(** Where a package has more than one model, for callbacks of different kinds or for other
    keys, the models agree on what they have in common. *)
From stdpp Require Import gmap.
From Verif Require Import Base SeqSpec GoSlice SliceSpec SliceModel SliceReModel SlicePanicModel RecModel.
From Verif Require Import LinkedHeap LinkedListModel LinkedIterModel DecModel DecReModel Conc Lin SyncMapModel SyncMapEqModel.

Ltac res_cases := repeat match goal with |- context [rbind ?r _] => is_var r; destruct r; cbn end.

(** *** slicex.go 145-155, 207-235 *)
Section Slice.
Context {A B : Type} (zero : A) (maxlen : Z).
Notation mem := (list (list A)).

Lemma filter_re (f : B -> A -> B * bool) k (m : mem) s i n b :
  filter_prog zero maxlen (fun b x => SRet (f b x)) k m s s i n b = let! (m, n, b) := filter_loop f k m s i n b in Ret (m, s, b, n).
Proof.
  revert m i n b; induction k as [|k IH]; intros m i n b; cbn; [done|]. destruct (sl_get m s i) as [v| |]; cbn; [|done|done].
  destruct (f b v) as [b' y]; cbn. destruct y; [destruct (sl_set m s n v); cbn; [apply IH|done|done]|apply IH].
Qed.
Lemma index_re (f : B -> A -> B * bool) k (m : mem) s i b :
  index_prog zero maxlen (fun b x => SRet (f b x)) k m s s i b = let! (j, b) := index_loop f k m s i b in Ret (m, s, b, j).
Proof.
  revert i b; induction k as [|k IH]; intros i b; cbn; [done|]. destruct (sl_get m s i) as [v| |]; cbn; [|done|done].
  destruct (f b v) as [b' y]; cbn. destruct y; [done|apply IH].
Qed.
Lemma contains_index (f : B -> A -> B * bool) k (m : mem) s i b : (0 <= i)%Z ->
  contains_loop f k m s i b = let! (j, b) := index_loop f k m s i b in Ret ((0 <=? j)%Z, b).
Proof.
  revert i b; induction k as [|k IH]; intros i b Hi; cbn; [done|]. destruct (sl_get m s i) as [v| |]; cbn; [|done|done].
  destruct (f b v) as [b' y]; cbn. destruct y; [|apply IH; lia]. cbn. by rewrite (proj2 (Z.leb_le 0 i)).
Qed.
Lemma each_re (f : B -> Z -> A -> B) k (m : mem) s i b :
  each_prog zero maxlen (fun b i x => SRet (f b i x)) k m s s i b = let! b := each_loop f k m s i b in Ret (m, s, b).
Proof. revert i b; induction k as [|k IH]; intros i b; cbn; [done|]. destruct (sl_get m s i) as [v| |]; cbn; [apply IH|done|done]. Qed.

Lemma filter_pan (f : B -> A -> B * bool) k (m : mem) s i n b : match filter_loop f k m s i n b with
  | Ret (m', n', b') => pfilter_loop (fun b x => let '(b, y) := f b x in (b, Some y)) k m s i n b = (m', b', Ret n')
  | Panic => (pfilter_loop (fun b x => let '(b, y) := f b x in (b, Some y)) k m s i n b).2 = Panic
  | Spin => (pfilter_loop (fun b x => let '(b, y) := f b x in (b, Some y)) k m s i n b).2 = Spin end.
Proof.
  revert m i n b; induction k as [|k IH]; intros m i n b; cbn; [done|]. destruct (sl_get m s i) as [v| |]; cbn; [|done|done].
  destruct (f b v) as [b' y]; cbn. destruct y; [destruct (sl_set m s n v); cbn; [apply IH|done|done]|apply IH].
Qed.
Lemma index_pan (f : B -> A -> B * bool) k (m : mem) s i b : (0 <= i)%Z -> match index_loop f k m s i b with
  | Ret (j, b') => pindex_loop (fun b x => let '(b, y) := f b x in (b, Some y)) k m s i b = (b', Ret (if (0 <=? j)%Z then Some j else None)) /\ (j = -1 \/ 0 <= j)%Z
  | Panic => (pindex_loop (fun b x => let '(b, y) := f b x in (b, Some y)) k m s i b).2 = Panic
  | Spin => (pindex_loop (fun b x => let '(b, y) := f b x in (b, Some y)) k m s i b).2 = Spin end.
Proof.
  revert i b; induction k as [|k IH]; intros i b Hi; cbn; [auto|]. destruct (sl_get m s i) as [v| |]; cbn; [|done|done].
  destruct (f b v) as [b' y]; cbn. destruct y; [|apply IH; lia]. rewrite (proj2 (Z.leb_le 0 i)) by done. auto.
Qed.
Lemma each_pan (f : B -> Z -> A -> B) k (m : mem) s i b : match each_loop f k m s i b with
  | Ret b' => peach_loop (fun b i x => (f b i x, Some tt)) k m s i b = (b', Ret tt)
  | Panic => (peach_loop (fun b i x => (f b i x, Some tt)) k m s i b).2 = Panic
  | Spin => (peach_loop (fun b i x => (f b i x, Some tt)) k m s i b).2 = Spin end.
Proof. revert i b; induction k as [|k IH]; intros i b; cbn; [done|]. destruct (sl_get m s i) as [v| |]; cbn; [apply IH|done|done]. Qed.

(** callbacks that only compute: the programs of SliceReModel without calls do what the functions of SliceModel do *)
Theorem slice_plain_callbacks (f : B -> A -> B * bool) (e : B -> Z -> A -> B) (m : mem) s b :
  x_filter_prog zero maxlen (fun b x => SRet (f b x)) m s b = x_filter f m s b /\
  x_index_of_prog zero maxlen (fun b x => SRet (f b x)) m s b = (let! (j, b) := x_index_of f m s b in Ret (m, s, b, j)) /\
  x_contains_prog zero maxlen (fun b x => SRet (f b x)) m s b = (let! (y, b) := x_contains f m s b in Ret (m, s, b, y)) /\
  x_for_each_prog zero maxlen (fun b i x => SRet (e b i x)) m s b = (let! b := x_for_each e m s b in Ret (m, s, b)).
Proof.
  split; [|split; [|split]].
  - unfold x_filter_prog, x_filter. rewrite filter_re. by destruct (filter_loop f (sl_len s) m s 0 0 b) as [[[m' n] b']| |].
  - apply index_re.
  - unfold x_contains_prog, x_contains, x_index_of_prog. rewrite index_re, contains_index by lia.
    by destruct (index_loop f (sl_len s) m s 0 b) as [[j b']| |].
  - apply each_re.
Qed.

(** ... and callbacks that never panic: SlicePanicModel does what SliceModel does *)
Theorem slice_quiet_callbacks g (f : B -> A -> B * bool) (e : B -> Z -> A -> B) (h : B -> A -> B) (m : mem) s b :
  let q := fun b x => let '(b, y) := f b x in (b, Some y) in
  (forall m' s' b', x_filter f m s b = Ret (m', s', b') -> px_step zero maxlen (m, s, b) (g, PFilter q) = ((m', s', b'), Ret RUnit)) /\
  (forall j b', x_index_of f m s b = Ret (j, b') -> px_step zero maxlen (m, s, b) (g, PIndexOf q) = ((m, s, b'), Ret (RInt j))) /\
  (forall y b', x_contains f m s b = Ret (y, b') -> px_step zero maxlen (m, s, b) (g, PContains q) = ((m, s, b'), Ret (RBool y))) /\
  (forall b', x_each h m s b = Ret b' -> px_step zero maxlen (m, s, b) (g, PEach (fun b x => (h b x, Some tt))) = ((m, s, b'), Ret RUnit)) /\
  (forall b', x_for_each e m s b = Ret b' -> px_step zero maxlen (m, s, b) (g, PForEach (fun b i x => (e b i x, Some tt))) = ((m, s, b'), Ret RUnit)).
Proof.
  cbn; split; [|split; [|split; [|split]]].
  - intros m' s' b'. unfold x_filter, px_filter. pose proof (filter_pan f (sl_len s) m s 0 0 b) as H.
    destruct (filter_loop f (sl_len s) m s 0 0 b) as [[[m1 n] b1]| |]; cbn; [|done|done]. rewrite H.
    destruct (sl_sub s 0 n) eqn:E; cbn; rewrite ?E; [|done|done]. by intros [= -> -> ->].
  - intros j b'. unfold x_index_of. pose proof (index_pan f (sl_len s) m s 0 b ltac:(lia)) as H. intros E. rewrite E in H.
    destruct H as [-> Hj]. cbn. destruct (Z.leb_spec 0 j); [done|]. by replace j with (-1)%Z by lia.
  - intros y b'. unfold x_contains. rewrite contains_index by lia. pose proof (index_pan f (sl_len s) m s 0 b ltac:(lia)) as H.
    destruct (index_loop f (sl_len s) m s 0 b) as [[j b1]| |]; cbn; [|done|done]. destruct H as [-> Hj]. intros [= <- ->]. cbn.
    by destruct (0 <=? j)%Z.
  - intros b'. unfold x_each. pose proof (each_pan (fun b _ x => h b x) (sl_len s) m s 0 b) as H. intros E; rewrite E in H. by rewrite H.
  - intros b'. unfold x_for_each. pose proof (each_pan e (sl_len s) m s 0 b) as H. intros E; rewrite E in H. by rewrite H.
Qed.
End Slice.

(** *** listx.go 115-121: the callback logs what it is shown *)
Theorem linked_iterate_plain {A} (zero : A) (l : llist A) (f : A -> bool) :
  l_iterate_prog zero (length (l_heap l)) (fun b x => LPRet (b ++ [x], f x)) l [] = (let! v := l_iterate l f in Ret (l, v)).
Proof.
  unfold l_iterate_prog, l_iterate. generalize (length (l_heap l)) at 1 2. generalize (l_head l). intros p fu.
  cut (forall acc, iter_prog zero fu (fun b x => LPRet (b ++ [x], f x)) p l acc = let! v := l_iter fu (l_heap l) p f in Ret (l, acc ++ v)); [intros H; apply H|].
  revert p; induction fu as [|fu IH]; intros [n|] acc; cbn; rewrite ?app_nil_r; try done.
  destruct (l_heap l !! n) as [nd|] eqn:E; cbn; [|done]. destruct (f (ndata nd)); [|done]. cbn. rewrite IH.
  destruct (l_iter fu (l_heap l) (nnext nd) f); cbn; [|done|done]. by rewrite <- app_assoc.
Qed.

(** *** decouple.go 48-101: one call, with a drop that returns r and a view that does nothing *)
Theorem decoupler_plain_callbacks (r : Z) fuel d d' o x :
  dec_step fuel d o = Ret (d', x) -> (0 < fuel)%nat ->
  DecReModel.exec (fun _ => DecReModel.PRet r) (S fuel) d [] match o with OWrite b => PWrite b (fun n => DecReModel.PRet n) | ONext => PNext (fun _ => DecReModel.PRet 0) (fun b => DecReModel.PRet (Z.b2z b)) end =
  Ret (d', match o, x with
           | OWrite b, DStored _ => [EStored b]
           | _, DDropped b => [EDrop b]
           | _, DNext (Some b) => [EView b; EViewed b; ENext true]
           | _, DNext None => [ENext false]
           | ONext, DStored _ => []
           end, match x with DStored n => n | DDropped _ => r | DNext m => Z.b2z (bool_decide (is_Some m)) end).
Proof.
  intros E Hf. destruct fuel as [|fu]; [lia|]. destruct o as [b|]; cbn [dec_step] in E.
  - change (exec (λ _, PRet r) (S (S fu)) d [] (PWrite b (λ n, PRet n))) with
      (let! w := dec_write (S fu) d b in
       let! x := match w with
                 | (d, DDropped b) => exec (fun _ => PRet r) (S fu) d ([] ++ [EDrop b]) (PRet r)
                 | (d, DStored n) => Ret (d, [] ++ [EStored b], n)
                 | (d, DNext _) => Panic
                 end in
       let '(d, tr, n) := x in exec (fun _ => PRet r) (S fu) d tr (PRet n)).
    rewrite E. cbn [rbind]. destruct x as [n|c|m]; cbn [rbind exec]; [done|done|]. exfalso.
    clear -E. unfold dec_write in E. destruct b as [|c b]; [done|]. revert d E. generalize (c :: b). intros l.
    induction (S fu) as [|k IH]; intros d E; cbn [write_loop] in E; [done|].
    repeat match type of E with context [if ?c then _ else _] => destruct c end; try done. by apply IH in E.
  - unfold dec_next in E. cbn [exec]. destruct (d_len d =? 0)%Z; [by injection E as <- <-|].
    destruct (d_size d =? 0)%Z; [done|]. destruct (wait_loop (S fu) d (d_read d mod d_size d)) eqn:W; cbn [rbind] in *; [|done|done].
    injection E as <- <-. done.
Qed.

(** *** syncmapx.go 11-74: for keys that are == exactly when they are the same, the
    specification of SyncMapEqModel is that of SyncMapModel *)
Section Keys.
Context {K V : Type} `{Countable K} (zero : V).
Theorem syncmap_plain_keys (m m' : list (K * V)) o r : NoDup m.*1 ->
  eq_spec (fun a b => bool_decide (a = b)) zero m o r m' -> NoDup m'.*1 /\ map_spec zero (list_to_map m) o r (list_to_map m').
Proof.
  intros N. assert (F : forall k, NoDup (filter (fun p => bool_decide (k = p.1) = false) m).*1 /\
     list_to_map (filter (fun p : K * V => bool_decide (k = p.1) = false) m) = delete k (list_to_map m : gmap K V) /\
     k ∉ (filter (fun p => bool_decide (k = p.1) = false) m).*1).
  { intros k. clear -N. induction m as [|[k' v] m IH]; [cbn; rewrite delete_empty; split_and!; [constructor|done|apply not_elem_of_nil]|].
    inversion_clear N as [|? ? N1 N2]. destruct (IH N2) as (I1 & I2 & I3). rewrite filter_cons; cbn.
    case_decide as Hd; cbn.
    - apply bool_decide_eq_false in Hd. split_and!; [constructor; [|done]| |].
      + intros [p [-> [_ Hp]%elem_of_list_filter]]%elem_of_list_fmap. apply N1, elem_of_list_fmap. by exists p.
      + rewrite I2. by rewrite delete_insert_ne.
      + apply not_elem_of_cons. done.
    - apply not_false_is_true, bool_decide_eq_true in Hd as ->. split_and!; [done| |done]. rewrite I2.
      rewrite delete_insert_delete. done. }
  destruct o as [k|k| | | |k v|k|]; cbn; intros E.
  - destruct E as [E ->]. split; [done|split; [|done]]. destruct E as [(k' & v & Hv & Hk & ->)|[Hn ->]]; do 2 f_equal.
    + apply bool_decide_eq_true in Hk as ->. by rewrite (elem_of_list_to_map_1 m k' v N Hv).
    + rewrite (not_elem_of_list_to_map_1 m k); [done|]. intros [[k' v] [-> Hv]]%elem_of_list_fmap. specialize (Hn _ _ Hv). cbn in Hn.
      by rewrite bool_decide_eq_true_2 in Hn.
  - destruct E as [(b & -> & Hb) ->]. split; [done|split; [|done]]. f_equal. apply eq_true_iff_eq. rewrite bool_decide_eq_true, Hb.
    split; [intros (k' & v & Hv & ->%bool_decide_eq_true); by rewrite (elem_of_list_to_map_1 m k' v N Hv)|].
    intros [v Hv%elem_of_list_to_map_2]. exists k, v. by rewrite bool_decide_eq_true_2.
  - destruct E as [-> ->]. split; [done|split; [|done]]. f_equal. change (size (list_to_map m)) with (length (map_to_list (list_to_map m : gmap K V))).
    by rewrite (map_to_list_to_map m N).
  - destruct E as [(ks & -> & Hp) ->]. split; [done|split; [|done]]. exists ks. by rewrite (map_to_list_to_map m N).
  - destruct E as [(vs & -> & Hp) ->]. split; [done|split; [|done]]. exists vs. by rewrite (map_to_list_to_map m N).
  - destruct E as [-> Hp]. destruct (F k) as (F1 & F2 & F3). assert (N' : NoDup m'.*1) by (rewrite Hp; cbn; by constructor).
    split; [done|split; [done|]]. rewrite (list_to_map_proper m' _ N' Hp). cbn. rewrite F2. apply insert_delete_insert.
  - destruct E as [-> Hp]. destruct (F k) as (F1 & F2 & F3). assert (N' : NoDup m'.*1) by (by rewrite Hp).
    split; [done|split; [done|]]. by rewrite (list_to_map_proper m' _ N' Hp).
  - destruct E as [-> ->]. split; [constructor|done].
Qed.
End Keys.
Print Assumptions slice_plain_callbacks.
Print Assumptions slice_quiet_callbacks.
Print Assumptions linked_iterate_plain.
Print Assumptions decoupler_plain_callbacks.
Print Assumptions syncmap_plain_keys.

(** non-vacuity: a Filter, an IndexOf, an Iterate, a Write, a Next and a Set *)
Example agree_case :
  (exists m' s', x_filter (fun b x => (b + x, Nat.even x)) [[4; 5; 6; 7]] (Sl 0 0 3 4) 0 = Ret (m', s', 15) /\ contents m' s' = [4; 6]) /\
  x_index_of (fun b x => (S b, x =? 6)) [[4; 5; 6; 7]] (Sl 0 0 3 4) 0 = Ret (2%Z, 3) /\
  (exists d' x, dec_step 3 (new_decoupler 2) (OWrite [7%Z]) = Ret (d', x) /\ x = DStored 1 /\
     exists d'' y, dec_step 3 d' ONext = Ret (d'', y) /\ y = DNext (Some [7%Z])) /\
  NoDup [(1, 10); (2, 20)].*1 /\ eq_spec (fun a b => bool_decide (a = b)) 0 [(1, 10); (2, 20)] (MSet 2 5) RetU [(2, 5); (1, 10)].
Proof.
  split; [eexists _, _; split; vm_compute; reflexivity|]. split; [vm_compute; reflexivity|].
  split; [eexists _, _; split; [vm_compute; reflexivity|split; [done|]]; eexists _, _; split; vm_compute; reflexivity|].
  split; [by apply (bool_decide_unpack _)|]. split; [done|]. done.
Qed.
