(** Proofs about the loops of dsx/slicex/slicex.go *)
From Verif Require Import Base SeqSpec GoSlice SliceSpec SliceModel SliceProofs.

(** *** list facts *)
Section Lists.
Context {A : Type}.
Implicit Types (l : list A).
Lemma lswap_length l i j : length (lswap l i j) = length l.
Proof. unfold lswap. destruct (l !! i), (l !! j); rewrite ?insert_length; reflexivity. Qed.
Lemma lswap_lookup l i j p : i < length l -> j < length l ->
  lswap l i j !! p = if decide (p = j) then l !! i else if decide (p = i) then l !! j else l !! p.
Proof.
  intros Hi Hj. unfold lswap. destruct (lookup_lt_is_Some_2 l i Hi) as [a Ea], (lookup_lt_is_Some_2 l j Hj) as [b Eb].
  rewrite Ea, Eb. destruct (decide (p = j)) as [->|Hpj].
  - rewrite list_lookup_insert by (rewrite insert_length; exact Hj). reflexivity.
  - rewrite list_lookup_insert_ne by auto. destruct (decide (p = i)) as [->|Hpi].
    + rewrite list_lookup_insert by exact Hi. reflexivity.
    + rewrite list_lookup_insert_ne by auto. reflexivity.
Qed.
Lemma lswap_perm l i j : lswap l i j ≡ₚ l.
Proof.
  destruct (decide (i < length l)) as [Hi|Hi]; [|unfold lswap; rewrite (lookup_ge_None_2 l i) by lia; reflexivity].
  destruct (decide (j < length l)) as [Hj|Hj]; [|unfold lswap; rewrite (lookup_ge_None_2 l j) by lia; destruct (l !! i); reflexivity].
  apply Permutation_inj. split; [apply lswap_length|].
  exists (fun p => if decide (p = j) then i else if decide (p = i) then j else p). split.
  - intros p q. destruct (decide (p = j)), (decide (q = j)), (decide (p = i)), (decide (q = i)); intros; subst; congruence.
  - intros p. rewrite lswap_lookup by assumption. destruct (decide (p = j)); [reflexivity|]. destruct (decide (p = i)); reflexivity.
Qed.
Lemma fisher_yates_perm js i l : fisher_yates js i l ≡ₚ l.
Proof. revert l. induction i as [|i IH]; intros l; cbn; [reflexivity|]. rewrite IH. apply lswap_perm. Qed.
Lemma fisher_yates_length js i l : length (fisher_yates js i l) = length l.
Proof. apply Permutation_length, fisher_yates_perm. Qed.
Lemma fisher_yates_ext js js' i l : (forall k, k <= i -> js k = js' k) -> fisher_yates js i l = fisher_yates js' i l.
Proof.
  revert l. induction i as [|i IH]; intros l H; cbn; [reflexivity|]. rewrite (H (S i)) by lia. apply IH. intros k Hk. apply H. lia.
Qed.

Lemma lswap_last (p : list A) j x y t : p !! j = Some x ->
  lswap ((p ++ [y]) ++ t) (length p) j = (<[j := y]> p ++ [x]) ++ t.
Proof.
  intros Hj. pose proof (lookup_lt_Some _ _ _ Hj) as Hl. apply list_eq. intros k.
  rewrite lswap_lookup by (rewrite !app_length; cbn; lia). rewrite <- !app_assoc. cbn [app].
  destruct (decide (k = j)) as [->|Hk].
  - rewrite lookup_app_r, Nat.sub_diag by lia. cbn. rewrite lookup_app_l by (rewrite insert_length; lia).
    rewrite list_lookup_insert by lia. reflexivity.
  - destruct (decide (k = length p)) as [->|Hk2].
    + rewrite lookup_app_l by lia. rewrite lookup_app_r, insert_length, Nat.sub_diag by (rewrite insert_length; lia). exact Hj.
    + destruct (decide (k < length p)).
      * rewrite !lookup_app_l by (rewrite ?insert_length; lia). rewrite list_lookup_insert_ne by auto. reflexivity.
      * rewrite !lookup_app_r by (rewrite ?insert_length; lia). rewrite insert_length.
        destruct (k - length p) as [|z] eqn:E; [lia|]. reflexivity.
Qed.
(** every arrangement can come out of the shuffle *)
Lemma fisher_yates_surj i : forall (p p' t : list A), length p = S i -> p ≡ₚ p' ->
  exists js, fisher_yates js i (p ++ t) = p' ++ t.
Proof.
  induction i as [|i IH]; intros p p' t Hl HP.
  - exists (fun _ => 0). cbn. f_equal. destruct p as [|x [|]]; try discriminate Hl.
    symmetry. apply Permutation_singleton_r. symmetry. exact HP.
  - assert (Hl' : length p' = S (S i)) by (rewrite <- HP; exact Hl).
    destruct p' as [|x q' _] using rev_ind; [discriminate|]. rewrite app_length in Hl'. cbn in Hl'.
    assert (Hx : x ∈ p) by (rewrite HP; apply elem_of_app; right; left).
    apply elem_of_list_lookup in Hx as [j Hj].
    destruct p as [|y p _] using rev_ind; [discriminate|]. rewrite app_length in Hl. cbn in Hl.
    assert (Hlp : length p = S i) by lia.
    (* the position j of x gets exchanged with the last one *)
    destruct (decide (j = S i)) as [->|Hne].
    + rewrite lookup_app_r, Hlp, Nat.sub_diag in Hj by lia. injection Hj as ->.
      destruct (IH p q' ([x] ++ t) Hlp) as [js Hjs]; [apply (Permutation_app_inv_r [x]); exact HP|].
      exists (fun k => if decide (k = S i) then S i else js k). cbn [fisher_yates].
      destruct (decide (S i = S i)) as [_|]; [|lia]. rewrite Nat.mod_small by lia.
      replace (lswap ((p ++ [x]) ++ t) (S i) (S i)) with (p ++ [x] ++ t).
      * rewrite <- (app_assoc q'). rewrite <- Hjs. apply fisher_yates_ext. intros k Hk. destruct (decide (k = S i)); [lia|reflexivity].
      * rewrite app_assoc. apply list_eq. intros k. rewrite lswap_lookup by (rewrite !app_length; cbn; lia).
        destruct (decide (k = S i)) as [->|]; reflexivity.
    + assert (Hjl : j < length p) by (apply lookup_lt_Some in Hj; rewrite app_length in Hj; cbn in Hj; lia).
      rewrite lookup_app_l in Hj by exact Hjl.
      destruct (IH (<[j := y]> p) q' ([x] ++ t)) as [js Hjs].
      * rewrite insert_length. exact Hlp.
      * apply (Permutation_app_inv_r [x]). rewrite <- HP. pose proof (lswap_perm ((p ++ [y]) ++ []) (length p) j) as P.
        rewrite (lswap_last p j x y [] Hj) in P. rewrite !app_nil_r in P. exact P.
      * exists (fun k => if decide (k = S i) then j else js k). cbn [fisher_yates].
        destruct (decide (S i = S i)) as [_|]; [|lia]. rewrite Nat.mod_small by lia.
        pose proof (lswap_last p j x y t Hj) as HS. rewrite Hlp in HS. rewrite HS. rewrite <- !app_assoc. rewrite <- Hjs.
        apply fisher_yates_ext. intros k Hk. destruct (decide (k = S i)); [lia|reflexivity].
Qed.

Lemma rotated_drop_take n k l : k <= length l -> (0 < length l) -> ((Z.of_nat k - n) mod zlen l = 0)%Z ->
  rotated n l (drop k l ++ take k l).
Proof.
  intros Hk Hl Hm. split; [rewrite app_length, drop_length, take_length; lia|]. intros p Hp. unfold zlen in *.
  assert (E : ((Z.of_nat p - n) mod Z.of_nat (length l) = (Z.of_nat p - Z.of_nat k) mod Z.of_nat (length l))%Z).
  { replace (Z.of_nat p - n)%Z with ((Z.of_nat p - Z.of_nat k) + (Z.of_nat k - n))%Z by lia.
    rewrite Zplus_mod, Hm, Z.add_0_r, Zmod_mod. reflexivity. }
  rewrite E. destruct (decide (p < k)) as [Hlt|Hge].
  - replace ((Z.of_nat p - Z.of_nat k) mod Z.of_nat (length l))%Z with (Z.of_nat (p + length l - k) )%Z.
    + rewrite Nat2Z.id, lookup_app_r, drop_length by (rewrite drop_length; lia).
      replace (p + length l - k - (length l - k)) with p by lia. apply lookup_take. exact Hlt.
    + symmetry. rewrite <- (Z_mod_plus_full _ 1). rewrite Z.mod_small; lia.
  - rewrite Z.mod_small by lia. rewrite lookup_app_l by (rewrite drop_length; lia). rewrite lookup_drop. f_equal. lia.
Qed.
Lemma rotated_unique n l a b : rotated n l a -> rotated n l b -> a = b.
Proof.
  intros [La Ha] [Lb Hb]. apply list_eq_same_length with (length l); [lia|lia|]. intros i x y Hi Hx Hy.
  assert (0 < zlen l)%Z by (unfold zlen; lia).
  set (p := Z.to_nat ((Z.of_nat i + n) mod zlen l)).
  pose proof (Z.mod_pos_bound (Z.of_nat i + n) (zlen l)) as Hb'.
  assert (Hp : p < length l) by (unfold p, zlen in *; lia).
  assert (E : Z.to_nat ((Z.of_nat p - n) mod zlen l) = i).
  { unfold p. rewrite Z2Nat.id by lia. rewrite Zminus_mod_idemp_l. replace (Z.of_nat i + n - n)%Z with (Z.of_nat i) by lia.
    rewrite Z.mod_small by (unfold zlen; lia). lia. }
  specialize (Ha p Hp). specialize (Hb p Hp). rewrite E in *. congruence.
Qed.
Lemma rotated_undo n l l' l'' : rotated n l l' -> rotated (- n) l' l'' -> l'' = l.
Proof.
  intros [L1 H1] [L2 H2]. apply list_eq_same_length with (length l); [lia|lia|]. intros i x y Hi Hx Hy.
  assert (0 < zlen l)%Z by (unfold zlen; lia).
  pose proof (Z.mod_pos_bound (Z.of_nat i - n) (zlen l)) as Hb.
  set (q := Z.to_nat ((Z.of_nat i - n) mod zlen l)) in *.
  assert (Hq : q < length l') by (unfold q, zlen in *; lia).
  specialize (H1 i Hi). fold q in H1. specialize (H2 q Hq). replace (zlen l') with (zlen l) in H2 by (unfold zlen; congruence).
  assert (E : Z.to_nat ((Z.of_nat q - - n) mod zlen l) = i).
  { unfold q. rewrite Z2Nat.id by lia. rewrite Zminus_mod_idemp_l.
    replace (Z.of_nat i - n - - n)%Z with (Z.of_nat i) by lia. rewrite Z.mod_small by (unfold zlen; lia). lia. }
  rewrite E in H2. congruence.
Qed.

Lemma split_list_concat sizes : forall l, concat (split_list l sizes) = l.
Proof.
  induction sizes as [|n r IH]; intros l; cbn.
  - destruct l; cbn; [reflexivity|rewrite app_nil_r; reflexivity].
  - rewrite IH. apply take_drop.
Qed.
(** batches *)
Lemma batches k n l : 0 < n -> k = length l / n ->
  (forall i b, S i < length (split_list l (replicate k n)) -> split_list l (replicate k n) !! i = Some b -> length b = n) /\
  (forall b, last (split_list l (replicate k n)) = Some b -> 1 <= length b <= n) /\
  (l = [] -> split_list l (replicate k n) = []) /\
  (l <> [] -> split_list l (replicate k n) <> []).
Proof.
  intros Hn. revert l. induction k as [|k IH]; intros l Hk; cbn [replicate split_list].
  - assert (length l < n) by (apply Nat.div_small_iff; lia).
    destruct l as [|x l]; cbn [length].
    + split; [intros; cbn in *; lia|]. split; [discriminate|]. split; [auto|congruence].
    + split; [intros; cbn in *; lia|]. split; [intros b E; injection E as <-; cbn in *; lia|]. split; [discriminate|discriminate].
  - assert (Hge : n <= length l).
    { destruct (decide (n <= length l)); [assumption|]. rewrite Nat.div_small in Hk by lia. lia. }
    destruct (IH (drop n l)) as (I1 & I2 & I3 & I4).
    { rewrite drop_length. assert (E : length l = (length l - n) + 1 * n) by lia. rewrite E, Nat.div_add in Hk by lia. lia. }
    set (r := split_list (drop n l) (replicate k n)) in *.
    split; [|split; [|split]].
    + intros [|i] b Hi Hb; cbn in Hb.
      * injection Hb as <-. rewrite take_length. lia.
      * apply (I1 i b); [cbn in Hi; lia|exact Hb].
    + intros b. destruct r as [|c r']; [|exact (I2 b)]. cbn. intros E. injection E as <-. rewrite take_length. lia.
    + intros ->. cbn in Hge. lia.
    + discriminate.
Qed.
End Lists.

Section Loops.
Context {A : Type} (zero : A) (maxlen : Z).
Notation mem := (list (list A)).
Implicit Types (m : mem) (s t v : slice) (l xs vs : list A).

Lemma swap_became m s i j : wf m s -> (0 <= i < len s)%Z -> (0 <= j < len s)%Z ->
  exists m', x_swap m s i j = Ret m' /\ became m s m' s (lswap (contents m s) (Z.to_nat i) (Z.to_nat j)).
Proof.
  intros W Hi Hj. unfold x_swap.
  destruct (sl_get_ok m s j W) as (a & Ea & Ga); [unfold len in *; lia|]. rewrite Ga. cbn [rbind].
  destruct (sl_get_ok m s i W) as (b & Eb & Gb); [unfold len in *; lia|]. rewrite Gb. cbn [rbind].
  destruct (set_became m s i a W Hi) as (m1 & E1 & W1 & C1 & L1). rewrite E1. cbn [rbind].
  destruct (set_became m1 s j b W1 Hj) as (m2 & E2 & W2 & C2 & L2). rewrite E2. exists m2. split; [reflexivity|].
  split; [exact W2|]. split; [|eapply local_trans; eauto]. rewrite C2, C1. unfold lswap. rewrite Ea, Eb. reflexivity.
Qed.

Lemma rev_loop_ok fuel : forall m s i j, wf m s -> (0 <= i)%Z -> (j < len s)%Z -> (j - i <= 2 * Z.of_nat fuel)%Z ->
  exists m' l', rev_loop fuel m s i j = Ret m' /\ became m s m' s l' /\ length l' = length (contents m s) /\
    forall p, l' !! p = if decide (i <= Z.of_nat p <= j)%Z then contents m s !! Z.to_nat (i + j - Z.of_nat p) else contents m s !! p.
Proof.
  induction fuel as [|fuel IH]; intros m s i j W Hi Hj Hf; cbn [rev_loop].
  - destruct (Z.ltb_spec i j); [lia|]. exists m, (contents m s). split; [reflexivity|]. split; [apply became_refl, W|].
    split; [reflexivity|]. intros p. destruct (decide _); [|reflexivity]. f_equal. lia.
  - destruct (Z.ltb_spec i j) as [Hlt|Hge].
    + destruct (swap_became m s i j W) as (m1 & E1 & W1 & C1 & L1); [lia|lia|]. rewrite E1. cbn [rbind].
      destruct (IH m1 s (i + 1)%Z (j - 1)%Z W1) as (m2 & l' & E2 & (W2 & C2 & L2) & Hl & Hp); [lia|lia|lia|].
      exists m2, l'. split; [exact E2|]. split; [split; [exact W2|split; [exact C2|eapply local_trans; eauto]]|].
      split; [rewrite Hl, C1, lswap_length; reflexivity|]. intros p. rewrite Hp, C1. pose proof (contents_length m s W) as L. unfold len in *.
      rewrite !lswap_lookup by (rewrite L; lia).
      destruct (decide (i <= Z.of_nat p <= j)%Z) as [Hin|Hout].
      * destruct (decide (i + 1 <= Z.of_nat p <= j - 1)%Z).
        -- destruct (decide _); [lia|]. destruct (decide _); [lia|]. f_equal. lia.
        -- destruct (decide (p = Z.to_nat j)); [f_equal; lia|]. destruct (decide (p = Z.to_nat i)); [f_equal; lia|lia].
      * destruct (decide _); [lia|]. destruct (decide _); [lia|]. destruct (decide _); [lia|reflexivity].
    + exists m, (contents m s). split; [reflexivity|]. split; [apply became_refl, W|].
      split; [reflexivity|]. intros p. destruct (decide _); [|reflexivity]. f_equal. lia.
Qed.
Lemma x_reverse_ok m s : wf m s -> exists m', x_reverse m s = Ret m' /\ became m s m' s (reverse (contents m s)).
Proof.
  intros W. pose proof (contents_length m s W) as L.
  destruct (rev_loop_ok (sl_len s) m s 0 (len s - 1) W) as (m' & l' & E & B & Hl & Hp); [lia|lia|unfold len; lia|].
  exists m'. split; [exact E|]. replace (reverse (contents m s)) with l'; [exact B|].
  apply list_eq_same_length with (length (contents m s)); [rewrite reverse_length; reflexivity|exact Hl|].
  intros p x y Hlt Hx Hy. rewrite Hp in Hx. rewrite reverse_lookup in Hy by exact Hlt. unfold len in *.
  rewrite decide_True in Hx by lia.
  replace (Z.to_nat (0 + (Z.of_nat (sl_len s) - 1) - Z.of_nat p)) with (length (contents m s) - S p) in Hx by lia. congruence.
Qed.

Lemma x_rotate_ok g m s n : wf m s -> is_i64 n -> n <> min_i64 ->
  exists m' t l', x_rotate zero g m s n = Ret (m', t) /\ became m s m' t l' /\ rotated n (contents m s) l'.
Proof.
  intros W Hn Hm. unfold x_rotate. pose proof (contents_length m s W) as L. pose proof (len_nonneg s) as H0.
  pose proof (zlen_contents m s W) as Z0.
  destruct (Z.eqb_spec (len s) 0) as [E0|E0].
  { exists m, s, (contents m s). split; [reflexivity|]. split; [apply became_refl, W|].
    rewrite (len_lt_empty m s W E0). split; [reflexivity|]. cbn. lia. }
  assert (Hpos : 0 < length (contents m s)) by (unfold len in *; lia).
  destruct (Z.ltb_spec 0 n) as [Hgt|Hle].
  - pose proof (Z.rem_bound_pos n (len s)) as Hr. set (k := Z.rem n (len s)) in *.
    destruct (sub_became m s k (len s) W) as (a & Ea & (Wa & Ca & La) & _); [lia|lia|].
    destruct (sub_became m s 0 k W) as (b & Eb & (Wb & Cb & Lb) & _); [lia|lia|].
    rewrite Ea. cbn [rbind]. rewrite Eb. cbn [rbind]. destruct (append_became zero g m a (contents m b) Wa) as (W' & C' & L').
    destruct (append zero g m a (contents m b)) as [m' t]. cbn [fst snd] in *. exists m', t, (contents m' t). split; [reflexivity|].
    split; [split; [exact W'|split; [reflexivity|exact (local_trans _ _ _ _ _ _ La L')]]|].
    rewrite C', Ca, Cb, drop_0, Z.sub_0_r. rewrite (take_ge (drop _ _)) by (rewrite drop_length; unfold len in *; lia).
    apply rotated_drop_take; [unfold len in *; lia|exact Hpos|]. rewrite Z0, Z2Nat.id by lia.
    unfold k. rewrite Z.rem_mod_nonneg by lia. rewrite Zminus_mod_idemp_l, Z.sub_diag. reflexivity.
  - destruct (Z.ltb_spec n 0) as [Hlt|Hge].
    + rewrite i64_id by (unfold is_i64, min_i64 in *; lia). pose proof (Z.rem_bound_pos (-n) (len s)) as Hr. set (k := Z.rem (-n) (len s)) in *.
      destruct (sub_became m s (len s - k) (len s) W) as (a & Ea & (Wa & Ca & La) & _); [lia|lia|].
      destruct (sub_became m s 0 (len s - k) W) as (b & Eb & (Wb & Cb & Lb) & _); [lia|lia|].
      rewrite Ea. cbn [rbind]. rewrite Eb. cbn [rbind]. destruct (append_became zero g m a (contents m b) Wa) as (W' & C' & L').
      destruct (append zero g m a (contents m b)) as [m' t]. cbn [fst snd] in *. exists m', t, (contents m' t). split; [reflexivity|].
      split; [split; [exact W'|split; [reflexivity|exact (local_trans _ _ _ _ _ _ La L')]]|].
      rewrite C', Ca, Cb, drop_0, Z.sub_0_r. rewrite (take_ge (drop _ _)) by (rewrite drop_length; unfold len in *; lia).
      apply rotated_drop_take; [unfold len in *; lia|exact Hpos|]. rewrite Z0, Z2Nat.id by lia.
      unfold k. rewrite Z.rem_mod_nonneg by lia.
      replace (len s - - n mod len s - n)%Z with (- n - (- n) mod len s + 1 * len s)%Z by lia.
      rewrite Z_mod_plus_full, Zminus_mod_idemp_r, Z.sub_diag. reflexivity.
    + assert (n = 0%Z) as -> by lia. exists m, s, (contents m s). split; [reflexivity|]. split; [apply became_refl, W|].
      split; [reflexivity|]. intros p Hp. rewrite Z.sub_0_r, Z.mod_small by (unfold zlen; lia). rewrite Nat2Z.id. reflexivity.
Qed.
(** Rotate(MinInt64) panics unless Len divides 2^63 *)
Lemma x_rotate_min g m s : wf m s -> (0 < len s < 2^63)%Z -> (2^63 mod len s <> 0)%Z -> x_rotate zero g m s min_i64 = Panic.
Proof.
  intros W Hl Hd. unfold x_rotate. destruct (Z.eqb_spec (len s) 0); [lia|].
  destruct (Z.ltb_spec 0 min_i64) as [Hc|_]; [unfold min_i64 in Hc; lia|].
  destruct (Z.ltb_spec min_i64 0) as [_|Hc]; [|unfold min_i64 in Hc; lia].
  replace (i64 (- min_i64)) with (- 2^63)%Z by reflexivity. rewrite Z.rem_opp_l by lia. rewrite Z.rem_mod_nonneg by lia.
  pose proof (Z.mod_pos_bound (2^63) (len s)). unfold sl_sub.
  replace ((0 <=? len s - - (2 ^ 63 mod len s)) && (len s - - (2 ^ 63 mod len s) <=? len s) && (len s <=? Z.of_nat (sl_cap s)))%Z with false; [reflexivity|].
  symmetry. apply andb_false_iff. left. apply andb_false_iff. right. apply Z.leb_gt. lia.
Qed.
(** and does nothing when Len divides 2^63 *)
Lemma x_rotate_min_div g m s : wf m s -> (0 < len s < 2^63)%Z -> (2^63 mod len s = 0)%Z ->
  exists m' t, x_rotate zero g m s min_i64 = Ret (m', t) /\ became m s m' t (contents m s).
Proof.
  intros W Hl Hd. unfold x_rotate. destruct (Z.eqb_spec (len s) 0); [lia|]. pose proof (contents_length m s W) as L.
  destruct (Z.ltb_spec 0 min_i64) as [Hc|_]; [unfold min_i64 in Hc; lia|].
  destruct (Z.ltb_spec min_i64 0) as [_|Hc]; [|unfold min_i64 in Hc; lia].
  replace (i64 (- min_i64)) with (- 2^63)%Z by reflexivity. rewrite Z.rem_opp_l by lia. rewrite Z.rem_mod_nonneg by lia.
  rewrite Hd. replace (len s - - 0)%Z with (len s) by lia.
  destruct (sub_became m s (len s) (len s) W) as (a & Ea & (Wa & Ca & La) & _); [lia|lia|].
  destruct (sub_became m s 0 (len s) W) as (b & Eb & (Wb & Cb & Lb) & _); [lia|lia|].
  rewrite Ea. cbn [rbind]. rewrite Eb. cbn [rbind]. destruct (append_became zero g m a (contents m b) Wa) as (W' & C' & L').
  destruct (append zero g m a (contents m b)) as [m' t]. cbn [fst snd] in *. exists m', t. split; [reflexivity|].
  split; [exact W'|]. split; [|exact (local_trans _ _ _ _ _ _ La L')]. rewrite C', Ca, Cb, Z.sub_diag, Z.sub_0_r, drop_0. cbn [take app].
  apply take_ge. unfold len. lia.
Qed.

Lemma shuffle_loop_ok js i : forall m s, wf m s -> (Z.of_nat i < len s)%Z \/ i = 0 ->
  exists m', shuffle_loop js i m s = Ret m' /\ became m s m' s (fisher_yates js i (contents m s)).
Proof.
  induction i as [|i IH]; intros m s W Hi; cbn [shuffle_loop fisher_yates].
  - exists m. split; [reflexivity|]. apply became_refl, W.
  - pose proof (Nat.mod_upper_bound (js (S i)) (S (S i))) as Hj.
    destruct (swap_became m s (Z.of_nat (S i)) (Z.of_nat (js (S i) mod S (S i))) W) as (m1 & E1 & W1 & C1 & L1); [lia|lia|].
    rewrite E1. cbn [rbind]. destruct (IH m1 s W1) as (m2 & E2 & W2 & C2 & L2); [lia|]. exists m2. split; [exact E2|].
    split; [exact W2|]. split; [|eapply local_trans; eauto]. rewrite C2, C1, !Nat2Z.id. reflexivity.
Qed.
Lemma x_shuffle_ok js m s : wf m s ->
  exists m', x_shuffle js m s = Ret m' /\ became m s m' s (fisher_yates js (length (contents m s) - 1) (contents m s)).
Proof.
  intros W. rewrite (contents_length m s W). apply shuffle_loop_ok; [exact W|]. unfold len. lia.
Qed.

Lemma drop_cons l i x : l !! i = Some x -> drop i l = x :: drop (S i) l.
Proof. intros H. apply drop_S. exact H. Qed.

Lemma filter_loop_ok {B} (f : B -> A -> B * bool) k : forall m s idx n b l0,
  wf m s -> idx + k = sl_len s -> n <= idx -> length l0 = sl_len s -> drop idx (contents m s) = drop idx l0 ->
  exists m' n', filter_loop f k m s (Z.of_nat idx) (Z.of_nat n) b = Ret (m', Z.of_nat n', (keep f b (drop idx l0)).1) /\
    n' <= sl_len s /\
    wf m' s /\ local m s m' s /\ take n' (contents m' s) = take n (contents m s) ++ (keep f b (drop idx l0)).2.
Proof.
  induction k as [|k IH]; intros m s idx n b l0 W Hk Hn Hl Hd; cbn [filter_loop].
  - exists m, n. rewrite (drop_ge l0) by lia. cbn. rewrite app_nil_r.
    split; [reflexivity|]. split; [lia|]. split; [exact W|]. split; [apply local_refl|reflexivity].
  - destruct (sl_get_ok m s (Z.of_nat idx) W) as (x & Ex & Gx); [lia|]. rewrite Gx. cbn [rbind]. rewrite Nat2Z.id in Ex.
    assert (Ex0 : l0 !! idx = Some x).
    { rewrite <- (Nat.add_0_r idx), <- lookup_drop, <- Hd, lookup_drop, Nat.add_0_r. exact Ex. }
    rewrite (drop_cons l0 idx x Ex0). cbn [keep]. destruct (f b x) as [b1 [|]].
    + destruct (set_became m s (Z.of_nat n) x W) as (m1 & E1 & W1 & C1 & L1); [unfold len; lia|]. rewrite E1. cbn [rbind].
      rewrite Nat2Z.id in C1. specialize (IH m1 s (S idx) (S n) b1 l0 W1).
      destruct IH as (m2 & n' & E2 & Hn' & W2 & L2 & C2); [lia|lia|exact Hl| |].
      { rewrite C1, drop_insert_gt by lia. rewrite <- (Nat.add_1_r idx), <- !drop_drop, Hd. reflexivity. }
      replace (Z.of_nat (S idx)) with (Z.of_nat idx + 1)%Z in E2 by lia. replace (Z.of_nat (S n)) with (Z.of_nat n + 1)%Z in E2 by lia.
      exists m2, n'. rewrite E2. destruct (keep f b1 (drop (S idx) l0)) as [b2 r]. cbn [fst snd] in *.
      split; [reflexivity|]. split; [exact Hn'|]. split; [exact W2|]. split; [eapply local_trans; eauto|].
      rewrite C2, C1. rewrite (take_S_r _ n x) by (apply list_lookup_insert; rewrite contents_length by exact W; lia).
      rewrite take_insert by lia. rewrite <- app_assoc. reflexivity.
    + specialize (IH m s (S idx) n b1 l0 W).
      destruct IH as (m2 & n' & E2 & Hn' & W2 & L2 & C2); [lia|lia|exact Hl| |].
      { rewrite <- (Nat.add_1_r idx), <- !drop_drop, Hd. reflexivity. }
      replace (Z.of_nat (S idx)) with (Z.of_nat idx + 1)%Z in E2 by lia.
      exists m2, n'. rewrite E2. destruct (keep f b1 (drop (S idx) l0)) as [b2 r]. cbn [fst snd] in *. auto 6.
Qed.
Lemma x_filter_ok {B} (f : B -> A -> B * bool) m s b : wf m s ->
  exists m' t, x_filter f m s b = Ret (m', t, (keep f b (contents m s)).1) /\ became m s m' t (keep f b (contents m s)).2.
Proof.
  intros W. unfold x_filter.
  destruct (filter_loop_ok f (sl_len s) m s 0 0 b (contents m s) W) as (m' & n' & E & Hn & W' & L' & C');
    [lia|lia|apply contents_length, W|reflexivity|].
  change (Z.of_nat 0) with 0%Z in E. rewrite E. cbn [rbind]. rewrite drop_0 in *.
  destruct (sub_became m' s 0 (Z.of_nat n') W') as (t & Et & (Wt & Ct & Lt) & _); [lia|unfold len; lia|].
  rewrite Et. cbn [rbind]. exists m', t. split; [reflexivity|]. split; [exact Wt|].
  split; [|eapply local_trans; eauto]. rewrite Ct, drop_0, Z.sub_0_r, Nat2Z.id, C'. reflexivity.
Qed.

Lemma repeat_loop_ok g k : forall m s r l, wf m s -> wf m r -> contents m s = l -> (sl_cap s = 0 \/ sl_cap r = 0 \/ sl_arr s <> sl_arr r) ->
  exists m' r', repeat_loop zero g k m s r = (m', r') /\ became m r m' r' (contents m r ++ concat (replicate k l)).
Proof.
  induction k as [|k IH]; intros m s r l Ws Wr Hl Hd; cbn [repeat_loop replicate concat].
  - exists m, r. split; [reflexivity|]. rewrite app_nil_r. apply became_refl, Wr.
  - pose proof (append_became zero (g k) m r (contents m s) Wr) as (W1 & C1 & L1).
    destruct (append zero (g k) m r (contents m s)) as [m1 r1]. cbn [fst snd] in *.
    destruct (local_other m r m1 r1 s L1 Ws) as [Ws1 Cs1]; [tauto|].
    destruct (IH m1 s r1 l Ws1 W1) as (m' & r' & E & W' & C' & L'); [congruence| |].
    { destruct L1 as (_ & _ & [H|[H|[H H']]]); [auto| |].
      - destruct (decide (sl_cap s = 0)) as [|Hc]; [auto|]. right; right. pose proof (wf_arr m s Ws ltac:(lia)). lia.
      - rewrite H. tauto. }
    exists m', r'. split; [exact E|]. split; [exact W'|]. split; [|eapply local_trans; eauto].
    rewrite C', C1, Hl, <- app_assoc. reflexivity.
Qed.
Lemma x_repeat_ok g m s cnt : wf m s -> (0 <= cnt)%Z -> (len s * cnt <= maxlen)%Z -> (maxlen < 2^63)%Z ->
  exists m' t, x_repeat zero maxlen g m s cnt = Ret (m', t) /\
    became m s m' t (concat (replicate (Z.to_nat cnt) (contents m s))).
Proof.
  intros W Hc Hm Hx. unfold x_repeat. pose proof (len_nonneg s).
  assert (0 <= len s * cnt)%Z by nia. rewrite i64_id by (unfold is_i64; lia).
  destruct (Z.ltb_spec (len s * cnt) 0); [lia|]. destruct (Z.ltb_spec maxlen (len s * cnt)); [lia|]. cbn [orb].
  set (c := Z.to_nat (len s * cnt)). set (r := Sl (length m) 0 0 c). set (m1 := m ++ [replicate c zero]).
  assert (G : grown m m1) by (split; [unfold m1; rewrite app_length; lia|intros; apply arr_app_old; assumption]).
  destruct (grown_wf m m1 s G W) as [W1 C1].
  assert (Wr : wf m1 r).
  { split; cbn; [lia|]. unfold window. cbn. unfold m1. rewrite arr_app_new, drop_0, take_ge by (rewrite replicate_length; lia).
    apply replicate_length. }
  destruct (repeat_loop_ok g (Z.to_nat cnt) m1 s r (contents m s) W1 Wr C1) as (m' & t & E & W' & C' & L').
  { destruct (decide (sl_cap s = 0)); [auto|]. right; right. pose proof (wf_arr m s W ltac:(lia)). cbn. lia. }
  exists m', t. split; [rewrite <- E; reflexivity|]. split; [exact W'|]. split; [exact C'|].
  destruct L' as (La & Lb & Lc), G as [Ga Gb]. split; [lia|]. split.
  - intros b Hb _. rewrite Lb; [apply Gb; exact Hb|lia|left; cbn; lia].
  - destruct Lc as [H3|[H3|[H3 _]]]; [auto|right; left; lia|right; left; cbn in H3; lia].
Qed.
Lemma x_repeat_negative g m s cnt : (is_i64 (len s * cnt))%Z -> (cnt < 0)%Z -> (0 < len s)%Z -> x_repeat zero maxlen g m s cnt = Panic.
Proof.
  intros Hi Hc Hl. unfold x_repeat. rewrite i64_id by exact Hi. destruct (Z.ltb_spec (len s * cnt) 0); [reflexivity|nia].
Qed.
Lemma x_repeat_big g m s cnt : (is_i64 (len s * cnt))%Z -> (maxlen < len s * cnt)%Z -> x_repeat zero maxlen g m s cnt = Panic.
Proof.
  intros Hi Hc. unfold x_repeat. rewrite i64_id by exact Hi. destruct (Z.ltb_spec maxlen (len s * cnt)); [|lia]. rewrite orb_true_r. reflexivity.
Qed.

(** *** Split, Batch *)
Definition segment l (x : list A) : Prop := exists a n, a + n <= length l /\ x = take n (drop a l).
Lemma split_loop_any m s splits : forall e, wf m s -> (0 <= e <= len s)%Z ->
  exists ps e', split_loop s splits e = Ret (ps, e') /\ (0 <= e' <= len s)%Z /\
    Forall (fun p => wf m p /\ segment (contents m s) (contents m p)) ps /\ length ps = length splits.
Proof.
  induction splits as [|d r IH]; intros e W He; cbn [split_loop].
  - exists [], e. auto.
  - rewrite preproc1_spec by lia. set (n := Z.max 0 (Z.min (i64 (e + d)) (len s))). pose proof (contents_length m s W) as L.
    destruct (Z.ltb_spec n e) as [Hlt|Hge].
    + destruct (sub_became m s n e W) as (p & Ep & (Wp & Cp & _) & _); [lia|lia|]. rewrite Ep. cbn [rbind].
      destruct (IH n W) as (ps & e' & -> & He' & HF & HL); [lia|]. cbn [rbind]. exists (p :: ps), e'. split; [reflexivity|]. split; [exact He'|].
      split; [|cbn; congruence]. constructor; [|exact HF]. split; [exact Wp|]. exists (Z.to_nat n), (Z.to_nat (e - n)). split; [unfold len in *; lia|exact Cp].
    + destruct (sub_became m s e n W) as (p & Ep & (Wp & Cp & _) & _); [lia|lia|]. rewrite Ep. cbn [rbind].
      destruct (IH n W) as (ps & e' & -> & He' & HF & HL); [lia|]. cbn [rbind]. exists (p :: ps), e'. split; [reflexivity|]. split; [exact He'|].
      split; [|cbn; congruence]. constructor; [|exact HF]. split; [exact Wp|]. exists (Z.to_nat e), (Z.to_nat (n - e)). split; [unfold len in *; lia|exact Cp].
Qed.
Lemma x_split_any m s splits : wf m s ->
  exists ps, x_split s splits = Ret ps /\ Forall (fun p => wf m p /\ segment (contents m s) (contents m p)) ps.
Proof.
  intros W. unfold x_split. pose proof (len_nonneg s). destruct (split_loop_any m s splits 0 W) as (ps & e & -> & He & HF & _); [lia|]. cbn [rbind].
  destruct (Z.ltb_spec e (len s)) as [Hlt|Hge]; [|eauto].
  destruct (sub_became m s e (len s) W) as (p & Ep & (Wp & Cp & _) & _); [lia|lia|]. rewrite Ep. cbn [rbind].
  exists (ps ++ [p]). split; [reflexivity|]. apply Forall_app. split; [exact HF|]. constructor; [|constructor]. split; [exact Wp|].
  pose proof (contents_length m s W). exists (Z.to_nat e), (Z.to_nat (len s - e)). split; [unfold len in *; lia|exact Cp].
Qed.
(** every size is non-negative and no running position overflows *)
Fixpoint sizes_fit (n e : Z) (splits : list Z) : Prop :=
  match splits with
  | [] => True
  | d :: r => (0 <= d /\ e + d < 2^63)%Z /\ sizes_fit n (Z.min (e + d) n) r
  end.
Lemma split_loop_nonneg m s splits : forall e, wf m s -> (0 <= e <= len s)%Z -> sizes_fit (len s) e splits ->
  exists ps e', split_loop s splits e = Ret (ps, e') /\ (0 <= e' <= len s)%Z /\ Forall (wf m) ps /\
    map (contents m) ps ++ match drop (Z.to_nat e') (contents m s) with [] => [] | x => [x] end
    = split_list (drop (Z.to_nat e) (contents m s)) (map Z.to_nat splits).
Proof.
  induction splits as [|d r IH]; intros e W He HS; cbn [split_loop].
  - exists [], e. split; [reflexivity|]. split; [exact He|]. split; [constructor|]. cbn. destruct (drop _ _); reflexivity.
  - destruct HS as [[Hd Ho] HS']. rewrite preproc1_spec by lia. rewrite i64_id by (unfold is_i64; lia).
    replace (Z.max 0 (Z.min (e + d) (len s))) with (Z.min (e + d) (len s)) by lia.
    set (n := Z.min (e + d) (len s)) in *. pose proof (contents_length m s W) as L.
    destruct (Z.ltb_spec n e) as [Hlt|Hge]; [lia|].
    destruct (sub_became m s e n W) as (p & Ep & (Wp & Cp & _) & _); [lia|lia|]. rewrite Ep. cbn [rbind].
    destruct (IH n W) as (ps & e' & -> & He' & HF & HL); [lia|exact HS'|]. cbn [rbind]. exists (p :: ps), e'.
    split; [reflexivity|]. split; [exact He'|]. split; [constructor; assumption|]. cbn [map app split_list]. rewrite HL, Cp, drop_drop.
    f_equal.
    + destruct (decide (e + d <= len s)%Z).
      * f_equal. lia.
      * rewrite !take_ge by (rewrite drop_length; unfold len in *; lia). reflexivity.
    + f_equal. destruct (decide (e + d <= len s)%Z).
      * f_equal. lia.
      * rewrite !drop_ge by (unfold len in *; lia). reflexivity.
Qed.
Lemma sizes_fit_forall n splits : forall e, (e <= n)%Z -> Forall (fun d => 0 <= d /\ n + d < 2^63)%Z splits -> sizes_fit n e splits.
Proof.
  induction splits as [|d r IH]; intros e He H; cbn; [exact I|]. inversion H; subst. split; [lia|]. apply IH; [lia|assumption].
Qed.
Lemma x_split_nonneg m s splits : wf m s -> sizes_fit (len s) 0 splits ->
  exists ps, x_split s splits = Ret ps /\ Forall (wf m) ps /\
    map (contents m) ps = split_list (contents m s) (map Z.to_nat splits).
Proof.
  intros W HS. unfold x_split. pose proof (len_nonneg s). pose proof (contents_length m s W) as L.
  destruct (split_loop_nonneg m s splits 0 W) as (ps & e & -> & He & HF & HL); [lia|exact HS|]. cbn [rbind]. rewrite drop_0 in HL.
  destruct (Z.ltb_spec e (len s)) as [Hlt|Hge].
  - destruct (sub_became m s e (len s) W) as (p & Ep & (Wp & Cp & _) & _); [lia|lia|]. rewrite Ep. cbn [rbind].
    exists (ps ++ [p]). split; [reflexivity|]. split; [apply Forall_app; auto|].
    rewrite map_app, <- HL. f_equal. cbn. rewrite Cp, take_ge by (rewrite drop_length; unfold len in *; lia).
    destruct (drop (Z.to_nat e) (contents m s)) eqn:ED; [|reflexivity].
    apply (f_equal length) in ED. rewrite drop_length in ED. cbn in ED. unfold len in *. lia.
  - exists ps. split; [reflexivity|]. split; [exact HF|]. rewrite <- HL. rewrite drop_ge by (unfold len in *; lia). rewrite app_nil_r. reflexivity.
Qed.
Lemma x_batch_ok m s size : wf m s -> (len s < 2^63)%Z -> is_i64 size ->
  exists ps, x_batch s size = Ret ps /\ Forall (wf m) ps /\
    map (contents m) ps = split_list (contents m s) (replicate (length (contents m s) / Z.to_nat (Z.max 1 size)) (Z.to_nat (Z.max 1 size))).
Proof.
  intros W Hl Hs. unfold x_batch. pose proof (len_nonneg s). pose proof (contents_length m s W) as L.
  replace (if (size <=? 0)%Z then 1%Z else size) with (Z.max 1 size) by (destruct (Z.leb_spec size 0); lia).
  set (n := Z.max 1 size). assert (Hn : (0 < n)%Z) by lia.
  assert (Ek : Z.to_nat (len s ÷ n) = length (contents m s) / Z.to_nat n).
  { rewrite Z.quot_div_nonneg by lia. rewrite L. unfold len. rewrite <- (Z2Nat.id n) at 1 by lia.
    rewrite <- Nat2Z.inj_div, Nat2Z.id. reflexivity. }
  rewrite Ek. set (k := length (contents m s) / Z.to_nat n) in *.
  destruct (x_split_nonneg m s (replicate k n) W) as (ps & -> & HF & HL).
  - assert (Hk : (Z.of_nat k * n <= len s)%Z).
    { unfold k. pose proof (Nat.mul_div_le (length (contents m s)) (Z.to_nat n) ltac:(lia)) as H1. unfold len. rewrite <- L. nia. }
    assert (G : forall j e, (0 <= e)%Z -> (e + Z.of_nat j * n <= len s)%Z -> sizes_fit (len s) e (replicate j n)).
    { induction j as [|j IH]; intros e He Hj; cbn [replicate sizes_fit]; [exact I|]. split; [nia|].
      replace (Z.min (e + n) (len s)) with (e + n)%Z by nia. apply IH; nia. }
    apply G; lia.
  - exists ps. split; [reflexivity|]. split; [exact HF|]. rewrite HL. f_equal. clear. induction k; cbn; congruence.
Qed.

(** *** read-only loops *)
Lemma join_loop_ok {C} (show : A -> list C) sep m s k : forall i r, wf m s -> i + k = sl_len s ->
  join_loop show sep k m s (Z.of_nat i) r
  = Ret (r ++ (if i =? 0 then joined sep (map show (drop i (contents m s)))
               else concat (map (fun y => sep ++ y) (map show (drop i (contents m s)))))).
Proof.
  induction k as [|k IH]; intros i r W Hk; cbn [join_loop].
  - rewrite drop_ge by (rewrite contents_length by exact W; lia). destruct (i =? 0); cbn; rewrite app_nil_r; reflexivity.
  - destruct (sl_get_ok m s (Z.of_nat i) W) as (x & Ex & Gx); [lia|]. rewrite Gx. cbn [rbind]. rewrite Nat2Z.id in Ex.
    rewrite (drop_cons _ i x Ex). replace (Z.of_nat i + 1)%Z with (Z.of_nat (S i)) by lia. rewrite IH by (auto; lia).
    destruct i as [|i]; [|replace (Z.of_nat (S i) =? 0)%Z with false by (symmetry; apply Z.eqb_neq; lia)]; cbn [Nat.eqb Z.of_nat Z.eqb map joined concat]; rewrite <- !app_assoc; reflexivity.
Qed.
Lemma x_join_ok {C} (show : A -> list C) sep m s : wf m s ->
  x_join show sep m s = Ret (joined sep (map show (contents m s))).
Proof. intros W. unfold x_join. change 0%Z with (Z.of_nat 0). rewrite (join_loop_ok show sep m s (sl_len s) 0 []) by (auto; lia). rewrite drop_0. reflexivity. Qed.

(** the recording callback: results depend on the predicate only *)
Lemma index_loop_ok (p : A -> bool) m s k : forall i log, wf m s -> i + k = sl_len s ->
  index_loop (logged p) k m s (Z.of_nat i) log
  = Ret (match list_find (fun x => p x = true) (drop i (contents m s)) with
         | Some (j, _) => Z.of_nat (i + j)
         | None => (-1)%Z
         end, log ++ seen_until_false (fun x => negb (p x)) (drop i (contents m s))).
Proof.
  induction k as [|k IH]; intros i log W Hk; cbn [index_loop].
  - rewrite drop_ge by (rewrite contents_length by exact W; lia). cbn. rewrite app_nil_r. reflexivity.
  - destruct (sl_get_ok m s (Z.of_nat i) W) as (x & Ex & Gx); [lia|]. rewrite Gx. cbn [rbind]. rewrite Nat2Z.id in Ex.
    rewrite (drop_cons _ i x Ex). cbn [logged list_find seen_until_false].
    destruct (p x) eqn:Ep; cbn [negb].
    + rewrite decide_True by reflexivity. rewrite Nat.add_0_r. reflexivity.
    + rewrite decide_False by discriminate. replace (Z.of_nat i + 1)%Z with (Z.of_nat (S i)) by lia.
      rewrite IH by (auto; lia). rewrite <- app_assoc. cbn [app].
      destruct (list_find _ (drop (S i) (contents m s))) as [[j y]|]; cbn; [|reflexivity].
      replace (i + S j) with (S (i + j)) by lia. reflexivity.
Qed.
Lemma contains_loop_ok (p : A -> bool) m s k : forall i log, wf m s -> i + k = sl_len s ->
  contains_loop (logged p) k m s (Z.of_nat i) log
  = Ret (existsb p (drop i (contents m s)), log ++ seen_until_false (fun x => negb (p x)) (drop i (contents m s))).
Proof.
  induction k as [|k IH]; intros i log W Hk; cbn [contains_loop].
  - rewrite drop_ge by (rewrite contents_length by exact W; lia). cbn. rewrite app_nil_r. reflexivity.
  - destruct (sl_get_ok m s (Z.of_nat i) W) as (x & Ex & Gx); [lia|]. rewrite Gx. cbn [rbind]. rewrite Nat2Z.id in Ex.
    rewrite (drop_cons _ i x Ex). cbn [logged existsb seen_until_false].
    destruct (p x) eqn:Ep; cbn [negb orb]; [reflexivity|].
    replace (Z.of_nat i + 1)%Z with (Z.of_nat (S i)) by lia. rewrite IH by (auto; lia). rewrite <- app_assoc. reflexivity.
Qed.
Lemma each_loop_ok {B} (f : B -> Z -> A -> B) m s k : forall i b, wf m s -> i + k = sl_len s ->
  each_loop f k m s (Z.of_nat i) b
  = Ret (fold_left (fun b p => f b (Z.of_nat p.1) p.2) (zip (seq i k) (drop i (contents m s))) b).
Proof.
  induction k as [|k IH]; intros i b W Hk; cbn [each_loop].
  - reflexivity.
  - destruct (sl_get_ok m s (Z.of_nat i) W) as (x & Ex & Gx); [lia|]. rewrite Gx. cbn [rbind]. rewrite Nat2Z.id in Ex.
    rewrite (drop_cons _ i x Ex). replace (Z.of_nat i + 1)%Z with (Z.of_nat (S i)) by lia. rewrite IH by (auto; lia). reflexivity.
Qed.
Lemma x_each_ok {B} (f : B -> A -> B) m s b : wf m s -> x_each f m s b = Ret (fold_left f (contents m s) b).
Proof.
  intros W. unfold x_each. change 0%Z with (Z.of_nat 0). rewrite (each_loop_ok _ m s (sl_len s) 0 b) by (auto; lia). rewrite drop_0. f_equal.
  rewrite <- (contents_length m s W). generalize 0 as i. revert b. induction (contents m s) as [|x l IH]; intros b i; [reflexivity|].
  cbn. apply IH.
Qed.
Lemma x_for_each_ok {B} (f : B -> Z -> A -> B) m s b : wf m s ->
  x_for_each f m s b = Ret (fold_left (fun b p => f b (Z.of_nat p.1) p.2) (imap pair (contents m s)) b).
Proof.
  intros W. unfold x_for_each. change 0%Z with (Z.of_nat 0). rewrite (each_loop_ok _ m s (sl_len s) 0 b) by (auto; lia). rewrite drop_0. f_equal.
  rewrite <- (contents_length m s W). f_equal.
  assert (G : forall l i, zip (seq i (length l)) l = imap (fun j x => (i + j, x)) l).
  { induction l as [|x l IH]; intros i; [reflexivity|]. cbn. rewrite Nat.add_0_r. f_equal. rewrite IH.
    apply imap_ext. intros j y _. cbn. f_equal. lia. }
  apply G.
Qed.
End Loops.
