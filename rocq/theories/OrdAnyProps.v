(** Properties of dsx/mapx/ordmapx with NaN keys (C145). *)
From Verif Require Import Base SplitMixModel SklSpec SklModel SklProofs SklProps SklAnySpec SklAnyProofs SklAnyProps OrdMapSpec OrdMapModel OrdAnyProofs.

(** C145: == need only be symmetric and transitive (NaN is not equal to itself),
    and < may be anything: every call returns, and every Get answers the last write
    that no Del and no Clear follows. *)
Theorem ordmap_nan_get :
  forall (K V : Type) (zeroK : K) (zeroV : V) (ltb eqb : K -> K -> bool),
  (forall x y, eqb x y = true -> eqb y x = true) ->
  (forall x y z, eqb x y = true -> eqb y z = true -> eqb x z = true) ->
  forall (seed : Z) (hist : list (Z * oop K V)),
  exists om rs, run (o_step zeroK zeroV ltb eqb) (ord_new zeroK seed) hist = (rs, Ret om) /\
    forall i k, hist.*2 !! i = Some (OGet k) ->
      rs !! i = Some (MVal (last_write eqb k (rev (as_map <$> take i hist.*2)))).
Proof.
  intros K V zeroK zeroV ltb eqb Sym Tr seed hist.
  destruct (o_run_any zeroK zeroV ltb eqb Sym Tr hist _ _ _ (o_new_any zeroK eqb seed)) as (om & es & rs & E & _ & HG).
  exists om, rs. split; [exact E|]. intros i k Hi. rewrite (HG i k Hi), app_nil_r. reflexivity.
Qed.
Print Assumptions ordmap_nan_get.

(** Keys, Values and Len should show exactly the present keys (C09).  With NaN they
    do not: the Del of a key that a NaN hides takes it out of the Go map, and
    leaves it in the index: Keys and Len still have it, with the zero value. *)
Theorem ordmap_nan_index_refuted :
  forall seed : Z,
  (run (o_step None 0%Z float_ltb float_eqb) (ord_new None seed)
    [(0, OSet (Some 1) 10); (0, OSet None 20); (0, ODel (Some 1)); (0, OGet (Some 1)); (0, OLen); (0, OKeys); (0, OValues)]%Z).1
  = [MUnit; MUnit; MUnit; MVal None; MInt 2; MKeyList [None; Some 1%Z]; MValList [0; 0]%Z].
Proof.
  intros seed. cbn [run o_step snd fst]. unfold ord_set. cbn [gm_get o_m ord_new].
  pose proof (rep_new (None : option Z) tt [] seed ltac:(constructor)) as HR0.
  destruct (set_any None tt float_ltb float_eqb (fun _ => []) (fun _ => []) _ _ (Some 1%Z) tt HR0) as (s1 & es1 & E1 & HR1 & H1).
  assert (es1 = [(Some 1%Z, tt)]) as ->.
  { inversion H1 as [A B k v Hm|A B k v k0 v0 Hc He| | | | | | | | | |]; destruct A, B; try discriminate; reflexivity. }
  change (o_skl (ord_new None seed)) with (new_on (None : option Z) tt [] seed). rewrite E1. cbn [rbind o_m gm_get gomap_set float_eqb o_skl].
  destruct (set_any None tt float_ltb float_eqb (fun _ => []) (fun _ => []) s1 _ None tt HR1) as (s2 & es2 & E2 & HR2 & H2).
  rewrite E2. cbn [rbind o_skl]. unfold ord_del. cbn [o_m gm_get float_eqb Z.eqb Pos.eqb].
  apply (un_set _ _ float_isnan _ _ float_unordered) in H2 as [-> _]; [|reflexivity].
  destruct (del_any None tt float_ltb float_eqb (fun _ => []) (fun _ => []) s2 _ (Some 1%Z) HR2) as (s3 & es3 & b & E3 & HR3 & H3).
  cbn [o_skl]. rewrite E3. cbn [rbind o_m gm_del float_eqb Z.eqb Pos.eqb gm_get o_skl].
  assert (es3 = [(None, tt); (Some 1%Z, tt)]) as ->.
  { apply (step_keys_del float_ltb float_eqb) in H3 as H4. destruct H4 as [->|(A & B & k0 & Ees & -> & H0)]; [reflexivity|].
    exfalso. inversion H3 as [| | | |A' B' k Hm E4 Ek E5|A' B' k k1 v0 Hc He E4| | | | | |]; clear H3.
    - apply (f_equal length) in E5. rewrite E4, Ees in E5. rewrite !app_length in E5. cbn in E5. lia.
    - destruct A' as [|a [|a2 A']].
      + injection E4 as -> _ _. discriminate.
      + injection E4 as -> _. destruct Hc as [Hc _]. specialize (Hc _ eq_refl). discriminate.
      + apply (f_equal length) in E4. rewrite app_length in E4. cbn in E4. lia. }
  destruct (rep_entries None tt s3 _ HR3) as [He Hl]. rewrite Hl.
  unfold sk_keys. rewrite He. cbn [rbind].
  unfold ord_values. cbn [o_skl]. unfold sk_entries in He.
  rewrite (values_loop 0%Z float_eqb (OrdMap [(None, 20%Z)] s3) [(None, 20%Z)] _ _ _ eq_refl He). reflexivity.
Qed.
Print Assumptions ordmap_nan_index_refuted.

(** What remains: no present key is missing from Keys; Values shows for each of
    the Keys what Get answers, or the zero value; Len is the number of Keys and is
    at least the number of different present keys. *)
Theorem ordmap_nan_index_partial :
  forall (K V : Type) (zeroK : K) (zeroV : V) (ltb eqb : K -> K -> bool),
  (forall x y, eqb x y = true -> eqb y x = true) ->
  (forall x y z, eqb x y = true -> eqb y z = true -> eqb x z = true) ->
  forall (seed : Z) (hist : list (Z * oop K V)) (c : Z),
  let past := rev (as_map <$> hist.*2) in
  exists om rs keys, run (o_step zeroK zeroV ltb eqb) (ord_new zeroK seed) hist = (rs, Ret om) /\
    o_step zeroK zeroV ltb eqb om (c, OKeys) = Ret (om, MKeyList keys) /\
    o_step zeroK zeroV ltb eqb om (c, OValues) = Ret (om, MValList ((fun k => default zeroV (last_write eqb k past)) <$> keys)) /\
    o_step zeroK zeroV ltb eqb om (c, OLen) = Ret (om, MInt (Z.of_nat (length keys))) /\
    (forall k, is_Some (last_write eqb k past) -> exists k', k' ∈ keys /\ eqb k' k = true) /\
    (forall ks, (forall i j x y, ks !! i = Some x -> ks !! j = Some y -> i <> j -> eqb x y = false) ->
       (forall k, k ∈ ks -> is_Some (last_write eqb k past)) -> length ks <= length keys).
Proof.
  intros K V zeroK zeroV ltb eqb Sym Tr seed hist c past.
  destruct (o_run_any zeroK zeroV ltb eqb Sym Tr hist _ _ _ (o_new_any zeroK eqb seed)) as (om & es & rs & E & HJ & _).
  rewrite app_nil_r in HJ. fold past in HJ. exists om, rs, es.*1. split; [exact E|].
  assert (Hone : forall o, (o = OKeys \/ o = OValues \/ o = OLen) -> exists r, o_step zeroK zeroV ltb eqb om (c, o) = Ret (om, r) /\ answer_ok zeroV eqb es past o r).
  { intros o Ho. destruct (o_step_any zeroK zeroV ltb eqb Sym Tr om es past (c, o) HJ) as (om' & es' & r & Es & _ & Ha & _).
    exists r. split; [|exact Ha]. rewrite Es. f_equal. f_equal.
    destruct Ho as [-> | [-> | ->]]; unfold o_step in Es; cbn [snd] in Es.
    - destruct (sk_keys (o_skl om)); cbn [rbind] in Es; congruence.
    - destruct (ord_values zeroV eqb om); cbn [rbind] in Es; congruence.
    - congruence. }
  destruct (Hone OKeys) as (r1 & E1 & A1); [auto|]. destruct (Hone OValues) as (r2 & E2 & A2); [auto|]. destruct (Hone OLen) as (r3 & E3 & A3); [auto|].
  cbn in A1, A2, A3. subst r1 r2 r3. split; [exact E1|]. split; [exact E2|]. split; [rewrite fmap_length; exact E3|].
  assert (Hc : forall k, is_Some (last_write eqb k past) -> exists k', k' ∈ es.*1 /\ eqb k' k = true).
  { intros k Hk. apply (oj_cover _ _ _ _ _ HJ). rewrite (oj_get _ _ _ _ _ HJ). exact Hk. }
  split; [exact Hc|]. intros ks Hd Hp. apply (count_cover eqb Sym Tr); [exact Hd|]. intros k Hk. apply Hc, Hp, Hk.
Qed.
Print Assumptions ordmap_nan_index_partial.

(** NaN keys are in Keys once for each Set since the last Clear; nothing else
    removes them, and Get does not find them. *)
Theorem ordmap_nan_keys :
  forall (K V : Type) (zeroK : K) (zeroV : V) (ltb eqb : K -> K -> bool) (kind : K -> bool),
  (forall x y, eqb x y = true -> eqb y x = true) ->
  (forall x y z, eqb x y = true -> eqb y z = true -> eqb x z = true) ->
  unordered ltb eqb kind ->
  forall (seed : Z) (hist : list (Z * oop K V)),
  exists om rs keys, run (o_step zeroK zeroV ltb eqb) (ord_new zeroK seed) hist = (rs, Ret om) /\
    sk_keys (o_skl om) = Ret keys /\
    List.filter kind keys = (recent_sets kind (rev (as_map <$> hist.*2))).*1 /\
    (forall k, kind k = true -> gm_get eqb (o_m om) k = None).
Proof.
  intros K V zeroK zeroV ltb eqb kind Sym Tr U seed hist.
  destruct (o_run_kinds zeroK zeroV ltb eqb Sym Tr kind U hist _ _ _ (o_new_any zeroK eqb seed) eq_refl) as (om & es & rs & E & HJ & Hk).
  exists om, rs, es.*1. split; [exact E|]. rewrite app_nil_r in Hk.
  destruct (rep_entries zeroK tt (o_skl om) es (oj_rep _ _ _ _ _ HJ)) as [He _].
  split; [unfold sk_keys; rewrite He; reflexivity|]. split.
  - rewrite <- Hk. unfold kkinds. clear. induction es as [|e es IH]; [reflexivity|]. rewrite kinds_cons. cbn. destruct (kind e.1); cbn; rewrite IH; reflexivity.
  - intros k Hkk. apply (get_kind ltb eqb kind U). exact Hkk.
Qed.
Print Assumptions ordmap_nan_keys.

Lemma float_per : (forall x y, float_eqb x y = true -> float_eqb y x = true) /\
  (forall x y z, float_eqb x y = true -> float_eqb y z = true -> float_eqb x z = true).
Proof.
  split.
  - intros [x|] [y|]; cbn; try discriminate. rewrite !Z.eqb_eq. auto.
  - intros [x|] [y|] [z|]; cbn; try discriminate. rewrite !Z.eqb_eq. congruence.
Qed.
(** a hidden key is Set again, and is in Keys twice; Get is right throughout *)
Example ordmap_nan_case :
  (run (o_step None 0%Z float_ltb float_eqb) (ord_new None 1)
    [(0, OSet (Some 1) 10); (0, OSet None 20); (0, OGet (Some 1)); (0, ODel (Some 1)); (0, OSet (Some 1) 30); (0, OGet (Some 1));
     (0, ODel None); (0, OKeys); (0, OValues); (5, OClear); (0, OLen)]%Z).1
  = [MUnit; MUnit; MVal (Some 10%Z); MUnit; MUnit; MVal (Some 30%Z); MUnit; MKeyList [Some 1%Z; None; Some 1%Z];
     MValList [30; 0; 30]%Z; MUnit; MInt 0].
Proof. vm_compute. reflexivity. Qed.
