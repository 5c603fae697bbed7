(** Properties of dsx/mapx/ordmapx (C09-C11). *)
From Verif Require Import Base SplitMixModel SklSpec SklModel SklIterProofs OrdMapSpec OrdMapModel OrdMapProofs SklProps.

(** C09: every history returns what the ideal finite map returns; in particular
    the Go map and the key index never disagree (Len and Keys are answered from
    the index, Get from the Go map, Values from both). *)
Theorem ordmap_finite_map :
  forall (K V : Type) (zeroK : K) (zeroV : V) (ltb eqb : K -> K -> bool),
  strict_weak_order ltb eqb ->
  forall (seed : Z) (hist : list (Z * oop K V)),
  exists om, run (o_step zeroK zeroV ltb eqb) (ord_new zeroK seed) hist
             = (ideal_results (ord_step ltb eqb) [] hist.*2, Ret om).
Proof.
  intros K V zeroK zeroV ltb eqb SWO seed hist.
  destruct (ord_run zeroK zeroV ltb eqb SWO _ [] hist (ord_new_rel zeroK ltb eqb seed)) as (om & H & _). eauto.
Qed.
Print Assumptions ordmap_finite_map.

Example ordmap_nonvacuous :
  (run (o_step 0 0 Z.ltb Z.eqb) (ord_new 0 9)
     [(0, OSet 5 50); (0, OSet 3 30); (0, OSet 5 51); (0, OSet 4 40); (0, ODel 3); (0, ODel 7); (0, OKeys); (0, OValues);
      (0, OLen); (0, OGet 5); (3, OClear); (0, OLen); (0, OGet 5)])%Z.1
  = [MUnit; MUnit; MUnit; MUnit; MUnit; MUnit; MKeyList [4; 5]; MValList [40; 51]; MInt 2; MVal (Some 51); MUnit;
     MInt 0; MVal None]%Z.
Proof. vm_compute. reflexivity. Qed.

(** C10: Range visits the entries in ascending key order, once each, until the
    callback says stop, whatever state the callback keeps and whichever of the
    visited keys it deletes on the way; afterwards the map behaves as the ideal
    map without those keys.  ([ideal_range] walks the sorted entries.) *)
Theorem ordmap_range :
  forall (K V : Type) (zeroK : K) (zeroV : V) (ltb eqb : K -> K -> bool),
  strict_weak_order ltb eqb ->
  forall (seed : Z) (hist : list (Z * oop K V)) om,
  (run (o_step zeroK zeroV ltb eqb) (ord_new zeroK seed) hist).2 = Ret om ->
  let m := ideal_state (ord_step ltb eqb) [] hist.*2 in
  forall (A : Type) (f : A -> K -> V -> A * bool * bool) (a : A) (fuel : nat),
  length m <= fuel ->
  let ideal := ideal_range eqb f a m (sorted_entries ltb m) in
  exists om', ord_range zeroV eqb fuel (deleting_callback ltb eqb f) a om = (ideal.1, Ret (ideal.2.1, om')) /\
    forall hist', exists om'', run (o_step zeroK zeroV ltb eqb) om' hist'
                  = (ideal_results (ord_step ltb eqb) ideal.2.2 hist'.*2, Ret om'').
Proof.
  intros K V zeroK zeroV ltb eqb SWO seed hist om Hr m A f a fuel Hf ideal.
  destruct (ord_run zeroK zeroV ltb eqb SWO _ [] hist (ord_new_rel zeroK ltb eqb seed)) as (om1 & H & HR).
  rewrite H in Hr. injection Hr as ->.
  destruct (range_rel zeroK zeroV ltb eqb SWO f fuel a om m HR Hf) as (om' & E & HR').
  exists om'. split; [exact E|]. intros hist'.
  destruct (ord_run zeroK zeroV ltb eqb SWO om' _ hist' HR') as (om'' & H' & _). eauto.
Qed.
Print Assumptions ordmap_range.

(** the visits are strictly ascending and, without a stop, all the entries *)
Theorem ordmap_range_visits :
  forall (K V : Type) (ltb eqb : K -> K -> bool), 
  forall (m : list (K * V)) (A : Type) (f : A -> K -> V -> A * bool * bool) (a : A) es,
  exists rest, es = (ideal_range eqb f a m es).1 ++ rest /\
  ((forall a k v, (f a k v).2 = false) -> rest = []) /\
  ((forall a k v, (f a k v).2 = true) -> (ideal_range eqb f a m es).1 = take 1 es).
Proof.
  intros K V ltb eqb m A f a es. revert a m. induction es as [|[k v] es IH]; intros a m; cbn [ideal_range].
  - exists []. auto.
  - destruct (f a k v) as [[a' del] stop] eqn:Ef.
    destruct stop.
    + exists es. split; [reflexivity|]. split; [|reflexivity]. intros H. specialize (H a k v). rewrite Ef in H. discriminate.
    + destruct (IH a' (if del then map_del eqb m k else m)) as (rest & E & H1 & H2).
      destruct (ideal_range eqb f a' _ es) as [vs r]. cbn [fst] in *. exists rest. split; [cbn; f_equal; exact E|].
      split; [exact H1|]. intros H. specialize (H a k v). rewrite Ef in H. discriminate.
Qed.
Print Assumptions ordmap_range_visits.

(** ... and a callback that panics ends it there: Range has called it with the entries
    up to that one, and panics. *)
Definition panicking_callback {K V} (ltb eqb : K -> K -> bool) (bad del : K -> V -> bool) (_ : unit) (m : ordmap K V) (k : K) (v : V) : res (unit * ordmap K V * bool) :=
  if bad k v then Panic else let! m' := (if del k v then ord_del ltb eqb m k else Ret m) in Ret (tt, m', false).
Definition as_stop {K V} (bad del : K -> V -> bool) (_ : bool) (k : K) (v : V) : bool * bool * bool := if bad k v then (true, false, true) else (false, del k v, false).
Lemma range_panic {K V} (zeroV : V) (ltb eqb : K -> K -> bool) bad del fuel : forall om it vs b om',
  range_loop zeroV eqb fuel (deleting_callback ltb eqb (as_stop bad del)) false om it = (vs, Ret (b, om')) ->
  range_loop zeroV eqb fuel (panicking_callback ltb eqb bad del) tt om it = (vs, if b then Panic else Ret (tt, om')).
Proof.
  induction fuel as [|fuel IH]; intros om it vs b om'; cbn [range_loop]; destruct (it_next (o_skl om) it) as [[it' [[k u]|]]| |]; try discriminate;
    try (intros H; injection H as <- <- <-; reflexivity);
    unfold deleting_callback at 1, panicking_callback at 1, as_stop at 1; destruct (bad k _) eqn:B; try (intros H; injection H as <- <- <-; reflexivity);
    cbn [rbind]; destruct (del k _); cbn [rbind]; try destruct (ord_del ltb eqb om k) as [om1| |]; cbn [rbind]; try (intros H; discriminate H).
  - destruct (range_loop zeroV eqb fuel (deleting_callback ltb eqb (as_stop bad del)) false om1 it') as [vs1 r1] eqn:R1; intros H; injection H as <- ->; rewrite (IH _ _ _ _ _ R1); reflexivity.
  - destruct (range_loop zeroV eqb fuel (deleting_callback ltb eqb (as_stop bad del)) false om it') as [vs1 r1] eqn:R1; intros H; injection H as <- ->; rewrite (IH _ _ _ _ _ R1); reflexivity.
  - destruct (range_loop zeroV eqb fuel (deleting_callback ltb eqb (as_stop bad del)) false om it') as [vs1 r1] eqn:R1; intros H; injection H as <- ->; rewrite (IH _ _ _ _ _ R1); reflexivity.
  - destruct (range_loop zeroV eqb fuel (deleting_callback ltb eqb (as_stop bad del)) false om it') as [vs1 r1] eqn:R1; intros H; injection H as <- ->; rewrite (IH _ _ _ _ _ R1); reflexivity.
Qed.
Lemma as_stop_ideal {K V} (eqb : K -> K -> bool) bad del (es : list (K * V)) : forall m,
  (forall pre k v post, es = pre ++ (k, v) :: post -> Forall (fun e => bad e.1 e.2 = false) pre -> bad k v = true ->
    (ideal_range eqb (as_stop bad del) false m es).1 = pre ++ [(k, v)] /\ (ideal_range eqb (as_stop bad del) false m es).2.1 = true) /\
  (Forall (fun e => bad e.1 e.2 = false) es -> (ideal_range eqb (as_stop bad del) false m es).1 = es /\ (ideal_range eqb (as_stop bad del) false m es).2.1 = false).
Proof.
  induction es as [|[k1 v1] es IH]; intros m.
  - split; [|auto]. intros [|? ?]; discriminate.
  - cbn [ideal_range]. unfold as_stop at 1 3 5 7. specialize (IH (if del k1 v1 then map_del eqb m k1 else m)). split.
    + intros pre k v post E HF B. destruct pre as [|p pre].
      * injection E as -> -> ->. rewrite B. auto.
      * injection E as E0 E. subst p. apply Forall_cons in HF as [H1 HF]. cbn [fst snd] in H1. rewrite H1. destruct IH as [IH _]. specialize (IH _ _ _ _ E HF B).
        destruct (ideal_range eqb (as_stop bad del) false _ es) as [vs [b m']]. cbn in *. destruct IH as [-> ->]. auto.
    + intros HF. apply Forall_cons in HF as [H1 HF]. cbn [fst snd] in H1. rewrite H1. destruct IH as [_ IH]. specialize (IH HF).
      destruct (ideal_range eqb (as_stop bad del) false _ es) as [vs [b m']]. cbn in *. destruct IH as [-> ->]. auto.
Qed.
Theorem ordmap_range_panic :
  forall (K V : Type) (zeroK : K) (zeroV : V) (ltb eqb : K -> K -> bool),
  strict_weak_order ltb eqb ->
  forall (seed : Z) (hist : list (Z * oop K V)) om,
  (run (o_step zeroK zeroV ltb eqb) (ord_new zeroK seed) hist).2 = Ret om ->
  let m := ideal_state (ord_step ltb eqb) [] hist.*2 in
  forall (bad del : K -> V -> bool) (fuel : nat), length m <= fuel ->
  (forall pre k v post, sorted_entries ltb m = pre ++ (k, v) :: post -> Forall (fun e => bad e.1 e.2 = false) pre -> bad k v = true ->
     ord_range zeroV eqb fuel (panicking_callback ltb eqb bad del) tt om = (pre ++ [(k, v)], Panic)) /\
  (Forall (fun e => bad e.1 e.2 = false) (sorted_entries ltb m) ->
     exists om', ord_range zeroV eqb fuel (panicking_callback ltb eqb bad del) tt om = (sorted_entries ltb m, Ret (tt, om'))).
Proof.
  intros K V zeroK zeroV ltb eqb SWO seed hist om Hr m bad del fuel Hf.
  destruct (ordmap_range K V zeroK zeroV ltb eqb SWO seed hist om Hr bool (as_stop bad del) false fuel Hf) as (om' & E & _).
  apply range_panic in E. destruct (as_stop_ideal eqb bad del (sorted_entries ltb m) m) as [A1 A2]. split.
  - intros pre k v post E1 HF B. destruct (A1 pre k v post E1 HF B) as [H1 H2]. unfold ord_range. rewrite E. unfold m in *. rewrite H1, H2. reflexivity.
  - intros HF. destruct (A2 HF) as [H1 H2]. exists om'. unfold ord_range. rewrite E. unfold m in *. rewrite H1, H2. reflexivity.
Qed.
Print Assumptions ordmap_range_panic.
Example ordmap_range_panic_nonvacuous :
  exists om, (run (o_step 0 0 Z.ltb Z.eqb) (ord_new 0 9) [(0, OSet 5 50); (0, OSet 3 30); (0, OSet 4 40); (0, OSet 9 90)])%Z.2 = Ret om /\
  ord_range 0%Z Z.eqb 4 (panicking_callback Z.ltb Z.eqb (fun k _ => Z.eqb k 5) (fun k _ => Z.eqb k 3)) tt om = ([(3, 30); (4, 40); (5, 50)]%Z, Panic).
Proof. eexists. split; [vm_compute; reflexivity|]. vm_compute. reflexivity. Qed.

Example ordmap_range_nonvacuous :
  exists om, (run (o_step 0 0 Z.ltb Z.eqb) (ord_new 0 9) [(0, OSet 5 50); (0, OSet 3 30); (0, OSet 4 40); (0, OSet 9 90)])%Z.2 = Ret om /\
  let '(vs, r) := ord_range 0%Z Z.eqb 4 (deleting_callback Z.ltb Z.eqb (fun n k _ => (S n, Z.odd k, n =? 2))) 0 om in
  vs = [(3, 30); (4, 40); (5, 50)]%Z /\
  exists om', r = Ret (3, om') /\ (run (o_step 0 0 Z.ltb Z.eqb) om' [(0, OKeys)])%Z.1 = [MKeyList [4; 9]%Z].
Proof.
  eexists. split; [vm_compute; reflexivity|]. vm_compute. split; [reflexivity|]. eexists. split; reflexivity.
Qed.

(** C11 (natural statement, false on every non-empty map): a callback that Clears
    the map is then called with the remaining old keys and zero values, then with
    the zero key (the old tail sentinel), and then Range panics. *)
Theorem ordmap_range_clear_refuted :
  forall (K V : Type) (zeroK : K) (zeroV : V) (ltb eqb : K -> K -> bool),
  strict_weak_order ltb eqb ->
  forall (seed : Z) (hist : list (Z * oop K V)) om,
  (run (o_step zeroK zeroV ltb eqb) (ord_new zeroK seed) hist).2 = Ret om ->
  let m := ideal_state (ord_step ltb eqb) [] hist.*2 in
  forall (seeds : nat -> Z) (fuel : nat) k v es,
  sorted_entries ltb m = (k, v) :: es -> S (length m) <= fuel ->
  ord_range zeroV eqb fuel (clearing_callback zeroK seeds) 0 om
  = ((k, v) :: ((fun e => (e.1, zeroV)) <$> es) ++ [(zeroK, zeroV)], Panic).
Proof.
  intros K V zeroK zeroV ltb eqb SWO seed hist om Hr m seeds fuel k v es Hes Hf.
  destruct (ord_run zeroK zeroV ltb eqb SWO _ [] hist (ord_new_rel zeroK ltb eqb seed)) as (om1 & H & HR).
  rewrite H in Hr. injection Hr as ->.
  exact (range_clear zeroK zeroV ltb eqb SWO seeds fuel om m k v es HR Hes Hf).
Qed.
Print Assumptions ordmap_range_clear_refuted.

Example ordmap_range_clear_nonvacuous :
  exists om, (run (o_step 0 0 Z.ltb Z.eqb) (ord_new 0 9) [(0, OSet 5 50); (0, OSet 3 30)])%Z.2 = Ret om /\
  ord_range 0%Z Z.eqb 3 (clearing_callback 0%Z (fun _ => 1%Z)) 0 om = ([(3, 30); (5, 0); (0, 0)]%Z, Panic).
Proof. eexists. split; [vm_compute; reflexivity|]. vm_compute. reflexivity. Qed.

(** C11, the part that holds: a callback that Clears and stops ends the
    enumeration after the first entry and leaves an empty map. *)
Theorem ordmap_range_clear_partial :
  forall (K V : Type) (zeroK : K) (zeroV : V) (ltb eqb : K -> K -> bool),
  strict_weak_order ltb eqb ->
  forall (seed : Z) (hist : list (Z * oop K V)) om,
  (run (o_step zeroK zeroV ltb eqb) (ord_new zeroK seed) hist).2 = Ret om ->
  let m := ideal_state (ord_step ltb eqb) [] hist.*2 in
  forall (c : Z) (fuel : nat) k v es,
  sorted_entries ltb m = (k, v) :: es ->
  exists om', ord_range zeroV eqb fuel (fun (_ : unit) o _ _ => Ret (tt, ord_clear zeroK o c, true)) tt om
  = ([(k, v)], Ret (tt, om')) /\
    forall hist', exists om'', run (o_step zeroK zeroV ltb eqb) om' hist'
                  = (ideal_results (ord_step ltb eqb) [] hist'.*2, Ret om'').
Proof.
  intros K V zeroK zeroV ltb eqb SWO seed hist om Hr m c fuel k v es Hes.
  destruct (ord_run zeroK zeroV ltb eqb SWO _ [] hist (ord_new_rel zeroK ltb eqb seed)) as (om1 & H & HR).
  rewrite H in Hr. injection Hr as ->.
  destruct (range_clear_stop zeroK zeroV ltb eqb SWO c fuel om m k v es HR Hes) as (om' & E & HR').
  exists om'. split; [exact E|]. intros hist'.
  destruct (ord_run zeroK zeroV ltb eqb SWO om' _ hist' HR') as (om'' & H' & _). eauto.
Qed.
Print Assumptions ordmap_range_clear_partial.
