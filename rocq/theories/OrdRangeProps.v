(** Range of dsx/mapx/ordmapx with callbacks that use the map (C111). *)
From Verif Require Import Base SplitMixModel SklSpec SklModel OrdMapSpec OrdMapModel OrdMapProofs OrdRangeModel OrdRangeProofs.

(** C111, full statement (false): whatever the callback does to the map except
    Clear it, each visit is of the smallest key present then above the last one,
    with its value.  A callback that deletes the key it visits and the next one
    is called with the deleted key and a zero value. *)
Definition deletes_two (n : nat) (k v : Z) : cprog Z Z nat :=
  if n =? 0 then PCall 0 (ODel k) (fun _ => PCall 0 (ODel (k + 1)%Z) (fun _ => PRet 1 false)) else PRet (S n) false.
Theorem ordmap_range_live_refuted :
  ~ (forall (seed : Z) (hist : list (Z * oop Z Z)) om (f : nat -> Z -> Z -> cprog Z Z nat) fuel,
     (run (o_step 0 0 Z.ltb Z.eqb) (ord_new 0 seed) hist)%Z.2 = Ret om ->
     (ord_range_prog 0%Z 0%Z Z.ltb Z.eqb fuel f 0 om).1
     = (live_range Z.ltb Z.eqb fuel f 0 (ideal_state (ord_step Z.ltb Z.eqb) [] hist.*2) Start).1).
Proof.
  intros H.
  specialize (H 9%Z [(0, OSet 1 10); (0, OSet 2 20); (0, OSet 3 30)]%Z).
  specialize (H _ deletes_two 3 ltac:(vm_compute; reflexivity)). vm_compute in H. discriminate.
Qed.
Print Assumptions ordmap_range_live_refuted.

(** C111, what holds (missing: a callback that deletes the key it visits and then
    goes on changing the map, or Clears it): for any map, any callback program and
    any number of visits, Range and the callback behave as on the live ideal map:
    same visits, same end, same callback state, same map. *)
Theorem ordmap_range_live_partial :
  forall (K V A : Type) (zeroK : K) (zeroV : V) (ltb eqb : K -> K -> bool),
  strict_weak_order ltb eqb ->
  forall (seed : Z) (hist : list (Z * oop K V)) om,
  (run (o_step zeroK zeroV ltb eqb) (ord_new zeroK seed) hist).2 = Ret om ->
  let m := ideal_state (ord_step ltb eqb) [] hist.*2 in
  forall (f : A -> K -> V -> cprog K V A),
  (forall a k v, gentle eqb k false (f a k v)) ->
  forall (fuel : nat) (a : A),
  let ideal := live_range ltb eqb fuel f a m Start in
  exists fin, ord_range_prog zeroK zeroV ltb eqb fuel f a om = (ideal.1, fin) /\
  match ideal.2 with
  | Ret (a', m') => exists om', fin = Ret (a', om') /\
      forall hist', exists om'', run (o_step zeroK zeroV ltb eqb) om' hist'
                    = (ideal_results (ord_step ltb eqb) m' hist'.*2, Ret om'')
  | Panic => False
  | Spin => fin = Spin
  end.
Proof.
  intros K V A zeroK zeroV ltb eqb SWO seed hist om Hr m f HG fuel a ideal.
  destruct (ord_run zeroK zeroV ltb eqb SWO _ [] hist (ord_new_rel zeroK ltb eqb seed)) as (om1 & H & HR).
  rewrite H in Hr. injection Hr as ->.
  destruct (range_live zeroK zeroV ltb eqb SWO f HG fuel a om m it_new Start (conj eq_refl HR)) as (fin & E & HF).
  exists fin. split; [exact E|]. subst ideal. destruct (live_range ltb eqb fuel f a m Start).2 as [[a' m']| |]; [|exact HF|exact HF].
  destruct HF as (om' & -> & HR'). exists om'. split; [reflexivity|]. intros hist'.
  destruct (ord_run zeroK zeroV ltb eqb SWO om' _ hist' HR') as (om'' & H' & _). eauto.
Qed.
Print Assumptions ordmap_range_live_partial.

(** such a Range ends after at most as many visits as there are keys, if no key
    above the one visited is set *)
Theorem ordmap_range_live_ends :
  forall (K V A : Type) (ltb eqb : K -> K -> bool),
  strict_weak_order ltb eqb ->
  forall (f : A -> K -> V -> cprog K V A),
  (forall a k v, no_set_above ltb k (f a k v)) ->
  forall (m : list (K * V)) (fuel : nat) (a : A), length m <= fuel ->
  exists r, (live_range ltb eqb fuel f a m Start).2 = Ret r.
Proof. intros K V A ltb eqb SWO f HG m fuel a Hf. exact (live_ends ltb eqb SWO f HG fuel a m Start Hf). Qed.
Print Assumptions ordmap_range_live_ends.

(** the callback doubles odd keys into the map, drops even ones, looks before it acts *)
Definition busy_callback (n : nat) (k v : Z) : cprog Z Z nat :=
  PCall 0 (OGet (2 * k)%Z) (fun r =>
    match r with
    | MVal None => if Z.odd k then PCall 0 (OSet (2 * k)%Z (v + 1)%Z) (fun _ => PRet (S n) false)
                   else PCall 0 (ODel k) (fun _ => PRet (S n) false)
    | _ => PCall 0 (ODel (2 * k)%Z) (fun _ => PRet (S n) false)
    end).
Example ordmap_range_live_nonvacuous :
  (forall a k v, gentle Z.eqb k false (busy_callback a k v)) /\
  exists om, (run (o_step 0 0 Z.ltb Z.eqb) (ord_new 0 9) [(0, OSet 5 50); (0, OSet 3 30); (0, OSet 6 60); (0, OSet 9 90)])%Z.2 = Ret om /\
  (ord_range_prog 0%Z 0%Z Z.ltb Z.eqb 9 busy_callback 0 om).1
  = [(3, 30); (5, 50); (9, 90); (10, 51); (18, 91)]%Z.
Proof.
  split.
  - intros a k v. unfold busy_callback. repeat split; try discriminate. intros [| |[x|]| | | | |]; cbn; repeat split; try discriminate;
      destruct (Z.odd k); cbn; repeat split; discriminate.
  - eexists. split; [vm_compute; reflexivity|]. vm_compute. reflexivity.
Qed.
