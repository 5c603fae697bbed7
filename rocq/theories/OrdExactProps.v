(** C126: what programs that range over an OrdMap of dsx/mapx/ordmapx do, exactly. *)
From Verif Require Import Base SplitMixModel SklSpec SklModel OrdMapSpec OrdMapModel OrdMapProofs SklExactSpec OrdExactSpec OrdExactModel OrdExactProofs.

(** For all maps that any history of calls leads to, and for all programs that call methods
    and Range with callbacks that do the same (nested Ranges, callbacks that delete the key
    they visit, the following ones, or Clear the map): the calls of callbacks, their keys,
    values and order, are those of the specification; the program ends, panics or goes on
    for more than the number of visits allowed when the specification does; it ends with the
    same state, and the map then answers every later history like the specification's. *)
Theorem ordmap_programs_exact :
  forall (K V A : Type) (zeroK : K) (zeroV : V) (ltb eqb : K -> K -> bool),
  strict_weak_order ltb eqb ->
  forall (seed : Z) (hist : list (Z * oop K V)) om,
  (run (o_step zeroK zeroV ltb eqb) (ord_new zeroK seed) hist).2 = Ret om ->
  let m := ideal_state (ord_step ltb eqb) [] hist.*2 in
  forall (n : nat) (p : nprog K V A),
  let got := nexec zeroK zeroV ltb eqb n p om in
  let want := sexec zeroK zeroV ltb eqb n p (m, []) in
  got.1 = want.1 /\
  match want.2 with
  | Ret (a, (m', _), stop) => exists om', got.2 = Ret (a, om', stop) /\
      forall hist', exists om'', run (o_step zeroK zeroV ltb eqb) om' hist' = (ideal_results (ord_step ltb eqb) m' hist'.*2, Ret om'')
  | Panic => got.2 = Panic
  | Spin => got.2 = Spin
  end.
Proof.
  intros K V A zeroK zeroV ltb eqb SWO seed hist om Hr m n p got want.
  destruct (ord_run zeroK zeroV ltb eqb SWO _ [] hist (ord_new_rel zeroK ltb eqb seed)) as (om1 & H & locs & HR).
  rewrite H in Hr. injection Hr as ->.
  assert (HY : Y zeroK ltb eqb om [] (m, [])) by (exists locs; split; [exact HR|constructor]).
  destruct (exec_sim (A := A) zeroK zeroV ltb eqb SWO n p om [] (m, []) HY) as [H1 H2]. fold got want in H1, H2. unfold swap in H1, H2. cbn [fst snd] in H1, H2.
  split; [exact H1|]. destruct want.2 as [[[a [m' cs]] stop]| |], got.2 as [[[a2 om2] stop2]| |]; try contradiction; try reflexivity.
  destruct H2 as [[= -> ->] (locs2 & HR2 & _)]. exists om2. split; [reflexivity|]. intros hist'.
  destruct (ord_run zeroK zeroV ltb eqb SWO om2 _ hist' ltac:(exists locs2; exact HR2)) as (om'' & H' & _). eauto.
Qed.
Print Assumptions ordmap_programs_exact.

(** A program that never calls Clear, in no callback, never panics. *)
Theorem ordmap_programs_no_panic :
  forall (K V A : Type) (zeroK : K) (zeroV : V) (ltb eqb : K -> K -> bool),
  strict_weak_order ltb eqb ->
  forall (seed : Z) (hist : list (Z * oop K V)) om,
  (run (o_step zeroK zeroV ltb eqb) (ord_new zeroK seed) hist).2 = Ret om ->
  forall (n : nat) (p : nprog K V A), no_clear p -> (nexec zeroK zeroV ltb eqb n p om).2 <> Panic.
Proof.
  intros K V A zeroK zeroV ltb eqb SWO seed hist om Hr n p Hp E.
  destruct (ordmap_programs_exact K V A zeroK zeroV ltb eqb SWO seed hist om Hr n p) as [_ H]. rewrite E in H.
  pose proof (sexec_calm zeroK zeroV ltb eqb n p Hp (ideal_state (ord_step ltb eqb) [] hist.*2, []) (Forall_nil_2 _)) as HC. unfold calm in HC.
  destruct (sexec zeroK zeroV ltb eqb n p _).2 as [[[a [m' cs]] stop]| |]; [|contradiction|discriminate]. destruct H as (om' & H & _). discriminate.
Qed.
Print Assumptions ordmap_programs_no_panic.

(** The number of visits allowed does not matter to a program that ends (or panics) with it. *)
Theorem ordmap_programs_bound_irrelevant :
  forall (K V A : Type) (zeroK : K) (zeroV : V) (ltb eqb : K -> K -> bool) (n n' : nat) (p : nprog K V A) st,
  n <= n' -> (sexec zeroK zeroV ltb eqb n p st).2 <> Spin -> sexec zeroK zeroV ltb eqb n' p st = sexec zeroK zeroV ltb eqb n p st.
Proof. intros. apply sexec_more; assumption. Qed.
Print Assumptions ordmap_programs_bound_irrelevant.

(** A Range in whose first visit an inner Range deletes 1 and 2 and stops at 3: the outer one
    goes on to 2, which is deleted (so with the value 0), then to 3; there the map is
    Cleared: after the old key 4 (0 again) comes the key 0, and Range panics. *)
Example ordmap_programs_nonvacuous :
  let body (a : nat) (k v : Z) : nprog Z Z nat :=
    match a with
    | 0 => NRange (fun b k v => if (k =? 3)%Z then NRet b true else NCall 0%Z (ODel k) (fun _ => NRet (S b) false)) a (fun b => NRet b false)
    | 2 => if (k =? 3)%Z then NCall 7%Z OClear (fun _ => NRet a false) else NRet a false
    | _ => NRet a false
    end in
  let om := match (run (o_step 0 0 Z.ltb Z.eqb) (ord_new 0 9) [(0, OSet 4 40); (0, OSet 1 10); (0, OSet 3 30); (0, OSet 2 20)])%Z.2 with Ret om => om | _ => ord_new 0%Z 9 end in
  nexec 0%Z 0%Z Z.ltb Z.eqb 20 (NRange body 0 (fun a => NRet a false)) om
  = ([(1, 10); (1, 10); (2, 20); (3, 30); (2, 0); (3, 30); (4, 0); (0, 0)]%Z, Panic).
Proof. vm_compute. reflexivity. Qed.
(** Nested Ranges that delete what they visit end. *)
Example ordmap_programs_no_panic_nonvacuous :
  let p : nprog Z Z nat := NRange (fun a k v => NRange (fun b k v => NCall 0%Z (ODel k) (fun _ => NRet (S b) (k =? 2)%Z)) a (fun b => NRet b false)) 0 (fun a => NRet a false) in
  no_clear p /\ (sexec 0%Z 0%Z Z.ltb Z.eqb 9 p ([(1, 10); (2, 20); (3, 30)]%Z, [])).1 = [(1, 10); (1, 10); (2, 20); (2, 0); (3, 30); (3, 0)]%Z.
Proof.
  split; [|vm_compute; reflexivity]. constructor; [|intros; constructor]. intros. constructor; [|intros; constructor]. intros. constructor; [discriminate|intros; constructor].
Qed.
