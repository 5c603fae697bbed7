(** A SkipListMap, its Iterator and an OrdMap declared with var (C169). *)
From Verif Require Import Base SplitMixModel SklSpec SklModel OrdMapSpec OrdMapModel RecModel RecProofs ZeroMapModel.

Section T.
Context (K V : Type) (zeroK : K) (zeroV : V) (ltb eqb : K -> K -> bool).
Context (showK : K -> list Z) (showV : V -> list Z).
Local Notation zi := (zi_step zeroK zeroV ltb eqb showK showV).
Local Notation zo := (zo_step zeroK zeroV ltb eqb).

(** a map made by New, every panic recovered *)
Definition made_step (st : skl K V * iter) (o : Z * iop K V) : (skl K V * iter) * res (iret K V) :=
  recovered st (i_step zeroK zeroV ltb eqb showK showV st o).
(** before the first Clear *)
Definition before_clear (o : iop K V) : res (iret K V) :=
  match o with IMap MLen => Ret (IRet (MInt 0)) | IRewind => Ret IDone | _ => Panic end.
Definition is_clear (o : iop K V) : bool := match o with IMap MClear => true | _ => false end.

(** Until it is Cleared, a zero SkipListMap has Len 0 and every other call, on it or on
    its iterator, panics; from then on it and its iterator are those of New. *)
Theorem skiplist_zero :
  forall (hist : list (Z * iop K V)), Forall (fun o => is_clear o.2 = false) hist ->
    rec_run zi (None, it_new) hist = (map (fun o => before_clear o.2) hist, (None, it_new)).
Proof.
  intros hist HF. induction HF as [|[z o] hist Ho HF IH]; [reflexivity|]. rewrite rec_run_cons. cbn [map snd] in *.
  assert (E : zi (None, it_new) (z, o) = ((None, it_new), before_clear o)).
  { destruct o as [m| |k|]; try reflexivity. destruct m; try discriminate; reflexivity. }
  rewrite E. cbn [fst snd]. rewrite IH. reflexivity.
Qed.
Theorem skiplist_zero_cleared :
  forall (hist rest : list (Z * iop K V)) (seed : Z), Forall (fun o => is_clear o.2 = false) hist ->
    (rec_run zi (None, it_new) (hist ++ (seed, IMap MClear) :: rest)).1 =
    map (fun o => before_clear o.2) hist ++ Ret (IRet MUnit) :: (rec_run made_step (skl_new zeroK zeroV seed, it_new) rest).1.
Proof.
  intros hist rest seed HF. rewrite rec_run_app, (skiplist_zero hist HF). cbn [fst snd]. f_equal. rewrite rec_run_cons. cbn [fst snd].
  f_equal. change (zi (None, it_new) (seed, IMap MClear)).1 with ((Some (skl_new zeroK zeroV seed), it_new) : option (skl K V) * iter).
  generalize (skl_new zeroK zeroV seed) as s, it_new as it. induction rest as [|[z o] rest IH]; intros s it; [reflexivity|].
  rewrite !rec_run_cons. cbn [fst].
  assert (E : zi (Some s, it) (z, o) = let '((s', it'), r) := made_step (s, it) (z, o) in ((Some s', it'), r)).
  { unfold made_step, zi_step, i_step. cbn [snd fst]. destruct o as [m| |k|].
    - unfold zk_step. cbn [snd fst deref rbind]. destruct m; try reflexivity; destruct (m_step _ _ _ _ _ _ s _) as [[s' r]| |]; reflexivity.
    - cbn [deref rbind]. destruct (it_next s it) as [[it' a]| |]; reflexivity.
    - cbn [deref rbind]. destruct (it_seek ltb eqb s k) as [[it' a]| |]; reflexivity.
    - reflexivity. }
  rewrite E. destruct (made_step (s, it) (z, o)) as [[s' it'] r]. cbn [fst snd]. f_equal. apply IH.
Qed.

(** A zero OrdMap stays one: Get finds nothing, Del does nothing, and the rest panics,
    Clear too. *)
Definition zero_ord (o : oop K V) : res (mret K V) :=
  match o with OGet _ => Ret (MVal None) | ODel _ => Ret MUnit | _ => Panic end.
Theorem ordmap_zero :
  forall (hist : list (Z * oop K V)),
    (rec_run zo zord_zero hist).1 = map (fun o => zero_ord o.2) hist /\
    (forall A fuel f (a : A), zo_range zeroV eqb fuel f a (rec_run zo zord_zero hist).2 = ([], Panic)).
Proof.
  intros hist. assert (G : forall st : zord K V, default [] (z_m st) = [] -> z_skl st = None ->
    (rec_run zo st hist).1 = map (fun o => zero_ord o.2) hist /\ z_skl (rec_run zo st hist).2 = None).
  { induction hist as [|[z o] hist IH]; intros st Hm Hs; [split; [reflexivity|exact Hs]|]. rewrite rec_run_cons. cbn [map fst snd].
    assert (E : (zo st (z, o)).2 = zero_ord o /\ default [] (z_m (zo st (z, o)).1) = [] /\ z_skl (zo st (z, o)).1 = None).
    { unfold zo_step. cbn [snd]. rewrite Hm, Hs. destruct o; cbn; auto. }
    destruct E as (E1 & E2 & E3). destruct (IH _ E2 E3) as [I1 I2]. rewrite E1. cbn [snd] in I1. split; [f_equal; exact I1|exact I2]. }
  destruct (G zord_zero eq_refl eq_refl) as [G1 G2]. split; [exact G1|]. intros A fuel f a. unfold zo_range. rewrite G2. reflexivity.
Qed.
End T.
Print Assumptions skiplist_zero.
Print Assumptions skiplist_zero_cleared.
Print Assumptions ordmap_zero.
Example skiplist_zero_case :
  (rec_run (zi_step 0 0 Nat.ltb Nat.eqb (fun _ => []) (fun _ => [])) (None, it_new)
     [(0%Z, IMap (MSet 1 2)); (0%Z, INext); (0%Z, IMap MLen); (5%Z, IMap MClear); (0%Z, IMap (MSet 1 2)); (0%Z, IMap MLen); (0%Z, INext)]).1
  = [Panic; Panic; Ret (IRet (MInt 0)); Ret (IRet MUnit); Ret (IRet MUnit); Ret (IRet (MInt 1)); Ret (IAns (Some (1, 2)))].
Proof. vm_compute. reflexivity. Qed.
Example ordmap_zero_case :
  (rec_run (zo_step 0 0 Nat.ltb Nat.eqb) zord_zero [(0%Z, OSet 1 2); (0%Z, OGet 1); (0%Z, OClear); (0%Z, OSet 1 2); (0%Z, ODel 1); (0%Z, OLen)]).1
  = [Panic; Ret (MVal None); Panic; Panic; Ret MUnit; Panic].
Proof. reflexivity. Qed.
