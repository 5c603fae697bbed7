(** Properties of dsx/mapx/sklmapx with any < and == on the keys (C144). *)
From Verif Require Import Base SplitMixModel SklSpec SklModel SklProofs SklProps SklAnySpec SklAnyProofs.

(** C144: whatever < and == answer, every call of every history returns, and does
    what [any_step] says on the enumeration: a Set changes the value of one entry
    equal to the key, or adds one entry at a place where the search may stop; a Del
    removes one entry equal to the key, or none; Len, Keys, Values, String and ToMap
    are those of the enumeration. *)
Theorem skiplist_any_keys :
  forall (K V : Type) (zeroK : K) (zeroV : V) (ltb eqb : K -> K -> bool)
         (showK : K -> list Z) (showV : V -> list Z) (seed : Z) (hist : list (Z * mop K V)),
  exists s' es rs, run (m_step zeroK zeroV ltb eqb showK showV) (skl_new zeroK zeroV seed) hist = (rs, Ret s') /\
    any_steps ltb eqb showK showV [] hist.*2 es rs /\
    sk_entries s' = Ret es /\ sk_len s' = Z.of_nat (length es).
Proof.
  intros. destruct (run_any zeroK zeroV ltb eqb showK showV hist (skl_new zeroK zeroV seed) []) as (s' & es & rs & E & HR & Hs).
  - apply rep_new. constructor.
  - exists s', es, rs. split; [exact E|]. split; [exact Hs|]. eapply rep_entries; exact HR.
Qed.
Print Assumptions skiplist_any_keys.

(** what was Set is what the next Get of that key returns, if the key is equal to
    itself and not smaller than itself, whatever the other keys are *)
Theorem skiplist_any_set_get :
  forall (K V : Type) (zeroK : K) (zeroV : V) (ltb eqb : K -> K -> bool)
         (showK : K -> list Z) (showV : V -> list Z) (seed : Z) (hist : list (Z * mop K V)) c1 c2 k v,
  ltb k k = false -> eqb k k = true ->
  exists s' rs, run (m_step zeroK zeroV ltb eqb showK showV) (skl_new zeroK zeroV seed) (hist ++ [(c1, MSet k v); (c2, MGet k)])
    = (rs ++ [MUnit; MVal (Some v)], Ret s') /\ length rs = length hist.
Proof.
  intros K V zeroK zeroV ltb eqb showK showV seed hist c1 c2 k v H1 H2.
  destruct (run_any zeroK zeroV ltb eqb showK showV hist (skl_new zeroK zeroV seed) []) as (s & es & rs & E & HR & _).
  { apply rep_new. constructor. }
  destruct (set_any zeroK zeroV ltb eqb showK showV s es k v HR) as (s1 & es1 & E1 & _ & _).
  pose proof (set_get zeroK zeroV ltb eqb showK showV s es k v s1 HR H1 H2 E1) as E2.
  exists s1, rs. split.
  - revert rs E. generalize (skl_new zeroK zeroV seed) as s0. clear - E1 E2.
    induction hist as [|o hist IH]; intros s0 rs E.
    + cbn in E. injection E as <- <-. cbn [app run]. unfold m_step. cbn [snd fst]. rewrite E1. cbn [rbind].
      rewrite E2. reflexivity.
    + cbn [app run] in *. destruct (m_step zeroK zeroV ltb eqb showK showV s0 o) as [[s2 r]| |]; [|discriminate..].
      destruct (run _ s2 hist) as [rs2 e2] eqn:E3. injection E as <- ->. rewrite (IH s2 rs2 E3). reflexivity.
  - clear - E. revert rs E. generalize (skl_new zeroK zeroV seed) as s0.
    induction hist as [|o hist IH]; intros s0 rs E; cbn [run] in E.
    + injection E as <- _. reflexivity.
    + destruct (m_step zeroK zeroV ltb eqb showK showV s0 o) as [[s2 r]| |]; [|discriminate..].
      destruct (run _ s2 hist) as [rs2 e2] eqn:E3. injection E as <- ->. cbn. rewrite (IH s2 rs2 E3). reflexivity.
Qed.
Print Assumptions skiplist_any_set_get.

(** keys like NaN: a Set adds an entry in front, a Get finds nothing, a Del removes nothing *)
Theorem skiplist_nan_calls :
  forall (K V : Type) (ltb eqb : K -> K -> bool) (kind : K -> bool) (showK : K -> list Z) (showV : V -> list Z),
  unordered ltb eqb kind -> forall (es es' : list (K * V)) k v r, kind k = true ->
  (any_step ltb eqb showK showV es (MSet k v) es' r -> es' = (k, v) :: es /\ r = MUnit) /\
  (any_step ltb eqb showK showV es (MGet k) es' r -> es' = es /\ r = MVal None) /\
  (any_step ltb eqb showK showV es (MDel k) es' r -> es' = es /\ r = MBool false).
Proof.
  intros K V ltb eqb kind showK showV U es es' k v r Hk. split; [|split]; intros H.
  - eapply un_set; eassumption.
  - eapply un_get; eassumption.
  - eapply un_del; eassumption.
Qed.
Print Assumptions skiplist_nan_calls.

(** and so the entries with such keys are, after any history, those Set since the
    last Clear, the latest first: only Clear removes one *)
Theorem skiplist_nan_entries :
  forall (K V : Type) (zeroK : K) (zeroV : V) (ltb eqb : K -> K -> bool) (kind : K -> bool)
         (showK : K -> list Z) (showV : V -> list Z),
  unordered ltb eqb kind -> forall (seed : Z) (hist : list (Z * mop K V)),
  exists s' es rs, run (m_step zeroK zeroV ltb eqb showK showV) (skl_new zeroK zeroV seed) hist = (rs, Ret s') /\
    sk_entries s' = Ret es /\ List.filter (fun e => kind e.1) es = recent_sets kind (rev hist.*2).
Proof.
  intros K V zeroK zeroV ltb eqb kind showK showV U seed hist.
  destruct (skiplist_any_keys K V zeroK zeroV ltb eqb showK showV seed hist) as (s' & es & rs & E & Hs & He & _).
  exists s', es, rs. split; [exact E|]. split; [exact He|].
  pose proof (un_steps ltb eqb kind showK showV U hist.*2 [] es rs [] Hs eq_refl) as H. rewrite app_nil_r in H. rewrite <- H.
  clear. induction es as [|e es IH]; [reflexivity|]. rewrite kinds_cons. cbn. destruct (kind e.1); rewrite IH; reflexivity.
Qed.
Print Assumptions skiplist_nan_entries.

(** floats are such keys, [None] being NaN *)
Definition float_isnan (x : option Z) : bool := match x with None => true | Some _ => false end.
Lemma float_unordered : unordered float_ltb float_eqb float_isnan.
Proof. split; [intros [x|] [k|]|intros [x|] [k|]]; cbn; auto; discriminate. Qed.
(** two NaN keys stay in front of the others; key 1 is hidden, then Set again *)
Example skiplist_nan_case :
  (run (m_step None 0 float_ltb float_eqb (fun _ => []) (fun _ => []))%Z (skl_new None 0 1)%Z
    [(0, MSet (Some 1) 10); (0, MSet None 20); (0, MSet None 30); (0, MGet (Some 1)); (0, MSet (Some 1) 40);
     (0, MGet (Some 1)); (0, MDel None); (0, MLen); (0, MKeys); (0, MValues)]%Z).1
  = [MUnit; MUnit; MUnit; MVal None; MUnit; MVal (Some 40%Z); MBool false; MInt 4;
     MKeyList [Some 1%Z; None; None; Some 1%Z]; MValList [40; 30; 20; 10]%Z].
Proof. vm_compute. reflexivity. Qed.
(** a type whose < is always true and whose == is "same parity": the calls return all the same *)
Example skiplist_any_case :
  (run (m_step 0 0 (fun _ _ => true) (fun x y => Z.eqb (x mod 2) (y mod 2)) (fun _ => []) (fun _ => []))%Z (skl_new 0 0 1)%Z
    [(0, MSet 1 10); (0, MSet 2 20); (0, MGet 1); (0, MDel 2); (0, MKeys); (0, MLen)]%Z).1
  = [MUnit; MUnit; MVal None; MBool false; MKeyList [1; 2]%Z; MInt 2].
Proof. vm_compute. reflexivity. Qed.
