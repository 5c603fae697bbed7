(** Properties of dsx/mapx/sklmapx (C01-C08, C87). *)
From Verif Require Import Base SplitMixModel SplitMixProofs SklSpec SklModel SklProofs SklRefine SklIterProofs.

(** Integers are such a key type. *)
Lemma Z_swo : strict_weak_order Z.ltb Z.eqb.
Proof.
  split.
  - apply Z.ltb_irrefl.
  - intros x y z; rewrite !Z.ltb_lt; lia.
  - intros x y z; rewrite !Z.ltb_lt; lia.
  - intros x y. destruct (Z.eqb_spec x y), (Z.ltb_spec x y), (Z.ltb_spec y x); try reflexivity; lia.
Qed.

(** C01: any history on a map made by New returns what the ideal finite map
    returns, call by call; nothing panics or loops. *)
Theorem skiplist_finite_map :
  forall (K V : Type) (zeroK : K) (zeroV : V) (ltb eqb : K -> K -> bool)
         (showK : K -> list Z) (showV : V -> list Z),
  strict_weak_order ltb eqb ->
  forall (seed : Z) (hist : list (Z * mop K V)),
  exists s', run (m_step zeroK zeroV ltb eqb showK showV) (skl_new zeroK zeroV seed) hist
             = (ideal_results (map_step ltb eqb showK showV) [] hist.*2, Ret s').
Proof. exact @skl_refines. Qed.
Print Assumptions skiplist_finite_map.

(** C01, read off the history: Get returns the last write that no Del or Clear
    follows; Del returns whether the key was present. *)
Theorem skiplist_last_write :
  forall (K V : Type) (zeroK : K) (zeroV : V) (ltb eqb : K -> K -> bool)
         (showK : K -> list Z) (showV : V -> list Z),
  strict_weak_order ltb eqb ->
  forall (seed : Z) (hist : list (Z * mop K V)) (c : Z) (k : K) rs e,
  (run (m_step zeroK zeroV ltb eqb showK showV) (skl_new zeroK zeroV seed) (hist ++ [(c, MGet k)]) = (rs, e) ->
   last rs = Some (MVal (last_write eqb k (rev hist.*2)))) /\
  (run (m_step zeroK zeroV ltb eqb showK showV) (skl_new zeroK zeroV seed) (hist ++ [(c, MDel k)]) = (rs, e) ->
   exists b, last rs = Some (MBool b) /\ (b = true <-> present eqb hist.*2 k)).
Proof.
  intros K V zeroK zeroV ltb eqb showK showV SWO seed hist c k rs e. split; intros H.
  - destruct (skl_refines zeroK zeroV ltb eqb showK showV SWO seed (hist ++ [(c, MGet k)])) as [s' E].
    rewrite H in E. injection E as -> _. rewrite fmap_app, ideal_results_app, last_app. cbn.
    rewrite (map_get_last_write ltb eqb showK showV SWO). reflexivity.
  - destruct (skl_refines zeroK zeroV ltb eqb showK showV SWO seed (hist ++ [(c, MDel k)])) as [s' E].
    rewrite H in E. injection E as -> _. rewrite fmap_app, ideal_results_app, last_app. cbn.
    eexists. split; [reflexivity|]. rewrite (present_iff zeroK zeroV ltb eqb showK showV SWO).
    unfold map_has. rewrite existsb_exists. split; intros (x & Hx & Hk); exists x; rewrite ?elem_of_list_In in *; auto.
Qed.
Print Assumptions skiplist_last_write.

Example skiplist_nonvacuous :
  let hist := [(0, MSet 5 50); (0, MSet 3 30); (0, MSet 9 90); (0, MDel 5); (0, MSet 3 31); (7, MClear);
               (0, MSet 4 40); (0, MSet 2 20); (0, MGet 3); (0, MKeys); (0, MValues); (0, MLen); (0, MDel 4)]%Z in
  (run (m_step 0 0 Z.ltb Z.eqb (fun _ => []) (fun _ => []) ) (skl_new 0 0 12345) hist).1%Z
  = [MUnit; MUnit; MUnit; MBool true; MUnit; MUnit; MUnit; MUnit; MVal None; MKeyList [2; 4]; MValList [20; 40];
     MInt 2; MBool true]%Z.
Proof. vm_compute. reflexivity. Qed.

(** C02: in every reachable state Keys is strictly ascending and holds exactly
    the present keys, Values the last written values in the same order, Len their
    number; String and ToMap are rendered from the same entries (see [map_step]). *)
Theorem skiplist_enumeration :
  forall (K V : Type) (zeroK : K) (zeroV : V) (ltb eqb : K -> K -> bool)
         (showK : K -> list Z) (showV : V -> list Z),
  strict_weak_order ltb eqb ->
  forall (seed : Z) (hist : list (Z * mop K V)) s',
  (run (m_step zeroK zeroV ltb eqb showK showV) (skl_new zeroK zeroV seed) hist).2 = Ret s' ->
  exists es, sk_keys s' = Ret es.*1 /\ sk_values s' = Ret es.*2 /\ sk_len s' = Z.of_nat (length es) /\
    sk_to_map eqb s' = Ret es /\
    sk_to_string showK showV s' = Ret ([115; 107; 108; 109; 97; 112; 120; 91]%Z ++ join_space (show_entry showK showV <$> es) ++ [93%Z]) /\
    ascending ltb es.*1 /\
    (forall k, present eqb hist.*2 k <-> exists k', k' ∈ es.*1 /\ eqb k' k = true) /\
    (forall k v, (k, v) ∈ es -> last_write eqb k (rev hist.*2) = Some v).
Proof. exact @enumeration_spec. Qed.
Print Assumptions skiplist_enumeration.

(** C03: the random source is not observable. *)
Theorem skiplist_seed_independent :
  forall (K V : Type) (zeroK : K) (zeroV : V) (ltb eqb : K -> K -> bool)
         (showK : K -> list Z) (showV : V -> list Z),
  strict_weak_order ltb eqb ->
  forall (seed1 seed2 : Z) (hist1 hist2 : list (Z * mop K V)),
  hist1.*2 = hist2.*2 ->
  (run (m_step zeroK zeroV ltb eqb showK showV) (skl_new zeroK zeroV seed1) hist1).1
  = (run (m_step zeroK zeroV ltb eqb showK showV) (skl_new zeroK zeroV seed2) hist2).1.
Proof.
  intros K V zeroK zeroV ltb eqb showK showV SWO seed1 seed2 hist1 hist2 E.
  destruct (skl_refines zeroK zeroV ltb eqb showK showV SWO seed1 hist1) as [s1 E1].
  destruct (skl_refines zeroK zeroV ltb eqb showK showV SWO seed2 hist2) as [s2 E2].
  rewrite E1, E2, E. reflexivity.
Qed.
Print Assumptions skiplist_seed_independent.

(** different seeds do build different towers *)
Example skiplist_seed_independent_nonvacuous :
  let hist : list (Z * mop Z Z) := (fun i => (0, MSet (Z.of_nat i) 0)%Z) <$> seq 0 8 in
  exists s1 s2, (run (m_step 0%Z 0%Z Z.ltb Z.eqb (fun _ => []) (fun _ => [])) (skl_new 0%Z 0%Z 1%Z) hist).2 = Ret s1 /\
    (run (m_step 0%Z 0%Z Z.ltb Z.eqb (fun _ => []) (fun _ => [])) (skl_new 0%Z 0%Z 2%Z) hist).2 = Ret s2 /\
    sk_height <$> s_heap s1 <> sk_height <$> s_heap s2.
Proof. eexists _, _. split; [vm_compute; reflexivity|]. split; [vm_compute; reflexivity|]. vm_compute. discriminate. Qed.

(** C04: iterating over an unmodified map.  Next, called n times on a fresh (or
    rewound) iterator, gives the first n of: the entries in key order, then
    ok=false. *)
Theorem iterator_enumerates :
  forall (K V : Type) (zeroK : K) (zeroV : V) (ltb eqb : K -> K -> bool)
         (showK : K -> list Z) (showV : V -> list Z),
  strict_weak_order ltb eqb ->
  forall (seed : Z) (hist : list (Z * mop K V)) s' it,
  (run (m_step zeroK zeroV ltb eqb showK showV) (skl_new zeroK zeroV seed) hist).2 = Ret s' ->
  it = it_new \/ (exists it0, it = it_rewind it0) ->
  let es := sorted_entries ltb (ideal_state (map_step ltb eqb showK showV) [] hist.*2) in
  forall n, n <= S (length es) ->
  exists it', run (next_step s') it (replicate n tt) = (take n ((Some <$> es) ++ [None]), Ret it').
Proof.
  intros K V zeroK zeroV ltb eqb showK showV SWO seed hist s' it Hr Hit es n Hn.
  assert (it = it_new) as -> by (destruct Hit as [|[it0 ->]]; [assumption|reflexivity]).
  destruct (skl_refines_rel zeroK zeroV ltb eqb showK showV SWO seed hist) as (s1 & H & HR).
  rewrite H in Hr. injection Hr as ->.
  destruct (iter_enumerates zeroK zeroV ltb eqb SWO s' _ n HR) as (it' & E & _); [|eauto].
  subst es. rewrite (Permutation_length (sorted_entries_perm ltb _)) in Hn. exact Hn.
Qed.
Print Assumptions iterator_enumerates.

(** C04, Seek: it finds the key iff it is present; then Next enumerates exactly
    the greater keys.  A failed Seek leaves a fresh iterator. *)
Theorem iterator_seek :
  forall (K V : Type) (zeroK : K) (zeroV : V) (ltb eqb : K -> K -> bool)
         (showK : K -> list Z) (showV : V -> list Z),
  strict_weak_order ltb eqb ->
  forall (seed : Z) (hist : list (Z * mop K V)) s' k,
  (run (m_step zeroK zeroV ltb eqb showK showV) (skl_new zeroK zeroV seed) hist).2 = Ret s' ->
  let es := sorted_entries ltb (ideal_state (map_step ltb eqb showK showV) [] hist.*2) in
  let above := filter (fun e => ltb k e.1 = true) es in
  exists it a, it_seek ltb eqb s' k = Ret (it, a) /\
  match a with
  | Some e => e ∈ es /\ eqb e.1 k = true /\
      forall n, n <= S (length above) ->
      exists it', run (next_step s') it (replicate n tt) = (take n ((Some <$> above) ++ [None]), Ret it')
  | None => it = it_new /\ forall e, e ∈ es -> eqb e.1 k = false
  end.
Proof.
  intros K V zeroK zeroV ltb eqb showK showV SWO seed hist s' k Hr es above.
  destruct (skl_refines_rel zeroK zeroV ltb eqb showK showV SWO seed hist) as (s1 & H & HR).
  rewrite H in Hr. injection Hr as ->.
  destruct (seek_spec zeroK zeroV ltb eqb showK showV SWO s' _ k HR) as (it & a & E & Ha).
  exists it, a. split; [exact E|]. pose proof (sorted_entries_perm ltb (ideal_state (map_step ltb eqb showK showV) [] hist.*2)) as HP.
  fold es in HP. destruct a as [e|].
  - destruct Ha as (H1 & H2 & H3). split; [rewrite HP; exact H1|]. split; [exact H2|].
    intros n Hn. apply H3. subst above. rewrite HP in Hn. exact Hn.
  - destruct Ha as [-> Ha]. split; [reflexivity|]. intros e He. rewrite HP in He. auto.
Qed.
Print Assumptions iterator_seek.

Example iterator_seek_nonvacuous :
  let hist := [(0, MSet 5 50); (0, MSet 3 30); (0, MSet 9 90); (0, MDel 5); (0, MSet 6 60)]%Z in
  (run (i_step 0 0 Z.ltb Z.eqb (fun _ => []) (fun _ => [])) (skl_new 0 0 77, it_new)
     (((fun c => (c.1, IMap c.2)) <$> hist) ++ [(0, ISeek 3); (0, INext); (0, INext); (0, INext); (0, ISeek 5); (0, INext)])).1%Z
  = [IRet MUnit; IRet MUnit; IRet MUnit; IRet (MBool true); IRet MUnit; IAns (Some (3, 30));
     IAns (Some (6, 60)); IAns (Some (9, 90)); IAns None; IAns None; IAns (Some (3, 30))]%Z.
Proof. vm_compute. reflexivity. Qed.

(** C05 (natural statement, false on every map): after ok=false, Next panics. *)
Theorem iterator_end_refuted :
  forall (K V : Type) (zeroK : K) (zeroV : V) (ltb eqb : K -> K -> bool)
         (showK : K -> list Z) (showV : V -> list Z),
  strict_weak_order ltb eqb ->
  forall (seed : Z) (hist : list (Z * mop K V)) s' rs it,
  (run (m_step zeroK zeroV ltb eqb showK showV) (skl_new zeroK zeroV seed) hist).2 = Ret s' ->
  forall n, n = length (ideal_state (map_step ltb eqb showK showV) [] hist.*2) ->
  run (next_step s') it_new (replicate (S n) tt) = (rs, Ret it) ->
  last rs = Some None /\ it_next s' it = Panic.
Proof.
  intros K V zeroK zeroV ltb eqb showK showV SWO seed hist s' rs it Hr n -> Hrun.
  destruct (skl_refines_rel zeroK zeroV ltb eqb showK showV SWO seed hist) as (s1 & H & HR).
  rewrite H in Hr. injection Hr as ->.
  destruct (iter_enumerates zeroK zeroV ltb eqb SWO s' _ _ HR (Nat.le_refl _)) as (it' & E & Hp).
  rewrite E in Hrun. injection Hrun as <- <-. split; [|apply Hp; reflexivity].
  rewrite take_ge; [apply last_snoc|].
  rewrite app_length, fmap_length, (Permutation_length (sorted_entries_perm ltb _)). cbn [length]. lia.
Qed.
Print Assumptions iterator_end_refuted.

(** C05, the part that holds: an exhausted iterator never yields an entry again,
    whatever happens to the map short of Clear (it panics instead of ok=false). *)
Theorem iterator_end_partial :
  forall (K V : Type) (zeroK : K) (zeroV : V) (ltb eqb : K -> K -> bool)
         (showK : K -> list Z) (showV : V -> list Z),
  strict_weak_order ltb eqb ->
  forall (seed : Z) (hist : list (Z * mop K V)) s evs rs fin,
  (run (m_step zeroK zeroV ltb eqb showK showV) (skl_new zeroK zeroV seed) hist).2 = Ret s ->
  Forall (fun c => walking c.2) evs ->
  run (i_step zeroK zeroV ltb eqb showK showV) (s, it_new) evs = (rs, fin) ->
  forall p q, iter_answers rs = p ++ None :: q -> q = [].
Proof. exact @iter_end_last. Qed.
Print Assumptions iterator_end_partial.

(** C06 (natural statement, false): Next returns the smallest present key above
    the current one.  Deleting the current key and the one after it makes Next
    return the deleted one. *)
Theorem iterator_live_refuted :
  ~ (forall (seed : Z) (hist : list (Z * mop Z Z)) (muts : list (Z * mop Z Z)) s s' it k v,
     (run (m_step 0 0 Z.ltb Z.eqb (fun _ => []) (fun _ => [])) (skl_new 0 0 seed) hist).2%Z = Ret s ->
     it_next s it_new = Ret (it, Some (k, v)) ->
     (run (m_step 0 0 Z.ltb Z.eqb (fun _ => []) (fun _ => [])) s muts).2%Z = Ret s' ->
     forall it' a, it_next s' it = Ret (it', Some a) -> present Z.eqb (hist ++ muts).*2 a.1).
Proof.
  intros H.
  specialize (H 1 [(0, MSet 1 10); (0, MSet 2 20); (0, MSet 3 30)] [(0, MDel 1); (0, MDel 2)])%Z.
  edestruct H as [v Hv]; [vm_compute; reflexivity|vm_compute; reflexivity|vm_compute; reflexivity|vm_compute; reflexivity|].
  vm_compute in Hv. discriminate.
Qed.
Print Assumptions iterator_live_refuted.

(** C06, the part that holds (missing: Del of the key under the iterator, Clear
    while it stands on a key, Next after the end): the iterator and the map
    together behave as the ideal cursor, whatever is inserted and deleted. *)
Theorem iterator_live_partial :
  forall (K V : Type) (zeroK : K) (zeroV : V) (ltb eqb : K -> K -> bool)
         (showK : K -> list Z) (showV : V -> list Z),
  strict_weak_order ltb eqb ->
  forall (seed : Z) (hist : list (Z * iop K V)),
  (forall pre o post, hist.*2 = pre ++ o :: post ->
     cursor_safe eqb (ideal_state (cursor_step ltb eqb showK showV) ([], Start) pre) o) ->
  exists st, run (i_step zeroK zeroV ltb eqb showK showV) (skl_new zeroK zeroV seed, it_new) hist
  = (ideal_results (cursor_step ltb eqb showK showV) ([], Start) hist.*2, Ret st).
Proof. exact @iter_cursor. Qed.
Print Assumptions iterator_live_partial.

Example iterator_live_nonvacuous :
  let hist := [(0, IMap (MSet 1 10)); (0, IMap (MSet 3 30)); (0, INext); (0, IMap (MSet 2 20)); (0, IMap (MDel 3));
               (0, IMap (MSet 5 50)); (0, INext); (0, INext); (0, INext); (0, IRewind); (0, INext)]%Z in
  (forall pre o post, hist.*2 = pre ++ o :: post ->
     cursor_safe Z.eqb (ideal_state (cursor_step Z.ltb Z.eqb (fun _ => []) (fun _ => [])) ([], Start) pre) o) /\
  iter_answers (ideal_results (cursor_step Z.ltb Z.eqb (fun _ => []) (fun _ => [])) ([], Start) hist.*2)
  = [Some (1, 10); Some (2, 20); Some (5, 50); None; Some (1, 10)]%Z.
Proof. split; [apply good_history_forall; vm_compute; repeat split; discriminate|vm_compute; reflexivity]. Qed.

(** C87: weakly consistent iteration.  However Set and Del are interleaved with
    the Next calls of an iterator (no Clear): the keys returned are strictly
    ascending (so none is returned twice); each of them was present at some moment
    since the iterator was made; once the end is reported every key that was
    present all along has been returned; and nothing panics before that. *)
Theorem iterator_weakly_consistent :
  forall (K V : Type) (zeroK : K) (zeroV : V) (ltb eqb : K -> K -> bool)
         (showK : K -> list Z) (showV : V -> list Z),
  strict_weak_order ltb eqb ->
  forall (seed : Z) (hist : list (Z * mop K V)) s evs rs fin,
  (run (m_step zeroK zeroV ltb eqb showK showV) (skl_new zeroK zeroV seed) hist).2 = Ret s ->
  Forall (fun c => walking c.2) evs ->
  run (i_step zeroK zeroV ltb eqb showK showV) (s, it_new) evs = (rs, fin) ->
  let ms := map_calls (take (length rs) evs).*2 in
  let answers := iter_answers rs in
  ascending ltb (omap id answers).*1 /\
  (forall k v, Some (k, v) ∈ answers -> exists p q, ms = p ++ q /\ present eqb (hist.*2 ++ p) k) /\
  (None ∈ answers -> forall k, (forall p q, ms = p ++ q -> present eqb (hist.*2 ++ p) k) ->
     exists k' v, Some (k', v) ∈ answers /\ eqb k' k = true) /\
  (None ∉ answers -> exists st, fin = Ret st).
Proof. exact @iter_weak. Qed.
Print Assumptions iterator_weakly_consistent.

(** here 2 is returned although deleted, 0 is missed although inserted, 3 comes *)
Example iterator_weakly_consistent_nonvacuous :
  let hist := [(0, MSet 1 10); (0, MSet 2 20); (0, MSet 3 30)]%Z in
  let evs := [(0, INext); (0, IMap (MDel 1)); (0, IMap (MSet 0 0)); (0, IMap (MDel 2)); (0, INext); (0, INext); (0, INext)]%Z in
  exists s, (run (m_step 0 0 Z.ltb Z.eqb (fun _ => []) (fun _ => [])) (skl_new 0 0 1) hist).2%Z = Ret s /\
  iter_answers (run (i_step 0 0 Z.ltb Z.eqb (fun _ => []) (fun _ => [])) (s, it_new) evs).1%Z
  = [Some (1, 10); Some (2, 20); Some (3, 30); None]%Z.
Proof. eexists. split; [vm_compute; reflexivity|]. vm_compute. reflexivity. Qed.

(** C07 (natural statement, false): a NaN key in front hides the other keys.
     Keys: [None] is NaN, unordered with and unequal to everything. *)
Definition float_ltb (x y : option Z) : bool :=
  match x, y with Some a, Some b => (a <? b)%Z | _, _ => false end.
Definition float_eqb (x y : option Z) : bool :=
  match x, y with Some a, Some b => (a =? b)%Z | _, _ => false end.
Theorem skiplist_nan_refuted :
  ~ (forall (seed : Z) (hist : list (Z * mop (option Z) Z)),
     exists s', run (m_step None 0 float_ltb float_eqb (fun _ => []) (fun _ => []))%Z (skl_new None 0 seed)%Z hist
             = (ideal_results (map_step float_ltb float_eqb (fun _ => []) (fun _ => [])) [] hist.*2, Ret s')).
Proof.
  intros H. destruct (H 1 [(0, MSet (Some 1) 10); (0, MSet None 20); (0, MGet (Some 1))])%Z as [s' E].
  vm_compute in E. discriminate.
Qed.
Print Assumptions skiplist_nan_refuted.
(** a Set of NaN that finds nothing, with the level and the next seed given *)
Definition nan_insert (s : skl (option Z) Z) (v : Z) (level : nat) (seed' : Z) : res (skl (option Z) Z) :=
  let! (x, ctx) := sk_search float_ltb float_eqb s None in
  match x with
  | Some x =>
      let! nd := deref (s_heap s !! x) in
      Ret (Skl (<[x := SkNode (sk_key nd) v (sk_next nd) (sk_height nd)]> (s_heap s))
               (s_head s) (s_tail s) (s_seed s) (s_len s))
  | None =>
      let! h := sk_link_levels (s_heap s ++ [SkNode None v (replicate MAX_HEIGHT None) level]) (length (s_heap s)) ctx level 0 in
      Ret (Skl h (s_head s) (s_tail s) seed' (s_len s + 1)%Z)
  end.
Lemma nan_insert_eq s v :
  sk_insert float_ltb float_eqb s None v = nan_insert s v (rand_height (s_seed s)).2 (rand_height (s_seed s)).1.
Proof. unfold sk_insert, nan_insert. destruct (rand_height (s_seed s)); reflexivity. Qed.
Lemma nan_case seed l1 seed1 l2 seed2 : 1 <= l1 <= 16 -> 1 <= l2 <= 16 ->
  (let! s1 := nan_insert (skl_new None 0 seed) 1 l1 seed1 in
   let! s2 := nan_insert s1 2 l2 seed2 in
   let! g := sk_get float_ltb float_eqb s2 None in
   let! d := sk_delete float_ltb float_eqb s2 None in
   Ret (g, d.2, s_seed s1, s_len d.1))%Z = Ret (None, false, seed1, 2%Z).
Proof.
  intros H1 H2.
  do 17 (destruct l1 as [|l1]; [try lia; do 17 (destruct l2 as [|l2]; [try lia; vm_compute; reflexivity|]); lia|]); lia.
Qed.
(** even without any other key, the entry just Set is never found, and every
    further Set of NaN adds another entry *)
Theorem skiplist_nan_lost_refuted :
  forall seed : Z,
  (run (m_step None 0 float_ltb float_eqb (fun _ => []) (fun _ => []))%Z (skl_new None 0 seed)%Z
     [(0, MSet None 1); (0, MSet None 2); (0, MGet None); (0, MDel None); (0, MLen)]%Z).1
  = [MUnit; MUnit; MVal None; MBool false; MInt 2].
Proof.
  intros seed.
  pose proof (rand_height_range seed) as H1. pose proof (rand_height_range (rand_height seed).1) as H2.
  pose proof (nan_case seed (rand_height seed).2 (rand_height seed).1 (rand_height (rand_height seed).1).2 (rand_height (rand_height seed).1).1 H1 H2) as H.
  cbn [run m_step fst snd]. rewrite !nan_insert_eq.
  change (s_seed (skl_new None 0%Z seed)) with seed.
  destruct (nan_insert (skl_new None 0%Z seed) 1 (rand_height seed).2 (rand_height seed).1)%Z as [s1| |] eqn:E1; [|discriminate..].
  cbn [rbind] in *. rewrite nan_insert_eq.
  assert (Es : s_seed s1 = (rand_height seed).1).
  { destruct (nan_insert s1 2 _ _)%Z as [s2| |]; [|discriminate..]. cbn [rbind] in H.
    destruct (sk_get _ _ s2 None) as [g| |]; [|discriminate..]. cbn [rbind] in H.
    destruct (sk_delete _ _ s2 None) as [[s3 d]| |]; [|discriminate..]. cbn [rbind snd] in H.
    injection H as _ _ H _. exact H. }
  rewrite Es.
  destruct (nan_insert s1 2 _ _)%Z as [s2| |] eqn:E2; [|discriminate..]. cbn [rbind] in *.
  destruct (sk_get _ _ s2 None) as [g| |]; [|discriminate..]. cbn [rbind] in *.
  destruct (sk_delete _ _ s2 None) as [[s3 d]| |]; [|discriminate..]. cbn [rbind fst snd] in *.
  injection H as -> -> _ Hl. unfold sk_len. rewrite Hl. reflexivity.
Qed.
Print Assumptions skiplist_nan_lost_refuted.
(** C07, the part that holds: every key type whose < and == are a strict weak
    order, e.g. floats without NaN, with -0 equal to +0. *)
Theorem skiplist_ordered_keys_partial :
  forall (K V : Type) (zeroK : K) (zeroV : V) (ltb eqb : K -> K -> bool)
         (showK : K -> list Z) (showV : V -> list Z),
  strict_weak_order ltb eqb ->
  forall (seed : Z) (hist : list (Z * mop K V)),
  exists s', run (m_step zeroK zeroV ltb eqb showK showV) (skl_new zeroK zeroV seed) hist
             = (ideal_results (map_step ltb eqb showK showV) [] hist.*2, Ret s').
Proof. exact @skl_refines. Qed.
Print Assumptions skiplist_ordered_keys_partial.
(** signed zeros: (sign, magnitude) with (true,0) = (false,0) *)
Definition sz (x : bool * Z) : Z := if x.1 then (- x.2)%Z else x.2.
Example signed_zero_swo : strict_weak_order (fun x y => Z.ltb (sz x) (sz y)) (fun x y => Z.eqb (sz x) (sz y)).
Proof.
  destruct Z_swo as [H1 H2 H3 H4]. split; intros.
  - apply H1.
  - eapply H2; eassumption.
  - apply H3; assumption.
  - apply H4.
Qed.

(** C08: heights are legal, the output function is a bijection of uint64, and
    the seeds handed out by root_next do not repeat within 2^64 maps. *)
Theorem heights_in_range : forall seed : Z, 1 <= (rand_height seed).2 <= MAX_HEIGHT.
Proof. exact rand_height_range. Qed.
Print Assumptions heights_in_range.
Theorem splitmix_bijective :
  (forall x, is_u64 x -> is_u64 (mix x)) /\
  (forall x y, is_u64 x -> is_u64 y -> mix x = mix y -> x = y) /\
  (forall y, is_u64 y -> exists x, is_u64 x /\ mix x = y).
Proof. exact (conj mix_u64 (conj mix_inj mix_surj)). Qed.
Print Assumptions splitmix_bijective.
Theorem seeds_distinct :
  forall root i j, is_u64 root -> (Z.of_nat i < 2^64)%Z -> (Z.of_nat j < 2^64)%Z -> i <> j ->
  let nth_seed n := (root_next (Nat.iter n (fun r => (root_next r).1) root)).2 in
  nth_seed i <> nth_seed j.
Proof. intros root i j Hr Hi Hj Hij f E. apply Hij. exact (nth_seed_inj root i j Hr Hi Hj E). Qed.
Print Assumptions seeds_distinct.
Example seeds_distinct_nonvacuous :
  is_u64 (root_init 42) /\ (root_next (root_init 42)).2 <> (root_next (root_next (root_init 42)).1).2.
Proof. split; [unfold is_u64; vm_compute; split; [discriminate|reflexivity]|vm_compute; discriminate]. Qed.
