(** C124: what a map of dsx/mapx/sklmapx and any number of iterators on it do, exactly. *)
From Verif Require Import Base Conc SplitMixModel SklSpec SklModel SklProofs SklRefine SklExactSpec SklExactModel SklExactProofs.

(** For all histories of calls on the map and on any number of iterators, with no side
    condition (deletion of the key under an iterator, Clear while iterators stand in the
    map, and Next after the end included), and for all tower heights: the answers are those
    of the specification, the history ends where the specification does, in a panic exactly
    when the specification says so, and never in a hang. *)
Theorem iterators_exact :
  forall (K V : Type) (zeroK : K) (zeroV : V) (ltb eqb : K -> K -> bool) (showK : K -> list Z) (showV : V -> list Z),
  strict_weak_order ltb eqb ->
  forall (seed : Z) (hist : list (Z * xop K V)),
  let got := run (x_step zeroK zeroV ltb eqb showK showV) (skl_new zeroK zeroV seed, fun _ => it_new) hist in
  let want := run (exact_step zeroK zeroV ltb eqb showK showV) ([], fun _ => PStart) hist.*2 in
  got.1 = want.1 /\ (got.2 = Panic <-> want.2 = Panic) /\ got.2 <> Spin.
Proof.
  intros K V zeroK zeroV ltb eqb showK showV SWO seed hist got want.
  assert (HX : exists locs, X zeroK zeroV ltb (skl_new zeroK zeroV seed, fun _ => it_new) ([], fun _ => PStart) locs).
  { exists []. constructor; cbn [fst snd].
    - apply (new_inv zeroK zeroV ltb [] seed). constructor.
    - reflexivity.
    - reflexivity.
    - intros i. reflexivity. }
  destruct (run_sim _ _ _ (exact_sim zeroK zeroV ltb eqb showK showV SWO) hist _ _ HX) as [H1 H2]. fold got want in H1, H2.
  assert (HS : want.2 <> Spin).
  { unfold want. clear. generalize (@nil (K * V), fun _ : nat => @PStart K V) as a. induction (hist.*2) as [|o l IH]; intros a; cbn; [discriminate|].
    destruct a as [m cs]. assert (E : exact_step zeroK zeroV ltb eqb showK showV (m, cs) o <> Spin).
    { destruct o as [o|i|i k|i]; cbn; try discriminate. { destruct (map_step ltb eqb showK showV m o); discriminate. }
      destruct (cs i) as [|k|[|d ds] [k| |]|]; cbn; try discriminate; destruct (on_first _); discriminate. }
    destruct (exact_step zeroK zeroV ltb eqb showK showV (m, cs) o) as [[a' r]| |]; [|discriminate|congruence].
    specialize (IH a'). destruct (run (exact_step zeroK zeroV ltb eqb showK showV) a' l). exact IH. }
  split; [exact H1|]. destruct want.2 as [a'| |]; [destruct H2 as (s' & -> & _)|rewrite H2|congruence]; split; try discriminate; split; auto; discriminate.
Qed.
Print Assumptions iterators_exact.

(** The specification panics on exactly one kind of call: Next on an iterator that has
    already reported the end (or has run off a list thrown away by Clear), with no Seek or
    Rewind of it since. *)
Theorem iterators_exact_panic :
  forall (K V : Type) (zeroK : K) (zeroV : V) (ltb eqb : K -> K -> bool) (showK : K -> list Z) (showV : V -> list Z) m cs (o : xop K V),
  exact_step zeroK zeroV ltb eqb showK showV (m, cs) o = Panic <-> exists i, o = XNext i /\ cs i = PDone.
Proof.
  intros. split.
  - destruct o as [o|i|i k|i]; cbn; try discriminate. { destruct (map_step ltb eqb showK showV m o); discriminate. }
    intros E. exists i. split; [reflexivity|]. destruct (cs i) as [|k|[|d ds] [k| |]|]; cbn in E; try discriminate; try reflexivity; destruct (on_first _); discriminate.
  - intros (i & -> & E). cbn. rewrite E. reflexivity.
Qed.
Print Assumptions iterators_exact_panic.

(** Three iterators: one whose key and then whose next key are deleted (it shows the deleted
    entry 2, then comes out on 3), one over which Clear comes (it shows the entries that were
    cleared, then an entry (0, 0) that was never stored, and then panics), one rewound. *)
Example iterators_exact_nonvacuous :
  let hist := [(0, XMap (MSet 1 10)); (0, XMap (MSet 2 20)); (0, XMap (MSet 3 30)); (0, XNext 0); (0, XMap (MDel 1)); (0, XMap (MDel 2));
               (0, XMap (MSet 5 50)); (0, XSeek 1 3); (0, XNext 0); (0, XNext 0); (5, XMap MClear); (0, XMap (MSet 4 40)); (0, XNext 1); (0, XNext 1); (0, XNext 2); (0, XNext 1)]%Z in
  let want := run (exact_step 0%Z 0%Z Z.ltb Z.eqb (fun _ => []) (fun _ => [])) ([], fun _ => PStart) hist.*2 in
  iter_answers want.1 = [Some (1, 10); Some (3, 30); Some (2, 20); Some (3, 30); Some (5, 50); Some (0, 0); Some (4, 40)]%Z /\ want.2 = Panic.
Proof. vm_compute. auto. Qed.
