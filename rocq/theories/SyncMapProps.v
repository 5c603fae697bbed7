(** Properties of dsx/mapx/syncmapx (C47), under every interleaving of any number
    of goroutines. *)
From stdpp Require Import gmap.
From Verif Require Import Base Conc Lin SyncMapModel SyncMapProofs.

(** C47: every history is linearizable with respect to a plain map. *)
Theorem syncmap_linearizable :
  forall (K V : Type) `{Countable K} (zero : V) ls (s : mstate K V),
    steps (m_step zero) m_new ls s -> linearizable (map_spec zero) ∅ (erase (events ls)).
Proof.
  intros K V ? ? zero ls s HS. pose proof (minv_steps zero ls s HS) as I.
  exists (events ls). split; [reflexivity|]. split.
  - intros t. eexists. apply (iv_seq _ _ _ I).
  - eexists. apply (iv_legal _ _ _ I).
Qed.
Print Assumptions syncmap_linearizable.
(** no two goroutines ever touch the Go map in a conflicting way *)
Theorem syncmap_no_race :
  forall (K V : Type) `{Countable K} (zero : V) (s : mstate K V), reach m_new (m_step zero) s -> m_crash s = false.
Proof. intros K V ? ? zero s [ls HS]. exact (iv_crash _ _ _ (minv_steps zero ls s HS)). Qed.
Print Assumptions syncmap_no_race.
(** said of where the goroutines are: while one holds the lock for a call that writes, no
    other is between taking the lock and giving it back; and the map is in the middle of a
    write only while some goroutine is at its write *)
Theorem syncmap_exclusion :
  forall (K V : Type) `{Countable K} (zero : V) (s : mstate K V), reach m_new (m_step zero) s ->
    (forall t u o, t <> u -> is_write o = true -> (m_th s t = MHold o \/ m_th s t = MWriting o \/ exists r, m_th s t = MRel o r) ->
      m_th s u = MIdle \/ (exists o', m_th s u = MWant o') \/ exists o' r', m_th s u = MRet o' r') /\
    (m_torn s = true -> exists t o, m_th s t = MWriting o /\ is_write o = true).
Proof.
  intros K V ? ? zero s [ls HS]. pose proof (minv_steps zero ls s HS) as I. split.
  - intros t u o N W Ht. assert (Hw : hw (m_th s t)) by (destruct Ht as [->|[->|[r ->]]]; cbn; auto). apply (iv_w _ _ _ I) in Hw as Ew.
    assert (Nw : ~ hw (m_th s u)) by (intros X; apply (iv_w _ _ _ I) in X; congruence).
    assert (Nr : ~ hr (m_th s u)). { intros X. apply (iv_r _ _ _ I) in X. rewrite (iv_x _ _ _ I) in X by congruence. inversion X. }
    destruct (m_th s u) as [|o'|o'|o' m0 rest dn|o'|o' r'|o' r']; cbn in *; eauto; exfalso; auto; destruct (is_write o'); auto.
  - intros T. destruct (iv_torn _ _ _ I T) as (t & o & E). exists t, o. split; [exact E|]. pose proof (iv_pc _ _ _ I t) as P. rewrite E in P. apply P.
Qed.
Print Assumptions syncmap_exclusion.
(** no deadlock: while a call is in progress, some call can move *)
Theorem syncmap_progress :
  forall (K V : Type) `{Countable K} (zero : V) (s : mstate K V) t, reach m_new (m_step zero) s -> m_th s t <> MIdle ->
    exists e s' u, m_step zero s e s' /\ m_th s u <> MIdle /\ m_th s' u <> m_th s u.
Proof.
  intros K V ? ? zero s t [ls HS] Ht. destruct (m_progress zero _ s t (minv_steps zero ls s HS) Ht) as (e & s' & H1 & _ & u & H2).
  exists e, s', u. tauto.
Qed.
Print Assumptions syncmap_progress.

(** the sequential map used above is the usual one *)
Example map_spec_case :
  map_spec 0 {[1 := 10; 2 := 20]} (MGet 2) (RetV 20) {[1 := 10; 2 := 20]} /\
  map_spec 0 {[1 := 10; 2 := 20]} (MGet 3) (RetV 0) {[1 := 10; 2 := 20]} /\
  map_spec 0 {[1 := 10; 2 := 20]} MKeys (RetK [2; 1]) {[1 := 10; 2 := 20]} /\
  map_spec 0 {[1 := 10; 2 := 20]} MSize (RetN 2) {[1 := 10; 2 := 20]} /\
  ~ map_spec 0 {[1 := 10; 2 := 20]} MKeys (RetK [2]) {[1 := 10; 2 := 20]}.
Proof.
  split; [split; reflexivity|]. split; [split; reflexivity|]. split; [|split].
  - split; [|reflexivity]. exists [2; 1]. split; [reflexivity|]. vm_compute. apply Permutation_swap.
  - split; reflexivity.
  - intros [(ks & E & P) _]. injection E as <-. apply Permutation_length in P. vm_compute in P. discriminate.
Qed.
(** a reader in the middle of Keys, a second reader, and a waiting writer *)
Example syncmap_case :
  exists ls s, steps (m_step 0) m_new ls s /\
    erase (events ls) = [Inv 0 (MSet 5 7); Rsp 0 (MSet 5 7) RetU; Inv 1 MKeys; Inv 0 (MSet 6 8); Inv 2 (MGet 5);
                         Rsp 2 (MGet 5) (RetV 7); Rsp 1 MKeys (RetK [5])] /\ m_th s 0 = MWant (MSet 6 8).
Proof.
  do 2 eexists. split; [|split].
  - eapply steps_cons; [apply (ms_call 0 _ _ _ _ _ _ 0 (MSet 5 7)); reflexivity|].
    eapply steps_cons; [eapply (ms_lock 0 _ _ _ _ 0); reflexivity|].
    eapply steps_cons; [eapply (ms_write_begin 0 _ _ _ _ _ 0); reflexivity|].
    eapply steps_cons; [eapply (ms_write_end 0 _ _ _ _ _ _ 0); reflexivity|].
    eapply steps_cons; [eapply (ms_unlock 0 _ _ _ _ _ _ 0); reflexivity|].
    eapply steps_cons; [eapply (ms_return 0 _ _ _ _ _ _ 0); reflexivity|].
    eapply steps_cons; [apply (ms_call 0 _ _ _ _ _ _ 1 MKeys); reflexivity|].
    eapply steps_cons; [eapply (ms_rlock 0 _ _ _ _ _ 1); reflexivity|].
    eapply steps_cons; [apply (ms_call 0 _ _ _ _ _ _ 0 (MSet 6 8)); reflexivity|].
    eapply steps_cons; [apply (ms_call 0 _ _ _ _ _ _ 2 (MGet 5)); reflexivity|].
    eapply steps_cons; [eapply (ms_rlock 0 _ _ _ _ _ 2); reflexivity|].
    eapply steps_cons; [eapply (ms_range 0 _ _ _ _ _ 1 _ [(5, 7)]); [reflexivity|discriminate|reflexivity]|].
    eapply steps_cons; [eapply (ms_read 0 _ _ _ _ _ 2); reflexivity|].
    eapply steps_cons; [eapply (ms_next 0 _ _ _ _ _ 1); reflexivity|].
    eapply steps_cons; [eapply (ms_runlock 0 _ _ _ _ _ _ 2); reflexivity|].
    eapply steps_cons; [eapply (ms_return 0 _ _ _ _ _ _ 2); reflexivity|].
    eapply steps_cons; [eapply (ms_range_end 0 _ _ _ _ _ _ 1); reflexivity|].
    eapply steps_cons; [eapply (ms_runlock 0 _ _ _ _ _ _ 1); reflexivity|].
    eapply steps_cons; [eapply (ms_return 0 _ _ _ _ _ _ 1); reflexivity|]. apply steps_nil.
  - reflexivity.
  - reflexivity.
Qed.
