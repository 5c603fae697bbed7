(** autotidy and autoupdate with paths resolved by the system (C104, C172). *)
From stdpp Require Import strings.
From Verif Require Import Base CmdModel CmdProps CmdWdModel.

(** *** Specification *)
(** how deep a tree is *)
Fixpoint height (t : tree) : nat :=
  match t with
  | File => 0
  | Dir _ _ kids => S ((fix mx (l : list (string * tree)) : nat := match l with [] => 0 | (_, k) :: l => height k `max` mx l end) kids)
  end.
(** a directory of the tree to which paths from the start lead *)
Definition reachable (t : tree) (p : path) : Prop := exists rd kids, resolve t p = Some (Dir true rd kids).

(** *** Proofs *)
Definition w_loop T home fuel p := fix loop (l : list (string * tree)) (s : wproc) : res wproc :=
  match l with
  | [] => Ret s
  | (n, k) :: l => let! s := w_walk T home fuel (p ++ [n]) n (is_dirb k) s in loop l s
  end.
Definition s_loop (p : path) (up : bool) := fix loop (l : list (string * tree)) (s : proc) : proc :=
  match l with [] => s | (n, k) :: l => loop l (walk true (p ++ [n]) n up k s) end.

Lemma height_kid en rd kids n k : (n, k) ∈ kids -> S (height k) <= height (Dir en rd kids).
Proof.
  cbn. induction kids as [|[n1 k1] kids IH]; intros H; [inversion H|].
  apply elem_of_cons in H as [H|H]; [injection H as <- <-; lia|]. specialize (IH H). lia.
Qed.
Lemma kid_elem kids n k : kid kids n = Some k -> (n, k) ∈ kids.
Proof.
  unfold kid. destruct (list_find _ kids) as [[i [m q]]|] eqn:E; [|discriminate]. intros [= ->].
  apply list_find_Some in E as (E & D & _). cbn in D. subst m. eapply elem_of_list_lookup_2. exact E.
Qed.
Lemma kid_nodup kids n k : NoDup kids.*1 -> (n, k) ∈ kids -> kid kids n = Some k.
Proof. intros ND H. destruct (find_name kids n k ND H) as [i E]. unfold kid. rewrite E. reflexivity. Qed.
Lemma resolve_height p : forall t d, resolve t p = Some d -> length p + height d <= height t.
Proof.
  induction p as [|n p IH]; intros t d H; [injection H as ->; cbn; lia|]. cbn [resolve] in H.
  destruct t as [|[] rd kids]; try discriminate. destruct (kid kids n) as [k|] eqn:Ek; [|discriminate].
  apply kid_elem in Ek. apply (height_kid true rd) in Ek. specialize (IH _ _ H). cbn [length]. lia.
Qed.
Lemma node_height p : forall t, height (node t p) <= height t.
Proof.
  induction p as [|n p IH]; intros t; cbn [node]; [lia|]. destruct t as [|en rd kids]; [lia|].
  destruct (kid kids n) as [k|] eqn:Ek; [|cbn; lia]. apply kid_elem in Ek. apply (height_kid en rd) in Ek. specialize (IH k). lia.
Qed.
Lemma resolve_app p : forall t q, resolve t (p ++ q) = match resolve t p with Some d => resolve d q | None => None end.
Proof.
  induction p as [|n p IH]; intros t q; [reflexivity|]. cbn. destruct t as [|[] rd kids]; try reflexivity.
  destruct (kid kids n); [apply IH|reflexivity].
Qed.
Lemma resolve_node p : forall t d, resolve t p = Some d -> node t p = d.
Proof.
  induction p as [|n p IH]; intros t d; cbn; [intros [= ->]; reflexivity|]. destruct t as [|[] rd kids]; try discriminate.
  destruct (kid kids n); [apply IH|discriminate].
Qed.

(** the recursion ends, whatever happens to the process *)
Lemma readdir_depth T p s kids bad n k : w_readdir T p s = (kids, bad) -> (n, k) ∈ kids -> length p + S (height k) <= height T.
Proof.
  unfold w_readdir. destruct (resolve _ p) as [[|en rd l]|] eqn:E; intros [= <- <-] H; try (inversion H; fail).
  apply resolve_height in E. pose proof (node_height (wd s) T). apply (height_kid en rd) in H. lia.
Qed.
Lemma walk_ends T home fuel : forall p name isdir s, height T < fuel + length p -> 0 < fuel -> exists s', w_walk T home fuel p name isdir s = Ret s'.
Proof.
  induction fuel as [|fuel IH]; intros p name isdir s Hf H0; [lia|]. cbn [w_walk].
  destruct (w_visit T home p name isdir s) as [s1 e]. destruct isdir, e; eauto.
  destruct (w_readdir T p s1) as [kids bad] eqn:Er.
  assert (HK : forall n k, (n, k) ∈ kids -> length p + S (height k) <= height T) by (intros; eapply readdir_depth; eauto).
  clear Er. generalize (if bad then (w_visit T home p name true s1).1 else s1). clear s1. induction kids as [|[n k] kids IHk]; intros s1; [eauto|].
  destruct (IH (p ++ [n]) n (is_dirb k) s1) as [s2 E]. { rewrite app_length. cbn. lia. } { specialize (HK n k ltac:(left)). lia. }
  cbn. rewrite E. cbn. apply IHk. intros. apply (HK n0). right. assumption.
Qed.

(** with a way back: the walk over the tree *)
Lemma walk_same T fuel : forall t p name up s, height T < fuel + length p -> 0 < fuel ->
  resolve T p = (if up : bool then Some t else None) -> name = "vendor" \/ name = ".git" \/ named t -> wd s = [] ->
  exists s', w_walk T true fuel p name (is_dirb t) s = Ret s' /\ wd s' = [] /\ walk true p name up t (Proc (Some []) (wran s)) = Proc (Some []) (wran s').
Proof.
  induction fuel as [|fuel IH]; intros t p name up [w r] Hf H0 HT Hn Hw; [lia|]. cbn in Hw. subst w.
  destruct t as [|en rd kids]; [cbn; eexists; repeat split; reflexivity|].
  cbn [w_walk walk is_dirb]. unfold w_visit, visit. destruct (decide (name = "vendor")) as [Dv|Dv]; [eexists; repeat split; reflexivity|].
  destruct (decide (name = ".git")) as [Dg|Dg]; [eexists; repeat split; reflexivity|]. destruct Hn as [?|[?|Hn]]; [contradiction..|].
  apply (proj1 (named_dir _ _ _)) in Hn as (ND & Hn).
  assert (V : forall r, w_chdir_home true (w_run (w_chdir T p (WProc [] r))) = WProc [] (r ++ [if up && en then p else []])
            /\ chdir_home true (run_command (chdir p (up && en) (Proc (Some []) r))) = Proc (Some []) (r ++ [if up && en then p else []])).
  { intros r0. unfold w_chdir. cbn [wd node]. rewrite HT. destruct up, en; cbn; auto. }
  cbn [wran]. destruct (V r) as [-> ->].
  assert (R : w_readdir T p (WProc [] (r ++ [if up && en then p else []])) = if up then (kids, negb rd) else ([], true)).
  { unfold w_readdir. cbn [wd node]. rewrite HT. destruct up; reflexivity. }
  rewrite R. clear R. destruct up; cbn [andb].
  2: { cbn [fst]. destruct (V (r ++ [[]])) as [V1 V2]. cbn [andb] in V1, V2. rewrite V1, V2. eexists. repeat split; reflexivity. }
  assert (G : forall kids', (forall n k, (n, k) ∈ kids' -> (n, k) ∈ kids) -> good_all [] -> named_all kids' -> forall q,
     exists s', w_loop T true fuel p kids' (WProc [] q) = Ret s' /\ wd s' = [] /\ s_loop p en kids' (Proc (Some []) q) = Proc (Some []) (wran s')).
  { intros kids' Hsub _. induction kids' as [|[n k] kids' IHk]; intros Hn' q; [eexists; repeat split; reflexivity|].
    destruct Hn' as [Hn1 Hn2]. cbn [w_loop s_loop]. pose proof (Hsub n k ltac:(left)) as Hk.
    destruct (IH k (p ++ [n]) n en (WProc [] q)) as ([w2 r2] & E1 & E2 & E3).
    - rewrite app_length. cbn. lia.
    - apply resolve_height in HT. apply (height_kid en rd) in Hk. lia.
    - rewrite resolve_app, HT. cbn. destruct en; [|reflexivity]. rewrite (kid_nodup kids n k ND Hk). reflexivity.
    - exact Hn1.
    - reflexivity.
    - cbn in E2, E3. subst w2. change (w_walk T true fuel (p ++ [n]) n (is_dirb k) (WProc [] q)) with (w_walk T true fuel (p ++ [n]) n (is_dirb k) (WProc [] q)) in E1.
      rewrite E1, E3. cbn [wran]. apply IHk; [|exact Hn2]. intros m x Hx. apply Hsub. right. exact Hx. }
  specialize (G kids (fun _ _ H => H) Logic.I Hn).
  destruct rd; cbn [negb].
  - exact (G _).
  - destruct (V (r ++ [if en then p else []])) as [V1 V2]. cbn [andb fst] in V1, V2 |- *. rewrite V1, V2. exact (G _).
Qed.

(** C104, with the system resolving the paths: if os.Chdir(workdir) works, the program ends
    and does in any tree exactly what [runs] says, for the directories that can be seen,
    each once, one before those inside it, and ends where it was started. *)
Theorem cmd_wd_exact : forall t fuel, named t -> reachable t [] -> height t < fuel -> exists vs,
  w_main t true fuel = Ret (WProc [] (flat_map (runs (seen true t)) vs)) /\
  NoDup vs /\ (forall p, p ∈ vs <-> to_visit (seen true t) p) /\
  (forall q1 r q2 r' x, vs = q1 ++ r :: q2 -> r' ∈ q1 -> r' <> r ++ x).
Proof.
  intros t fuel Hn (rd & kids & [= ->]) Hf. destruct (cmd_exact _ Hn Logic.I) as (vs & H1 & _ & H3). exists vs. split; [|exact H3]. rewrite <- H1.
  destruct (walk_same (Dir true rd kids) fuel (Dir true rd kids) [] "." true (WProc [] []) ltac:(cbn [length]; lia) ltac:(lia) eq_refl (or_intror (or_intror Hn)) eq_refl)
    as ([w r] & E1 & E2 & E3). cbn in E2. subst w. unfold w_main, main_. cbn [is_dirb] in E1. rewrite E1. cbn [wran] in E3. rewrite E3. reflexivity.
Qed.
Print Assumptions cmd_wd_exact.
Example cmd_wd_exact_case :
  let t := Dir true true [("a", Dir false true [("c", Dir true true [("d", Dir true true [])])]); ("b", Dir true false [])] in
  named t /\ reachable t [] /\ w_main t true 9 = Ret (WProc [] [[]; []; []; []; ["b"]; ["b"]]).
Proof. cbn. split; [repeat split; auto; repeat constructor; set_solver|]. split; [repeat econstructor|reflexivity]. Qed.

(** C172: if the start cannot be searched (os.Lstat fails), the program panics before it
    has run anything; in every other case it ends. *)
Theorem cmd_wd_ends : forall t home fuel, height t < fuel ->
  (reachable t [] -> exists s, w_main t home fuel = Ret s) /\ (~ reachable t [] -> w_main t home fuel = Panic).
Proof.
  intros t home fuel Hf. split.
  - intros (rd & kids & [= ->]). unfold w_main. destruct (walk_ends (Dir true rd kids) home fuel [] "." true (WProc [] [])) as [s ->]; [cbn [length]; lia|lia|]. cbn. eauto.
  - intros H. destruct t as [|[] rd kids]; try reflexivity. exfalso. apply H. repeat econstructor.
Qed.
Print Assumptions cmd_wd_ends.

(** without a way back *)
Definition chained (T : tree) (s : wproc) : Prop :=
  reachable T (wd s) /\ (forall r, r ∈ wran s -> reachable T r /\ exists x, wd s = r ++ x) /\
  (forall q1 r1 q2 r2 q3, wran s = q1 ++ r1 :: q2 ++ r2 :: q3 -> exists x, r2 = r1 ++ x) /\
  (forall q r, wran s = q ++ [r] -> r = wd s).
Lemma visit_chained T p name isdir s : chained T s -> chained T (w_visit T false p name isdir s).1.
Proof.
  intros H. unfold w_visit. destruct isdir; [|exact H]. destruct (decide _); [exact H|]. destruct (decide _); [exact H|]. cbn [fst w_chdir_home].
  assert (X : exists x, reachable T (wd s ++ x) /\ w_chdir T p s = WProc (wd s ++ x) (wran s)).
  { unfold w_chdir. destruct H as (H & _). destruct H as (rd & kids & H). rewrite (resolve_node _ _ _ H).
    destruct (resolve _ p) as [[|[] rd' kids']|] eqn:E.
    2: { exists p. split; [|reflexivity]. exists rd', kids'. rewrite resolve_app, H. exact E. }
    all: exists []; rewrite app_nil_r; split; [exists rd, kids; exact H|destruct s; reflexivity]. }
  destruct X as (x & Hx & ->). unfold w_run. cbn [wd wran]. destruct H as (H1 & H2 & H3 & H4). repeat split; cbn [wd wran].
  - exact Hx.
  - apply elem_of_app in H as [H|H]; [apply H2; exact H|]. apply elem_of_list_singleton in H. subst r. exact Hx.
  - apply elem_of_app in H as [H|H]; [destruct (H2 r H) as [_ [y ->]]; exists (y ++ x); rewrite app_assoc; reflexivity|].
    apply elem_of_list_singleton in H. subst r. exists []. rewrite app_nil_r. reflexivity.
  - intros q1 r1 q2 r2 q3 E. destruct q3 as [|z q3 _] using rev_ind.
    + replace (q1 ++ r1 :: q2 ++ [r2]) with ((q1 ++ r1 :: q2) ++ [r2]) in E by (rewrite <- app_assoc; reflexivity).
      apply app_inj_tail in E as [E <-]. destruct (H2 r1) as [_ [y Ey]]; [rewrite E; set_solver|]. exists (y ++ x). rewrite Ey, app_assoc. reflexivity.
    + replace (q1 ++ r1 :: q2 ++ r2 :: q3 ++ [z]) with ((q1 ++ r1 :: q2 ++ r2 :: q3) ++ [z]) in E by (rewrite <- !app_assoc; cbn; rewrite <- app_assoc; reflexivity).
      apply app_inj_tail in E as [E _]. eapply H3. exact E.
  - intros q r E. apply app_inj_tail in E as [_ <-]. reflexivity.
Qed.
Lemma walk_chained T fuel : forall p name isdir s s', chained T s -> w_walk T false fuel p name isdir s = Ret s' -> chained T s'.
Proof.
  induction fuel as [|fuel IH]; intros p name isdir s s' H E; [discriminate|]. cbn [w_walk] in E.
  pose proof (visit_chained T p name isdir s H) as H1. destruct (w_visit T false p name isdir s) as [s1 e]. cbn in H1.
  destruct isdir, e; try (injection E as <-; exact H1).
  destruct (w_readdir T p s1) as [kids bad].
  assert (H2 : chained T (if bad then (w_visit T false p name true s1).1 else s1)) by (destruct bad; [apply visit_chained|]; exact H1).
  revert E H2. generalize (if bad then (w_visit T false p name true s1).1 else s1). clear -IH. intros s1. revert s1.
  induction kids as [|[n k] kids IHk]; intros s1 E H2; [injection E as <-; exact H2|].
  cbn [rbind] in E. destruct (w_walk T false fuel (p ++ [n]) n (is_dirb k) s1) as [s2| |] eqn:E2; try discriminate.
  cbn in E. eapply IHk; [exact E|]. eapply IH; eauto.
Qed.

(** C172: if the process cannot get back to its start, every directory in which the command
    is run is one that paths from the start lead to, and is, or is inside, the one before
    it; the first is the start, and the process ends in the last.  So it never runs the
    command in two directories of which neither is inside the other. *)
Theorem cmd_lost_chain : forall t fuel s, w_main t false fuel = Ret s ->
  (exists q, wran s = [] :: q) /\ (exists q, wran s = q ++ [wd s]) /\
  (forall r, r ∈ wran s -> reachable t r) /\
  (forall q1 r1 q2 r2 q3, wran s = q1 ++ r1 :: q2 ++ r2 :: q3 -> exists x, r2 = r1 ++ x).
Proof.
  intros t fuel s E. unfold w_main in E. destruct t as [|[] rd kids]; try discriminate.
  destruct (w_walk (Dir true rd kids) false fuel [] "." true (WProc [] [])) as [s1| |] eqn:E1; try discriminate. cbn in E. injection E as <-.
  assert (H0 : chained (Dir true rd kids) (WProc [] [])).
  { split; [repeat econstructor|]. split; [intros r H; inversion H|]. split; [intros q1 r1 q2 r2 q3 E; destruct q1; discriminate|intros q r E; destruct q; discriminate]. }
  pose proof (walk_chained _ _ _ _ _ _ _ H0 E1) as (H1 & H2 & H3 & H4).
  assert (F : exists q, wran s1 = [] :: q).
  { destruct fuel as [|fuel]; [discriminate|]. cbn [w_walk] in E1.
    change (w_visit (Dir true rd kids) false [] "." true (WProc [] [])) with (WProc [] [[]], FNil) in E1. cbv beta iota in E1.
    destruct (w_readdir (Dir true rd kids) [] (WProc [] [[]])) as [ks bad].
    change ((w_visit (Dir true rd kids) false [] "." true (WProc [] [[]])).1) with (WProc [] [[]; []]) in E1.
    assert (G : forall fuel p name isdir s s', w_walk (Dir true rd kids) false fuel p name isdir s = Ret s' -> exists q, wran s' = wran s ++ q).
    { clear. assert (V : forall T p name isdir s, exists q, wran (w_visit T false p name isdir s).1 = wran s ++ q).
      { intros. unfold w_visit. destruct isdir; [|exists []; rewrite app_nil_r; reflexivity].
        destruct (decide _); [exists []; rewrite app_nil_r; reflexivity|]. destruct (decide _); [exists []; rewrite app_nil_r; reflexivity|].
        cbn. unfold w_chdir. destruct (resolve _ p) as [[|[] ? ?]|]; cbn; eauto. }
      induction fuel as [|fuel IH]; intros p name isdir s s' E; [discriminate|]. cbn [w_walk] in E.
      destruct (V (Dir true rd kids) p name isdir s) as [q1 V1]. destruct (w_visit _ false p name isdir s) as [s1 e]. cbn in V1.
      destruct isdir, e; try (injection E as <-; eauto; fail).
      destruct (w_readdir _ p s1) as [ks bad].
      assert (V2 : exists q, wran (if bad then (w_visit (Dir true rd kids) false p name true s1).1 else s1) = wran s ++ q).
      { destruct bad; [|eauto]. destruct (V (Dir true rd kids) p name true s1) as [q2 V2]. rewrite V2, V1. exists (q1 ++ q2). rewrite app_assoc. reflexivity. }
      clear V1 q1. revert E V2. generalize (if bad then (w_visit (Dir true rd kids) false p name true s1).1 else s1). clear -IH. intros s1. revert s1.
      induction ks as [|[n k] ks IHk]; intros s1 E V2; [injection E as <-; exact V2|].
      cbn [rbind] in E. destruct (w_walk (Dir true rd kids) false fuel (p ++ [n]) n (is_dirb k) s1) as [s2| |] eqn:E2; try discriminate.
      cbn in E. eapply IHk; [exact E|]. destruct V2 as [q2 V2]. destruct (IH _ _ _ _ _ E2) as [q3 V3]. exists (q2 ++ q3). rewrite V3, V2, app_assoc. reflexivity. }
    assert (X : exists q, wran s1 = wran (if bad then WProc [] [[]; []] else WProc [] [[]]) ++ q).
    { revert E1. generalize (if bad then WProc [] [[]; []] else WProc [] [[]]). clear -G. intros s0. revert s0.
      induction ks as [|[n k] ks IHk]; intros s0 E; [injection E as <-; exists []; rewrite app_nil_r; reflexivity|].
      destruct (w_walk (Dir true rd kids) false fuel [n] n (is_dirb k) s0) as [s2| |] eqn:E2; cbn in E; rewrite E2 in E; try discriminate.
      cbn in E. destruct (IHk _ E) as [q1 ->]. destruct (G _ _ _ _ _ _ E2) as [q2 ->]. exists (q2 ++ q1). rewrite app_assoc. reflexivity. }
    destruct X as [q ->]. destruct bad; cbn; eauto. }
  split; [exact F|]. split; [|split; [intros r Hr; apply (H2 r Hr)|exact H3]].
  destruct F as [q F]. destruct (wran s1) as [|r l _] eqn:El using rev_ind; [discriminate|]. exists l. rewrite (H4 l r eq_refl). reflexivity.
Qed.
Print Assumptions cmd_lost_chain.
(** siblings a and c: the command is run once at the start, twice in a for a (a/a cannot be
    read), and twice in a for c; a/b, whose name is not in the list of the start, is never
    seen.  With a/c in place of a/b the process goes on to a/c. *)
Theorem cmd_lost_refuted :
  let d := Dir true true in
  w_main (d [("a", d [("b", d [])]); ("c", d [])]) false 9 = Ret (WProc ["a"] [[]; ["a"]; ["a"]; ["a"]; ["a"]]) /\
  w_main (d [("a", d [("c", d [])]); ("c", d [])]) false 9 = Ret (WProc ["a"; "c"] [[]; ["a"]; ["a"]; ["a"; "c"]; ["a"; "c"]]) /\
  w_main (Dir false true [("a", d [])]) true 9 = Panic.
Proof. repeat split. Qed.
Print Assumptions cmd_lost_refuted.
