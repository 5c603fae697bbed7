(** Properties of cmd/autotidy and cmd/autoupdate (C104). *)
From stdpp Require Import strings.
From Verif Require Import Base CmdModel.

(** *** Specification: which paths are directories to be visited *)
Fixpoint lookup_path (t : tree) (p : path) : option tree :=
  match p with
  | [] => Some t
  | n :: p => match t with
              | File => None
              | Dir _ _ kids => match list_find (fun k => k.1 = n) kids with Some (_, (_, k)) => lookup_path k p | None => None end
              end
  end.
Definition is_dir (t : tree) : Prop := match t with Dir _ _ _ => True | File => False end.
Definition to_visit (t : tree) (p : path) : Prop :=
  (exists d, lookup_path t p = Some d /\ is_dir d) /\ Forall (fun n => n <> "vendor" /\ n <> ".git") p.
(** names are unique in a directory; every directory that is to be visited can be entered and read *)
Fixpoint good (t : tree) : Prop :=
  match t with
  | File => True
  | Dir en rd kids => en = true /\ rd = true /\ NoDup kids.*1 /\
      (fix all (l : list (string * tree)) : Prop := match l with [] => True | (n, k) :: l => (n = "vendor" \/ n = ".git" \/ good k) /\ all l end) kids
  end.

(** names are unique in a directory that is to be visited *)
Fixpoint named (t : tree) : Prop :=
  match t with
  | File => True
  | Dir _ _ kids => NoDup kids.*1 /\
      (fix all (l : list (string * tree)) : Prop := match l with [] => True | (n, k) :: l => (n = "vendor" \/ n = ".git" \/ named k) /\ all l end) kids
  end.
(** what can be seen of a tree: whether a directory can be entered and read with the
    permissions of those above it; its entries if those above can be entered *)
Fixpoint seen (up : bool) (t : tree) : tree :=
  match t with
  | File => File
  | Dir en rd kids => Dir (up && en) (up && rd) (if up then map (fun k => (k.1, seen (up && en) k.2)) kids else [])
  end.
(** where the command is run for a directory: in it, or at the start if it cannot be
    entered; twice if it cannot be read *)
Definition runs (t : tree) (p : path) : list path :=
  match lookup_path t p with
  | Some (Dir en rd _) => repeat (if en then p else []) (if rd then 1 else 2)
  | _ => []
  end.

(** *** Proofs *)
(** the paths visited, in order *)
Fixpoint visits (p : path) (name : string) (t : tree) : list path :=
  match t with
  | File => []
  | Dir _ _ kids =>
      if decide (name = "vendor") then [] else if decide (name = ".git") then [] else
      p :: (fix go (l : list (string * tree)) : list path := match l with [] => [] | (n, k) :: l => visits (p ++ [n]) n k ++ go l end) kids
  end.
Fixpoint visits_all (p : path) (l : list (string * tree)) : list path := match l with [] => [] | (n, k) :: l => visits (p ++ [n]) n k ++ visits_all p l end.
Fixpoint good_all (l : list (string * tree)) : Prop := match l with [] => True | (n, k) :: l => (n = "vendor" \/ n = ".git" \/ good k) /\ good_all l end.
Lemma visits_dir p name en rd kids : visits p name (Dir en rd kids) =
  if decide (name = "vendor") then [] else if decide (name = ".git") then [] else p :: visits_all p kids.
Proof.
  cbn. destruct (decide _); [reflexivity|]. destruct (decide _); [reflexivity|]. f_equal.
  induction kids as [|[n1 k] kids IH]; cbn; [reflexivity|]. rewrite IH. reflexivity.
Qed.
Lemma good_dir en rd kids : good (Dir en rd kids) <-> en = true /\ rd = true /\ NoDup kids.*1 /\ good_all kids.
Proof.
  cbn. repeat apply and_iff_compat_l. induction kids as [|[n k] kids IH]; cbn; [reflexivity|]. rewrite IH. reflexivity.
Qed.

Fixpoint named_all (l : list (string * tree)) : Prop := match l with [] => True | (n, k) :: l => (n = "vendor" \/ n = ".git" \/ named k) /\ named_all l end.
Lemma named_dir en rd kids : named (Dir en rd kids) <-> NoDup kids.*1 /\ named_all kids.
Proof.
  cbn. repeat apply and_iff_compat_l. induction kids as [|[n k] kids IH]; cbn; [reflexivity|]. rewrite IH. reflexivity.
Qed.

(** induction over trees *)
Lemma tree_rect' (P : tree -> Prop) : P File -> (forall en rd kids, Forall (fun k => P k.2) kids -> P (Dir en rd kids)) -> forall t, P t.
Proof.
  intros HF HD. fix IH 1. intros [|en rd kids]; [exact HF|]. apply HD.
  induction kids as [|[n k] kids IHk]; constructor; [apply IH|exact IHk].
Qed.

Lemma good_named t : good t -> named t.
Proof.
  induction t as [|en rd kids IH] using tree_rect'; [auto|]. rewrite good_dir, named_dir. intros (_ & _ & ND & H). split; [exact ND|].
  clear ND. induction IH as [|[n k] kids Hk IH IHl]; cbn in *; [exact I|]. split; [tauto|]. apply IHl. tauto.
Qed.
Lemma seen_named t : forall up, named t -> named (seen up t).
Proof.
  induction t as [|en rd kids IH] using tree_rect'; intros up; [auto|]. cbn [seen]. rewrite !named_dir. destruct up; [|split; [constructor|exact I]]. intros (ND & H). split.
  - rewrite <- list_fmap_compose. exact ND.
  - clear ND. induction IH as [|[n k] kids Hk IH IHl]; cbn in *; [exact I|]. split; [|apply IHl; tauto]. destruct H as [[?|[?|?]] _]; auto.
Qed.
Lemma walk_visits : forall t p name s, cwd s = Some [] -> name = "vendor" \/ name = ".git" \/ good t ->
  walk true p name true t s = Proc (Some []) (ran s ++ visits p name t).
Proof.
  induction t as [|en rd kids IH] using tree_rect'; intros p name [c r] Hc Hg; cbn in Hc; subst c.
  - cbn. rewrite app_nil_r. reflexivity.
  - rewrite visits_dir. cbn [walk]. unfold visit. destruct (decide (name = "vendor")); [cbn; rewrite app_nil_r; reflexivity|].
    destruct (decide (name = ".git")); [cbn; rewrite app_nil_r; reflexivity|].
    destruct Hg as [?|[?|Hg]]; [contradiction..|]. apply (proj1 (good_dir _ _ _)) in Hg as (-> & -> & _ & Hg).
    cbn -[walk]. rewrite decide_True by reflexivity. cbn -[walk].
    enough (G : forall q, (fix loop (l : list (string * tree)) (s : proc) : proc :=
       match l with [] => s | (n, k) :: l => loop l (walk true (p ++ [n]) n true k s) end) kids (Proc (Some []) q)
       = Proc (Some []) (q ++ visits_all p kids)) by (rewrite G, <- app_assoc; reflexivity).
    clear n n0. induction IH as [|[n k] kids Hk IH IHl]; intros q; cbn -[walk]; [rewrite app_nil_r; reflexivity|].
    destruct Hg as [Hg1 Hg2]. rewrite Hk by auto. cbn. rewrite IHl by exact Hg2. rewrite <- app_assoc. reflexivity.
Qed.

Lemma visits_prefix : forall t p name q, q ∈ visits p name t -> exists r, q = p ++ r.
Proof.
  induction t as [|en rd kids IH] using tree_rect'; intros p name q Hq.
  - inversion Hq.
  - rewrite visits_dir in Hq. destruct (decide _); [inversion Hq|]. destruct (decide _); [inversion Hq|].
    apply elem_of_cons in Hq as [->|Hq]; [exists []; rewrite app_nil_r; reflexivity|].
    induction IH as [|[n1 k] kids Hk IH IHl]; [inversion Hq|]. cbn in Hq. apply elem_of_app in Hq as [Hq|Hq]; [|auto].
    destruct (Hk _ _ _ Hq) as [r ->]. exists ([n1] ++ r). rewrite app_assoc. reflexivity.
Qed.
Lemma visits_all_prefix p kids q : q ∈ visits_all p kids -> exists n r, n ∈ kids.*1 /\ q = p ++ n :: r.
Proof.
  induction kids as [|[n k] kids IH]; cbn; intros H; [inversion H|]. apply elem_of_app in H as [H|H].
  - destruct (visits_prefix _ _ _ _ H) as [r ->]. exists n, r. split; [left|]. rewrite <- app_assoc. reflexivity.
  - destruct (IH H) as (n' & r & H1 & H2). exists n', r. split; [right; exact H1|exact H2].
Qed.

(** each path once *)
Lemma visits_nodup : forall t p name, name = "vendor" \/ name = ".git" \/ named t -> NoDup (visits p name t).
Proof.
  induction t as [|en rd kids IH] using tree_rect'; intros p name Hg; [constructor|].
  rewrite visits_dir. destruct (decide (name = "vendor")); [constructor|]. destruct (decide (name = ".git")); [constructor|].
  destruct Hg as [?|[?|Hg]]; [contradiction..|]. apply (proj1 (named_dir _ _ _)) in Hg as (ND & Hg). constructor.
  - intros H. destruct (visits_all_prefix _ _ _ H) as (n1 & r & _ & E). symmetry in E. rewrite <- (app_nil_r p) in E at 2.
    apply app_inv_head in E. discriminate.
  - clear n n0. induction IH as [|[n k] kids Hk IH IHl]; cbn; [constructor|]. destruct Hg as [Hg1 Hg2]. inversion ND as [|? ? N1 N2]; subst.
    apply NoDup_app. split; [apply Hk, Hg1|]. split; [|apply IHl; assumption]. intros q H1 H2.
    destruct (visits_prefix _ _ _ _ H1) as [r1 ->]. destruct (visits_all_prefix _ _ _ H2) as (n' & r2 & Hn & E).
    rewrite <- app_assoc in E. apply app_inv_head in E. injection E as <- _. exact (N1 Hn).
Qed.

(** exactly the paths to be visited *)
Lemma find_name (kids : list (string * tree)) n k : NoDup kids.*1 -> (n, k) ∈ kids -> exists i, list_find (fun x => x.1 = n) kids = Some (i, (n, k)).
Proof.
  induction kids as [|[n1 k1] kids IH]; intros ND H; [inversion H|]. cbn. inversion ND as [|? ? N1 N2]; subst. case_decide as D.
  - subst n1. apply elem_of_cons in H as [H|H]; [injection H as ->; eauto|]. exfalso. apply N1. change n with (fst (n, k)). apply elem_of_list_fmap_1. exact H.
  - apply elem_of_cons in H as [H|H]; [injection H as -> ->; contradiction|]. destruct (IH N2 H) as [i ->]. cbn. eauto.
Qed.
Lemma visits_spec : forall t p name q, name <> "vendor" -> name <> ".git" -> named t -> (p ++ q ∈ visits p name t <-> to_visit t q).
Proof.
  induction t as [|en rd kids IH] using tree_rect'; intros p name q Hv Hgit Hg.
  - split; [intros H; inversion H|]. intros [(d & E & D) _]. destruct q; cbn in E; [injection E as <-; destruct D|discriminate].
  - rewrite visits_dir. rewrite !decide_False by assumption. apply (proj1 (named_dir _ _ _)) in Hg as (ND & Hg). rewrite elem_of_cons.
    assert (A : forall r, p ++ r ∈ visits_all p kids <-> exists n k r', (n, k) ∈ kids /\ r = n :: r' /\ p ++ r ∈ visits (p ++ [n]) n k).
    { clear IH ND Hg. intros r. induction kids as [|[n k] kids IHl]; cbn.
      - split; [intros H; inversion H|]. intros (n & k & r' & H & _). inversion H.
      - rewrite elem_of_app, IHl. split.
        + intros [H|(n' & k' & r' & H1 & H2 & H3)].
          * destruct (visits_prefix _ _ _ _ H) as [r' E]. rewrite <- app_assoc in E. apply app_inv_head in E. exists n, k, r'. split; [left|]. auto.
          * exists n', k', r'. split; [right; exact H1|auto].
        + intros (n' & k' & r' & H1 & H2 & H3). apply elem_of_cons in H1 as [H1|H1]; [injection H1 as -> ->; auto|]. right. exists n', k', r'. auto. }
    assert (B : forall n k, (n, k) ∈ kids -> n = "vendor" \/ n = ".git" \/ named k).
    { clear -Hg. induction kids as [|[n1 k1] kids IH]; intros n k H; [inversion H|]. destruct Hg as [H1 H2].
      apply elem_of_cons in H as [H|H]; [injection H as -> ->; exact H1|auto]. }
    split.
    + intros [E|H].
      * rewrite <- (app_nil_r p) in E at 2. apply app_inv_head in E as ->. split; [exists (Dir en rd kids); split; [reflexivity|exact I]|constructor].
      * apply A in H as (n & k & r & Hk & -> & H). replace (p ++ n :: r) with ((p ++ [n]) ++ r) in H by (rewrite <- app_assoc; reflexivity).
        assert (N : n <> "vendor" /\ n <> ".git").
        { destruct k; [inversion H|]. rewrite visits_dir in H. destruct (decide _); [inversion H|]. destruct (decide _); [inversion H|]. auto. }
        rewrite Forall_forall in IH. pose proof (IH (n, k) Hk) as IHk. cbn in IHk.
        apply IHk in H; [|tauto|tauto|destruct (B n k Hk) as [?|[?|?]]; tauto]. destruct H as [(d & E & D) F].
        destruct (find_name kids n k ND Hk) as [i Ei]. split; [|constructor; assumption]. exists d. split; [|exact D]. cbn. rewrite Ei. exact E.
    + intros [(d & E & D) F]. destruct q as [|n r]; [left; apply app_nil_r|]. right. apply A. inversion F as [|? ? N F']; subst.
      cbn in E. destruct (list_find _ kids) as [[i [n' k]]|] eqn:Ef; [|discriminate]. apply list_find_Some in Ef as (E1 & E2 & _). cbn in E2. subst n'.
      exists n, k, r. pose proof (elem_of_list_lookup_2 _ _ _ E1) as Hk. split; [exact Hk|]. split; [reflexivity|].
      replace (p ++ n :: r) with ((p ++ [n]) ++ r) by (rewrite <- app_assoc; reflexivity).
      rewrite Forall_forall in IH. pose proof (IH (n, k) Hk) as IHk. cbn in IHk.
      apply IHk; [tauto|tauto|destruct (B n k Hk) as [?|[?|?]]; tauto|]. split; [eauto|exact F'].
Qed.
(** a directory before those inside it *)
Lemma visits_preorder : forall t p name q1 q2 r, name = "vendor" \/ name = ".git" \/ named t ->
  visits p name t = q1 ++ r :: q2 -> forall r', r' ∈ q1 -> ~ exists x, r' = r ++ x.
Proof.
  induction t as [|en rd kids IH] using tree_rect'; intros p name q1 q2 r Hg E r' Hr' (x & Er).
  - destruct q1; discriminate.
  - pose proof (visits_nodup (Dir en rd kids) p name Hg) as NDv.
    rewrite visits_dir in E, NDv. destruct (decide (name = "vendor")); [destruct q1; discriminate|]. destruct (decide (name = ".git")); [destruct q1; discriminate|].
    destruct Hg as [?|[?|Hg]]; [contradiction..|]. apply (proj1 (named_dir _ _ _)) in Hg as (ND & Hg).
    destruct q1 as [|q q1]; [inversion Hr'|]. injection E as <- E. apply NoDup_cons in NDv as [_ NDa].
    apply elem_of_cons in Hr' as [->|Hr'].
    + destruct (visits_all_prefix p kids r) as (n1 & z & _ & Ez); [rewrite E; apply elem_of_app; right; left|]. subst r.
      rewrite <- (app_nil_r p) in Er at 1. rewrite <- app_assoc in Er. apply app_inv_head in Er. discriminate.
    + clear n n0. revert q1 E Hr' ND Hg NDa. induction IH as [|[n1 k] kids Hk IH IHl]; intros q1 E Hr' ND Hg NDa; [destruct q1; discriminate|]. cbn in E, NDa.
      destruct Hg as [Hg1 Hg2]. apply NoDup_cons in ND as [N1 N2]. apply NoDup_app in NDa as (_ & _ & NDa).
      assert (X : r' ∈ visits (p ++ [n1]) n1 k -> r ∈ visits_all p kids -> False).
      { intros H1 H2. destruct (visits_prefix _ _ _ _ H1) as [y Hy]. destruct (visits_all_prefix _ _ _ H2) as (n2 & z & Hn & Ez).
        rewrite Ez, Hy, <- !app_assoc in Er. apply app_inv_head in Er. injection Er as -> _. exact (N1 Hn). }
      symmetry in E. destruct (decide (length q1 < length (visits (p ++ [n1]) n1 k))) as [D|D].
      * apply app_eq_inv in E as [(l & E1 & E2)|(l & E1 & E2)]; [exfalso; subst q1; rewrite app_length in D; lia|].
        destruct l as [|y l]; [exfalso; rewrite E1, app_length in D; cbn in D; lia|]. cbn in E2. injection E2 as -> E2.
        eapply (Hk (p ++ [n1]) n1 q1 l y Hg1 E1 r' Hr'). eauto.
      * apply app_eq_inv in E as [(l & E1 & E2)|(l & E1 & E2)].
        -- subst q1. apply elem_of_app in Hr' as [Hr'|Hr'].
           ++ apply X; [exact Hr'|]. rewrite E2. apply elem_of_app. right. left.
           ++ eapply IHl; eauto.
        -- destruct l as [|y l]; [|exfalso; rewrite E1, app_length in D; cbn in D; lia]. rewrite app_nil_r in E1. cbn in E2.
           apply X; [rewrite E1; exact Hr'|rewrite <- E2; left].
Qed.

(** C104: started in a directory tree [t] in which every directory that is not below a
    vendor or a .git can be entered and read, the program runs its command exactly once in
    each of those directories, in no other place, in a directory before the directories
    inside it, and ends where it was started. *)
Theorem cmd_each_directory_once_partial : forall t, good t -> is_dir t ->
  cwd (main_ true t) = Some [] /\
  NoDup (ran (main_ true t)) /\
  (forall p, p ∈ ran (main_ true t) <-> to_visit t p) /\
  (forall q1 r q2 r' x, ran (main_ true t) = q1 ++ r :: q2 -> r' ∈ q1 -> r' <> r ++ x).
Proof.
  intros t Hg Hd. pose proof (good_named t Hg) as Hn. unfold main_. rewrite walk_visits by auto. cbn -[visits]. split; [reflexivity|]. split; [apply visits_nodup; auto|]. split.
  - intros p. exact (visits_spec t [] "." p ltac:(discriminate) ltac:(discriminate) (good_named t Hg)).
  - intros q1 r q2 r' x E Hr' Er. eapply visits_preorder; [|exact E|exact Hr'|eauto]. auto.
Qed.
Print Assumptions cmd_each_directory_once_partial.

(** C104: in any tree, exactly.  The directories that are met are those that can be seen,
    each once, one before those inside it; for each of them the command is run as [runs]
    says, and the program ends where it was started. *)
Lemma walk_exact T : forall t p name up s, cwd s = Some [] ->
  (forall q, lookup_path T (p ++ q) = lookup_path (seen up t) q) -> named t ->
  walk true p name up t s = Proc (Some []) (ran s ++ flat_map (runs T) (visits p name (seen up t))).
Proof.
  induction t as [|en rd kids IH] using tree_rect'; intros p name up [c r] Hc HT Hn; cbn in Hc; subst c.
  - cbn. rewrite app_nil_r. reflexivity.
  - cbn [seen]. rewrite visits_dir. cbn [walk]. unfold visit. destruct (decide (name = "vendor")); [cbn; rewrite app_nil_r; reflexivity|].
    destruct (decide (name = ".git")); [cbn; rewrite app_nil_r; reflexivity|].
    apply (proj1 (named_dir _ _ _)) in Hn as (ND & Hn).
    assert (R : runs T p = repeat (if up && en then p else []) (if up && rd then 1 else 2)).
    { unfold runs. specialize (HT []). rewrite app_nil_r in HT. rewrite HT. reflexivity. }
    assert (G : up = true -> forall q, (fix loop (l : list (string * tree)) (s : proc) : proc :=
       match l with [] => s | (n, k) :: l => loop l (walk true (p ++ [n]) n (up && en) k s) end) kids (Proc (Some []) q)
       = Proc (Some []) (q ++ flat_map (runs T) (visits_all p (map (fun k => (k.1, seen (up && en) k.2)) kids)))).
    { intros ->. assert (HK : forall n k, (n, k) ∈ kids -> forall q, lookup_path T ((p ++ [n]) ++ q) = lookup_path (seen (true && en) k) q).
      { intros m k Hk q. rewrite <- app_assoc. cbn [app]. rewrite HT. cbn [seen lookup_path].
        destruct (find_name (map (fun k => (k.1, seen (true && en) k.2)) kids) m (seen (true && en) k)) as [i ->]; [rewrite <- list_fmap_compose; exact ND|apply elem_of_list_fmap; exists (m, k); auto|reflexivity]. }
      clear HT R ND. revert Hn HK. induction IH as [|[m k] kids Hk IH IHl]; intros Hn HK q; cbn -[walk visits]; [rewrite app_nil_r; reflexivity|].
      destruct Hn as [Hn1 Hn2]. assert (X : walk true (p ++ [m]) m en k (Proc (Some []) q) = Proc (Some []) (q ++ flat_map (runs T) (visits (p ++ [m]) m (seen en k)))).
      { destruct (decide (m = "vendor")) as [->|]; [destruct k as [|a b l]; cbn; rewrite app_nil_r; reflexivity|].
        destruct (decide (m = ".git")) as [->|]; [destruct k as [|a b l]; cbn; rewrite app_nil_r; reflexivity|].
        apply (Hk (p ++ [m]) m en (Proc (Some []) q) eq_refl); [apply (HK m k); left|destruct Hn1 as [?|[?|?]]; [contradiction..|assumption]]. }
      rewrite X. rewrite IHl; [|exact Hn2|intros a b Hab; apply (HK a b); right; exact Hab]. rewrite flat_map_app, app_assoc. reflexivity. }
    cbn [flat_map]. rewrite R. unfold chdir, run_command, chdir_home. cbn [cwd]. rewrite decide_True by reflexivity.
    destruct up; cbn [andb]; [|destruct en, rd; cbn -[walk visits]; rewrite <- app_assoc; reflexivity].
    specialize (G eq_refl). cbn [andb] in G. destruct en, rd; cbn -[walk visits flat_map visits_all] in *; rewrite G, <- ?app_assoc; reflexivity.
Qed.
Theorem cmd_exact : forall t, named t -> is_dir t -> exists vs,
  ran (main_ true t) = flat_map (runs (seen true t)) vs /\ cwd (main_ true t) = Some [] /\
  NoDup vs /\ (forall p, p ∈ vs <-> to_visit (seen true t) p) /\
  (forall q1 r q2 r' x, vs = q1 ++ r :: q2 -> r' ∈ q1 -> r' <> r ++ x).
Proof.
  intros t Hn Hd. pose proof (seen_named t true Hn) as Hs. exists (visits [] "." (seen true t)). unfold main_. rewrite (walk_exact (seen true t)) by auto. cbn -[visits].
  split; [reflexivity|]. split; [reflexivity|]. split; [apply visits_nodup; auto|]. split.
  - intros p. exact (visits_spec (seen true t) [] "." p ltac:(discriminate) ltac:(discriminate) Hs).
  - intros q1 r q2 r' x E Hr' Er. eapply visits_preorder; [|exact E|exact Hr'|eauto]. auto.
Qed.
Print Assumptions cmd_exact.
(** a directory a that can be read and not entered, one b the other way round: the
    command is run at the start for a, for a/c and again for a/c, whose entry d is not
    seen, and twice in b *)
Example cmd_exact_case :
  let t := Dir true true [("a", Dir false true [("c", Dir true true [("d", Dir true true [])])]); ("b", Dir true false [])] in
  named t /\ is_dir t /\ ran (main_ true t) = [[]; []; []; []; ["b"]; ["b"]].
Proof. cbn. split; [|split; [exact I|reflexivity]]. repeat split; auto; repeat constructor; set_solver. Qed.

(** C104 (natural statement, false) without those permissions: a directory that cannot be
    entered has the command run in the directory where the program was started instead,
    one that cannot be read has it run twice.  (For os.Getwd failing see CmdWdProps.v.) *)
Theorem cmd_permissions_refuted :
  ran (main_ true (Dir true true [("a", Dir false true [])])) = [[]; []] /\
  ran (main_ true (Dir true true [("a", Dir true false [])])) = [[]; ["a"]; ["a"]].
Proof. repeat split. Qed.
Print Assumptions cmd_permissions_refuted.
(** and if it is a file that is named vendor, nothing is skipped; a directory named
    vendor is skipped at any depth *)
Example cmd_case :
  let t := Dir true true [(".git", Dir false false []); ("a", Dir true true [("vendor", Dir true true [("x", Dir true true [])]); ("z", Dir true true [])]);
                          ("go.mod", File); ("vendor", File); ("w", Dir true true [])] in
  good t /\ is_dir t /\ ran (main_ true t) = [[]; ["a"]; ["a"; "z"]; ["w"]].
Proof.
  cbn. split; [|split; [exact I|reflexivity]]. repeat split; auto; repeat constructor; set_solver.
Qed.
