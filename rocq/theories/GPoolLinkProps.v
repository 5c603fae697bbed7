(** The pool that is made of queues is the pool of the documentation: what the other models assume of sync.Pool holds of it. *)
From Verif Require Import Base Conc PDeqModel GPoolModel GPoolSpec GPoolProofs SyncPoolModel GPoolProps.
Open Scope nat_scope.

(** the calls of a trace, and what they returned; an object that New made is returned by the Get that called New *)
Definition call_of (l : glab) : option (pop * option nat) :=
  match l with GPut x => Some (PPut x, None) | GGet x | GNew x => Some (PGet, Some x) | GDrop _ | GTau => None end.
(** what the calls of New returned, in order *)
Definition made_of (l : glab) : option nat := match l with GNew x => Some x | _ => None end.

Section link.
Context (news : nat -> nat).
Lemma link_bag tr : forall b b' st rest, steps b_step b tr b' -> p_init st = true -> p_pool st ≡ₚ b ++ rest ->
  (forall i x, omap made_of tr !! i = Some x -> x = news (p_made st + i)) ->
  exists os st', map snd os = map fst (omap call_of tr) /\ run (p_step news) st os = (map snd (omap call_of tr), Ret st').
Proof.
  induction tr as [|l tr IH]; intros b b' st rest HS HI HP HN; [exists [], st; split; reflexivity|].
  change (l :: tr) with ([l] ++ tr) in HS. apply steps_app_inv in HS as (b1 & S1 & S2). apply steps_one in S1.
  assert (FT : filter (fun x => (fun _ : nat => true) x = true) (p_pool st) = p_pool st) by (clear; induction (p_pool st) as [|y l' IHl]; [reflexivity|]; rewrite filter_cons_True by reflexivity; f_equal; exact IHl).
  destruct S1 as [b x|b x b1 P|b c b1 P|b x|b].
  - destruct (IH _ _ (PS true (x :: p_pool st) (p_made st)) rest S2 eq_refl) as (os & st' & A & B); [cbn; rewrite HP; reflexivity|exact HN|].
    exists ((Env (fun _ => true) None, PPut x) :: os), st'. split; [cbn; f_equal; exact A|]. cbn. rewrite FT. rewrite HI, B. reflexivity.
  - assert (HX : x ∈ p_pool st) by (rewrite HP, P; left). apply elem_of_list_lookup in HX as [i Hi].
    assert (HD : p_pool st ≡ₚ x :: take i (p_pool st) ++ drop (S i) (p_pool st)) by (rewrite <- (take_drop_middle _ _ _ Hi) at 1; rewrite Permutation_middle; reflexivity).
    destruct (IH _ _ (PS true (take i (p_pool st) ++ drop (S i) (p_pool st)) (p_made st)) rest S2 eq_refl) as (os & st' & A & B).
    { cbn [p_pool]. rewrite HP, P in HD at 1. cbn [app] in HD. apply Permutation_cons_inv in HD. symmetry. exact HD. }
    { exact HN. }
    exists ((Env (fun _ => true) (Some i), PGet) :: os), st'. split; [cbn; f_equal; exact A|]. cbn. unfold pool_get. cbn. rewrite FT, Hi. cbn. rewrite HI, B. reflexivity.
  - destruct (IH _ _ st (c ++ rest) S2 HI) as (os & st' & A & B); [rewrite HP, P, (Permutation_app_comm c b1), <- app_assoc; reflexivity|exact HN|]. exists os, st'. auto.
  - destruct (IH _ _ (PS true (p_pool st) (S (p_made st))) rest S2 eq_refl HP) as (os & st' & A & B).
    { intros i y Hy. cbn [p_made]. rewrite (HN (S i) y Hy). f_equal. lia. }
    exists ((Env (fun _ => true) None, PGet) :: os), st'. split; [cbn; f_equal; exact A|]. cbn. unfold pool_get. cbn. rewrite FT, HI, B.
    rewrite (HN 0 x eq_refl), Nat.add_0_r. reflexivity.
  - destruct (IH _ _ st rest S2 HI HP HN) as (os & st' & A & B). exists os, st'. auto.
Qed.
End link.
(** *** Every history of the pool made of queues is one of the pool that C46 is about: the same calls, in the order in which they
    take effect, return the same objects *)
Theorem gpool_is_the_pool m tr s news : steps g_step (g_init m) tr s -> (forall i x, omap made_of tr !! i = Some x -> x = news i) ->
  exists os st, map snd os = map fst (omap call_of tr) /\ run (p_step news) p_zero ((Env (fun _ => true) None, PInit) :: os) = (None :: map snd (omap call_of tr), Ret st).
Proof.
  intros HS HN. destruct (gpool_is_a_bag m tr s HS) as [b B].
  destruct (link_bag news tr [] b (PS true [] 0) [] B eq_refl ltac:(reflexivity) HN) as (os & st & A & C). exists os, st. split; [exact A|]. cbn. rewrite C. reflexivity.
Qed.
Print Assumptions gpool_is_the_pool.
(** two objects are made and put on different Ps; one is got, the other is dropped by two collections, so that New is called again *)
Example gpool_link_case : exists s, steps g_step (g_init 2) [GNew 7; GNew 8; GPut 7; GPut 8; GGet 7; GDrop []; GDrop [8]; GNew 9] s /\
  (forall i x, omap made_of [GNew 7; GNew 8; GPut 7; GPut 8; GGet 7; GDrop []; GDrop [8]; GNew 9] !! i = Some x -> x = 7 + i).
Proof.
  eexists. split.
  - unfold g_init. cbn [replicate]. eapply steps_cons; [apply gs_new|]. eapply steps_cons; [apply gs_new|].
    eapply steps_cons; [apply (gs_put_priv _ _ _ _ 0); reflexivity|]. eapply steps_cons; [apply (gs_put_priv _ _ _ _ 1); reflexivity|].
    eapply steps_cons; [apply (gs_get_priv _ _ _ _ 0); reflexivity|]. eapply steps_cons; [apply (gs_gc _ _ [] []); split; constructor|].
    eapply steps_cons; [apply (gs_gc _ _ [None; Some 8] []); split; constructor|]. eapply steps_cons; [apply gs_new|]. apply steps_nil.
  - intros i x. destruct i as [|[|[|i]]]; cbn; intros Q; try (injection Q as <-; reflexivity). destruct i; discriminate Q.
Qed.
