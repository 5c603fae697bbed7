(** sync.Pool, under every interleaving of its users and of the garbage collector: it is a bag,
    loses nothing but to the collector, and hands nothing out twice. *)
From Verif Require Import Base Conc PDeqModel PDeqSpec PDeqProofs PDeqCount GPoolModel GPoolSpec GPoolProofs.
Open Scope nat_scope.

(** *** What is seen of the pool is what is seen of a bag: what is got was put and was not got since *)
Theorem gpool_is_a_bag m tr s : steps g_step (g_init m) tr s -> exists b, steps b_step [] tr b.
Proof. intros HS. destruct (J_steps m tr s HS) as (b & B & _). exists b. exact B. Qed.
Print Assumptions gpool_is_a_bag.

(** *** Nothing is lost but to the collector: when nobody is inside, what was put is what was got, what the
    collector dropped, and what can still be got *)
Theorem gpool_conserves m tr s : steps g_step (g_init m) tr s -> g_quiet s ->
  forall x, puts x tr = gets x tr + drops x tr + count_occ Nat.eq_dec (g_items s) x.
Proof.
  intros HS HQ x. destruct (J_steps m tr s HS) as (b & B & HJ). rewrite (bag_count tr b B x). f_equal. apply cnt_perm. apply J_quiet; assumption.
Qed.
Print Assumptions gpool_conserves.
Theorem gpool_got_was_put m tr s : steps g_step (g_init m) tr s -> forall x, gets x tr <= puts x tr.
Proof. intros HS x. destruct (J_steps m tr s HS) as (b & B & _). rewrite (bag_count tr b B x). lia. Qed.
Print Assumptions gpool_got_was_put.

(** *** An object that New made once, and that is put only by who has it, is never handed out twice with no
    Put between, and after New made it only when it was put *)
Theorem gpool_hands_out_once m t1 x t2 s : steps g_step (g_init m) (t1 ++ GGet x :: t2 ++ [GGet x]) s ->
  disciplined x t1 -> mades x t1 <= 1 -> 0 < puts x t2.
Proof.
  intros HS HD HM. pose proof (gpool_got_was_put m _ s HS x) as G. specialize (HD t1 ltac:(reflexivity)).
  unfold puts, gets, mades in *. rewrite !sum_list_with_app in G. cbn [sum_list_with] in G. rewrite !sum_list_with_app in G. cbn [sum_list_with] in G. rewrite decide_True in G by reflexivity. lia.
Qed.
Print Assumptions gpool_hands_out_once.
Theorem gpool_made_then_got m t1 x t2 s : steps g_step (g_init m) (t1 ++ GNew x :: t2 ++ [GGet x]) s ->
  disciplined x t1 -> mades x t1 = 0 -> 0 < puts x t2.
Proof.
  intros HS HD HM. pose proof (gpool_got_was_put m _ s HS x) as G. specialize (HD t1 ltac:(reflexivity)).
  unfold puts, gets, mades in *. rewrite !sum_list_with_app in G. cbn [sum_list_with] in G. rewrite !sum_list_with_app in G. cbn [sum_list_with] in G. rewrite decide_True in G by reflexivity. lia.
Qed.
Print Assumptions gpool_made_then_got.

(** *** Who puts an object twice gets it twice *)
Theorem gpool_double_put_refuted : ~ (forall m t1 x t2 s, steps g_step (g_init m) (t1 ++ GGet x :: t2 ++ [GGet x]) s -> mades x t1 <= 1 -> 0 < puts x t2).
Proof.
  intros F. assert (0 < puts 7 []); [|vm_compute in *; lia]. eapply (F 2 [GNew 7; GPut 7; GPut 7] 7 []); [|vm_compute; lia]. cbn [app]. unfold g_init. cbn [replicate].
  eapply steps_cons; [apply gs_new|]. eapply steps_cons; [apply (gs_put_priv _ _ _ _ 0); reflexivity|]. eapply steps_cons; [apply (gs_put_priv _ _ _ _ 1); reflexivity|].
  eapply steps_cons; [apply (gs_get_priv _ _ _ _ 0); reflexivity|]. eapply steps_cons; [apply (gs_get_priv _ _ _ _ 1); reflexivity|]. apply steps_nil.
Qed.
Print Assumptions gpool_double_put_refuted.

(** *** What a collection drops was put before the previous collection: an object in the pool survives one
    collection *)
Theorem gpool_drops_old m t1 c1 t2 c2 s : steps g_step (g_init m) (t1 ++ GDrop c1 :: t2 ++ [GDrop c2]) s -> (forall c, GDrop c ∉ t2) ->
  forall x, gets x t1 + drops x (t1 ++ GDrop c1 :: t2 ++ [GDrop c2]) <= puts x t1.
Proof.
  intros HS ND x.
  change (GDrop c1 :: t2 ++ [GDrop c2]) with ([GDrop c1] ++ t2 ++ [GDrop c2]) in HS. apply steps_app_inv in HS as (s0 & S0 & HS). apply steps_app_inv in HS as (s1 & S1 & HS). apply steps_app_inv in HS as (s2 & S2 & S3).
  apply steps_one in S1, S3. destruct (J_steps m t1 s0 S0) as (b & B & HJ). destruct (VB_gc _ _ _ _ S1 HJ) as (HQ & Ec & HV).
  assert (V2 : VB s2 (fun x => count_occ Nat.eq_dec (items (g_priv s0) (g_dq s0)) x)).
  { clear -S2 HV ND. induction S2 as [s|s tr s1' l s2' S2 IH Hst]; [exact HV|]. eapply VB_step; [exact Hst| |apply IH; [|exact HV]].
    - intros c ->. apply (ND c). apply elem_of_app. right. left.
    - intros c Hc. apply (ND c). apply elem_of_app. left. exact Hc. }
  pose proof (VB_drop _ _ _ _ S3 V2 x) as D2. cbn in D2. pose proof (bag_count t1 b B x) as C. rewrite (cnt_perm x _ _ (J_quiet _ _ HJ HQ)) in C. unfold g_items in C. rewrite count_occ_app, <- Ec in C.
  assert (Z2 : drops x t2 = 0). { clear -ND. unfold drops. induction t2 as [|l t2 IH]; [reflexivity|]. cbn. rewrite IH by (intros c Hc; apply (ND c); right; exact Hc). destruct l; try reflexivity. exfalso. apply (ND c). left. }
  unfold drops in *. rewrite sum_list_with_app. cbn [sum_list_with]. rewrite sum_list_with_app. cbn [sum_list_with]. lia.
Qed.
Print Assumptions gpool_drops_old.
(** the first collection drops nothing *)
Theorem gpool_first_collection m t1 c1 s : steps g_step (g_init m) (t1 ++ [GDrop c1]) s -> (forall c, GDrop c ∉ t1) -> c1 = [].
Proof.
  intros HS ND. apply steps_app_inv in HS as (s0 & S0 & S1). apply steps_one in S1.
  assert (V : VB s0 (fun _ => 0)).
  { clear S1. remember (g_init m) as i eqn:E. revert E. induction S0 as [s'|s' tr s1' l s2' S2 IH Hst]; intros ->.
    - exists []. cbn. split; [constructor|]. split; [constructor|]. intros x. lia.
    - eapply VB_step; [exact Hst| |apply IH; [|reflexivity]].
      + intros c ->. apply (ND c). apply elem_of_app. right. left.
      + intros c Hc. apply (ND c). apply elem_of_app. left. exact Hc. }
  destruct c1 as [|x c1]; [reflexivity|]. pose proof (VB_drop _ _ _ _ S1 V x) as D. rewrite cnt_cons, decide_True in D by reflexivity. cbn in D. lia.
Qed.
Print Assumptions gpool_first_collection.

Local Lemma gs_dq' ps qs vps vqs k q l q' L : qs !! k = Some q -> q_step q l q' -> L = g_lab l -> g_step (GP ps qs vps vqs) L (GP ps (<[k := q']> qs) vps vqs).
Proof. intros A B ->. eapply gs_dq; eassumption. Qed.
Local Tactic Notation "dq" uconstr(t) := eapply steps_cons; [eapply (gs_dq' _ _ _ _ 0); [reflexivity|eapply qs; [eapply t; reflexivity || (cbn; discriminate)|cbn; auto; fail|left; reflexivity|auto; fail]|reflexivity]|]; cbn [list_insert insert].
(** an execution: two objects made, one kept in the place of the P, one in a dequeue from which another goroutine takes it; two collections *)
Example gpool_case : exists s, steps g_step (g_init 1)
  [GNew 7; GNew 8; GPut 7; GTau; GTau; GTau; GTau; GTau; GTau; GPut 8; GTau; GTau; GTau; GTau; GTau; GGet 8; GDrop []; GDrop [7]] s /\ g_quiet s.
Proof.
  eexists. split.
  - unfold g_init. cbn [replicate]. eapply steps_cons; [apply gs_new|]. eapply steps_cons; [apply gs_new|]. eapply steps_cons; [apply (gs_put_priv _ _ _ _ 0); reflexivity|].
    eapply steps_cons; [apply (gs_chain _ _ _ _ 8%Z); [split; reflexivity|exists (2^29)%Z; reflexivity]|]. cbn [app list_insert insert]. unfold d_init.
    dq (ds_push _ _ _ _ _ 8). dq ds_push_load. dq ds_push_free. dq ds_push_t. dq ds_push_tv. dq ds_push_add.
    dq (ds_tail _ _ _ _ _ _ 3). dq (ds_tail_load _ _ _ _ _ _ 3). dq (ds_tail_cas _ _ _ _ _ _ 3). dq (ds_tail_read _ _ _ _ _ _ 3). dq (ds_tail_val _ _ _ _ _ _ 3). dq (ds_tail_typ _ _ _ _ _ _ 3).
    eapply steps_cons; [eapply (gs_gc _ _ [] [])|].
    { split; [constructor; [|constructor]|constructor]. split; [reflexivity|]. intros i. cbn. unfold tset. destruct (decide (i = 3)); reflexivity. }
    eapply steps_cons; [|apply steps_nil]. eapply (gs_gc _ _ [Some 7]).
    split; [constructor|constructor; [|constructor]]. split; [reflexivity|]. intros i. cbn. unfold tset. destruct (decide (i = 3)); reflexivity.
  - split; constructor.
Qed.
