From Verif Require Import Base Conc LockModel.
Ltac cases u t := destruct (decide (u = t)) as [->|]; [rewrite ?tset_eq in *|rewrite ?tset_ne in * by assumption].

Definition inside (p : kpc) : Prop := match p with KBody | KRel | KDead => True | _ => False end.
Record kinv (s : kstate) : Prop := {
  ki_excl : forall t u, inside (k_th s t) -> inside (k_th s u) -> t = u;
  ki_word : (k_word s = Nil /\ exists t, inside (k_th s t)) \/ (k_word s = Own /\ forall t, ~ inside (k_th s t)) }.

Lemma kinv_reach s : reach (k_init Own) k_step s -> kinv s.
Proof.
  apply reach_invariant.
  - split; cbn; [tauto|]. right. auto.
  - intros s' l s'' [E W] H. destruct H as [w th t H|th t H|w th t H Hw|w th t H|w th t H|th t H|w th t H Hw]; cbn [k_th k_word] in *.
    + split; cbn [k_th k_word].
      * intros a b. cases a t; [intros []|]. cases b t; [intros _ []|]. apply E.
      * destruct W as [[W [u Hu]]|[W N]]; [left|right]; (split; [exact W|]).
        -- exists u. cases u t; [rewrite H in Hu; destruct Hu|exact Hu].
        -- intros u. cases u t; [intros []|apply N].
    + destruct W as [[W _]|[_ N]]; [discriminate|]. split; cbn [k_th k_word].
      * intros a b Ha Hb. cases a t; [cases b t; [reflexivity|destruct (N _ Hb)]|destruct (N _ Ha)].
      * left. split; [reflexivity|]. exists t. rewrite tset_eq. exact I.
    + split; assumption.
    + split; cbn [k_th k_word].
      * intros a b Ha Hb. apply E; [cases a t; [rewrite H; exact I|exact Ha]|cases b t; [rewrite H; exact I|exact Hb]].
      * destruct W as [[W [u Hu]]|[W N]]; [left|exfalso; apply (N t); rewrite H; exact I]. split; [exact W|].
        exists u. cases u t; [exact I|exact Hu].
    + split; cbn [k_th k_word].
      * intros a b Ha Hb. apply E; [cases a t; [rewrite H; exact I|exact Ha]|cases b t; [rewrite H; exact I|exact Hb]].
      * destruct W as [[W [u Hu]]|[W N]]; [left|exfalso; apply (N t); rewrite H; exact I]. split; [exact W|].
        exists u. cases u t; [exact I|exact Hu].
    + assert (N : forall u, u <> t -> ~ inside (th u)).
      { intros u Hu Hi. apply Hu. apply E; [exact Hi|rewrite H; exact I]. }
      split; cbn [k_th k_word].
      * intros a b. cases a t; [intros []|]. intros Ha. destruct (N a); assumption.
      * right. split; [reflexivity|]. intros u. cases u t; [intros []|apply N; assumption].
    + split; assumption.
Qed.
(** Lock on anything else never gets in *)
Lemma never_in w s : w <> Own -> reach (k_init w) k_step s ->
  k_word s = w /\ forall t, k_th s t = KIdle \/ k_th s t = KTry.
Proof.
  intros Hw. apply (reach_invariant (k_init w) k_step (fun s => k_word s = w /\ forall t, k_th s t = KIdle \/ k_th s t = KTry)); [split; auto|].
  clear s. intros s l s' [E N] H. destruct H as [w' th t H|th t H|w' th t H Hw'|w' th t H|w' th t H|th t H|w' th t H Hw']; cbn [k_th k_word] in *;
    try (destruct (N t); congruence); [|auto].
  split; [exact E|]. intros u. cases u t; auto.
Qed.
Lemma count_snoc t e tr u v : count_ev t e (tr ++ [(u, v)]) = count_ev t e tr + (if decide (u = t) then if e v then 1 else 0 else 0).
Proof.
  unfold count_ev. rewrite filter_app, app_length. f_equal. rewrite filter_cons, filter_nil. cbn [fst snd].
  destruct (decide (u = t)) as [->|Hn]; [destruct (e v) eqn:Ev|].
  - rewrite decide_True by auto. reflexivity.
  - rewrite decide_False by (intros [_ E]; congruence). reflexivity.
  - rewrite decide_False by tauto. reflexivity.
Qed.
Definition pcn (p : kpc) : nat * nat * nat := (* calls - enters, enters - leaves, enters - releases *)
  match p with KIdle => (0, 0, 0) | KTry => (1, 0, 0) | KBody => (0, 1, 1) | KRel => (0, 0, 1) | KDead => (0, 0, 1) end.
Lemma counts w tr s : steps k_step (k_init w) tr s -> forall t,
  count_ev t is_call tr = count_ev t is_enter tr + (pcn (k_th s t)).1.1 /\
  count_ev t is_enter tr = count_ev t is_leave tr + (pcn (k_th s t)).1.2 /\
  count_ev t is_enter tr = count_ev t is_release tr + (pcn (k_th s t)).2.
Proof.
  apply (steps_trace_invariant (k_init w) k_step (fun tr s => forall t,
    count_ev t is_call tr = count_ev t is_enter tr + (pcn (k_th s t)).1.1 /\
    count_ev t is_enter tr = count_ev t is_leave tr + (pcn (k_th s t)).1.2 /\
    count_ev t is_enter tr = count_ev t is_release tr + (pcn (k_th s t)).2)).
  - intros t. unfold count_ev. cbn. lia.
  - clear tr s. intros tr s l s' _ IH H u. specialize (IH u).
    destruct H as [w' th t H|th t H|w' th t H Hw'|w' th t H|w' th t H|th t H|w' th t H Hw']; cbn [k_th] in *;
      rewrite !count_snoc; cbn [is_call is_enter is_leave is_release];
      (destruct (decide (t = u)) as [->|]; [rewrite ?tset_eq, H in *; cbn [pcn fst snd] in *; lia|rewrite ?tset_ne by auto; lia]).
Qed.
