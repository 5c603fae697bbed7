(** What is in a deque, counted. *)
From Verif Require Import Base Conc PDeqModel PDeqSpec PDeqProofs.
Open Scope nat_scope.

(** how often x is put in, and returned, at a step *)
Definition push_of (x : nat) (l : dlab) : nat := match l with LPush y => if decide (y = x) then 1 else 0 | _ => 0 end.
Definition ret_of (x : nat) (l : dlab) : nat :=
  match l with LHeadRet (Some y) | LTailRet _ (Some y) => if decide (y = x) then 1 else 0 | _ => 0 end.
Notation cnt x c := (count_occ Nat.eq_dec c x).
(** c is what is in the deque or in the hands of those who take from it *)
Definition inside (a : adq) (c : list nat) : Prop :=
  exists m : list (nat * nat), NoDup (m.*1) /\ (forall i x, (i, x) ∈ m <-> a_hand a i = Some x) /\
    c = a_l a ++ option_list (a_own a) ++ m.*2.

Lemma cnt_cons x y c : cnt x (y :: c) = (if decide (y = x) then 1 else 0) + cnt x c.
Proof. cbn. destruct (Nat.eq_dec y x), (decide (y = x)); congruence || reflexivity. Qed.
Lemma inside_init : inside a_init [].
Proof. exists []. split; [constructor|]. split; [|reflexivity]. intros i x. split; intros H; [inversion H|discriminate]. Qed.
Lemma hand_add (g : nat -> option nat) m i x : NoDup (m.*1) -> (forall j y, (j, y) ∈ m <-> g j = Some y) -> g i = None ->
  NoDup (((i, x) :: m).*1) /\ forall j y, (j, y) ∈ (i, x) :: m <-> tset g i (Some x) j = Some y.
Proof.
  intros N E Hi. split.
  - cbn. constructor; [|exact N]. intros Hm. apply elem_of_list_fmap in Hm as ([j y] & -> & Hm). apply E in Hm. cbn in Hi. congruence.
  - intros j y. rewrite elem_of_cons, E. destruct (tset_cases g i (Some x) j) as [[-> ->]|[Nj ->]].
    + split; [intros [[= ->]|Q]; congruence|intros [= ->]; auto].
    + split; [intros [[= -> ->]|Q]; [destruct (Nj eq_refl)|exact Q]|auto].
Qed.
Lemma hand_del (g : nat -> option nat) m i x : NoDup (m.*1) -> (forall j y, (j, y) ∈ m <-> g j = Some y) -> g i = Some x ->
  exists m', m ≡ₚ (i, x) :: m' /\ NoDup (m'.*1) /\ forall j y, (j, y) ∈ m' <-> tset g i None j = Some y.
Proof.
  intros N E Hi. apply E in Hi as Hm. apply elem_of_Permutation in Hm as [m' P]. exists m'. split; [exact P|].
  rewrite P in N. cbn in N. apply NoDup_cons in N as [Ni N]. split; [exact N|]. intros j y.
  assert (I : forall y, (i, y) ∈ m' -> False) by (intros z Hz; apply Ni; apply elem_of_list_fmap; exists (i, z); auto).
  destruct (tset_cases g i None j) as [[-> ->]|[Nj ->]].
  - split; [intros Q; destruct (I _ Q)|discriminate].
  - rewrite <- E, P, elem_of_cons. split; [auto|]. intros [[= -> ->]|Q]; [destruct (Nj eq_refl)|exact Q].
Qed.
Lemma cnt_perm x (c c' : list nat) : c ≡ₚ c' -> cnt x c = cnt x c'.
Proof. intros P. apply Permutation_count_occ. exact P. Qed.
Lemma a_count n a l a' c : a_step n a l a' -> inside a c -> exists c', inside a' c' /\ forall x, cnt x c' + ret_of x l = cnt x c + push_of x l.
Proof.
  intros HS (m & N & E & ->). destruct HS; cbn [a_l a_own a_hand] in *.
  - exists (a_l a ++ option_list (a_own a) ++ m.*2). split; [exists m; auto|]. intros x. cbn. lia.
  - exists ((l ++ [x]) ++ m.*2). split; [exists m; auto|]. intros y. cbn [option_list push_of ret_of app]. rewrite !count_occ_app, cnt_cons. cbn. lia.
  - exists (l ++ m.*2). split; [exists m; auto|]. intros y. cbn. lia.
  - exists (l ++ m.*2). split; [exists m; auto|]. intros y. cbn. lia.
  - exists (l ++ [x] ++ m.*2). split; [exists m; auto|]. intros y. cbn [option_list push_of ret_of]. rewrite !count_occ_app. cbn. lia.
  - exists (l ++ m.*2). split; [exists m; auto|]. intros y. cbn [option_list push_of ret_of]. change (option_list (Some x)) with [x]. rewrite !count_occ_app, cnt_cons. cbn. lia.
  - exists (m.*2). split; [exists m; auto|]. intros y. cbn. lia.
  - destruct (hand_add g m i x N E H) as [N' E']. exists (l ++ option_list o ++ x :: m.*2). split; [exists ((i, x) :: m); auto|].
    intros y. cbn [push_of ret_of app]. rewrite cnt_cons, !count_occ_app, cnt_cons. lia.
  - destruct (hand_del g m i x N E H) as (m' & P & N' & E'). exists (l ++ option_list o ++ m'.*2). split; [exists m'; auto|].
    intros y. rewrite !count_occ_app. rewrite (cnt_perm y (m.*2) (((i, x) :: m').*2)) by (rewrite P; reflexivity). cbn [fmap list_fmap snd push_of ret_of]. rewrite cnt_cons. lia.
  - exists (option_list o ++ m.*2). split; [exists m; auto|]. intros y. cbn. lia.
Qed.
(** a label of the deque never carries nil *)
Lemma a_some n a l a' : a_step n a l a' -> l <> LHeadRet None /\ forall i, l <> LTailRet i None.
Proof. intros HS. destruct HS; split; congruence. Qed.
Lemma sim_steps n h tr s : (0 < n)%Z -> (n < W)%Z -> (n | W)%Z -> (0 <= h < W)%Z -> steps (d_step n) (d_init h) tr s ->
  exists H T a, steps (a_step n) a_init tr a /\ R n H T s a.
Proof.
  intros H1 H2 H3 H4 HS. remember (d_init h) as d0 eqn:E. revert E. induction HS as [d|d tr d1 l d2 HS IH Hst]; intros ->.
  - exists h, h, a_init. split; [constructor|apply R_init; assumption].
  - destruct (IH eq_refl) as (H & T & a & A & HR). destruct (sim n H1 H2 H3 _ _ _ _ _ _ HR Hst) as (H' & T' & a' & A' & HR').
    exists H', T', a'. split; [econstructor; eassumption|exact HR'].
Qed.
