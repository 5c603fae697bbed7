(** Properties of syncx/syncpoolx (C46). *)
From Verif Require Import Base SyncPoolModel.

(** the objects the callers own: those they had at first and those they got,
    minus those they put *)
Fixpoint owned (own : list nat) (os : list (penv * pop)) (rs : list (option nat)) : list nat :=
  match os, rs with
  | (_, PGet) :: os', Some x :: rs' => owned (x :: own) os' rs'
  | (_, PPut x) :: os', _ :: rs' => owned (list_difference own [x]) os' rs'
  | (_, PInit) :: os', _ :: rs' => owned own os' rs'
  | _, _ => own
  end.
(** callers Put only what they own *)
Fixpoint disciplined (own : list nat) (os : list (penv * pop)) (rs : list (option nat)) : Prop :=
  match os, rs with
  | (_, PGet) :: os', Some x :: rs' => disciplined (x :: own) os' rs'
  | (_, PPut x) :: os', _ :: rs' => x ∈ own /\ disciplined (list_difference own [x]) os' rs'
  | (_, PInit) :: os', _ :: rs' => disciplined own os' rs'
  | _, _ => True
  end.
(** no Get hands out something that is owned at that time *)
Fixpoint handed_once (own : list nat) (os : list (penv * pop)) (rs : list (option nat)) : Prop :=
  match os, rs with
  | (_, PGet) :: os', Some x :: rs' => x ∉ own /\ handed_once (x :: own) os' rs'
  | (_, PPut x) :: os', _ :: rs' => handed_once (list_difference own [x]) os' rs'
  | (_, PInit) :: os', _ :: rs' => handed_once own os' rs'
  | _, _ => True
  end.

Section Proofs.
Variable news : nat -> nat.
Hypothesis news_inj : forall i j, news i = news j -> i = j.

Definition pinv (s : pstate) (own : list nat) : Prop :=
  NoDup (own ++ p_pool s) /\ forall x k, x ∈ own ++ p_pool s -> p_made s <= k -> x <> news k.

Lemma pinv_sub own l l' n k ini ini' : (forall x, x ∈ l' -> x ∈ l) -> NoDup l' -> n <= k ->
  pinv (PS ini l n) own -> pinv (PS ini' l' k) own.
Proof.
  intros Hs ND Hk [N F]. cbn in *. apply NoDup_app in N as (N1 & N2 & N3). split; cbn.
  - apply NoDup_app. split; [exact N1|]. split; [|exact ND]. intros x Hx Hx'. apply (N2 x Hx). auto.
  - intros x i Hx Hi. apply F; [|lia]. apply elem_of_app in Hx as [Hx|Hx]; apply elem_of_app; auto.
Qed.
Lemma not_made s own k : pinv s own -> p_made s <= k -> news k ∉ own ++ p_pool s.
Proof. intros [N F] Hk H. exact (F _ k H Hk eq_refl). Qed.

Lemma pool_ok : forall os s own rs e, pinv s own -> run (p_step news) s os = (rs, e) ->
  disciplined own os rs -> handed_once own os rs.
Proof.
  induction os as [|[ev o] os IH]; intros s own rs e I E D; [exact Logic.I|].
  cbn [run] in E. destruct (p_step news s (ev, o)) as [[s' r]| |] eqn:ES.
  2,3: injection E as <- <-; destruct o; exact Logic.I.
  destruct (run (p_step news) s' os) as [rs' e'] eqn:ER. injection E as <- <-.
  unfold p_step in ES. set (pl := filter _ (p_pool s)) in ES.
  assert (Hsub : forall x, x ∈ pl -> x ∈ p_pool s) by (intros x Hx; apply elem_of_list_filter in Hx; tauto).
  assert (NDp : NoDup pl).
  { apply NoDup_filter. destruct I as [N _]. apply NoDup_app in N. tauto. }
  assert (I1 : pinv (PS (p_init s) pl (p_made s)) own).
  { destruct s. eapply pinv_sub; [exact Hsub|exact NDp| |exact I]. cbn; lia. }
  cbn [p_init p_pool p_made] in ES. destruct o as [| |x].
  - injection ES as <- <-. cbn in *. eapply IH; [|exact ER|exact D]. eapply pinv_sub; [| | |exact I1]; auto.
  - unfold pool_get in ES. cbn [p_init p_pool p_made] in ES.
    destruct (i ← e_pick ev; x ← pl !! i; Some (i, x)) as [[i x]|] eqn:EP.
    + injection ES as <- <-. destruct (e_pick ev) as [j|]; [|discriminate]. cbn in EP.
      destruct (pl !! j) as [y|] eqn:Ey; [|discriminate]. injection EP as -> ->.
      rewrite <- (take_drop_middle pl i x Ey) in I1, NDp. cbn [handed_once disciplined] in *.
      assert (NX : x ∉ own).
      { destruct I1 as [N _]. cbn in N. apply NoDup_app in N as (_ & N2 & _). intros Hx. apply (N2 x Hx). apply elem_of_app. right. left. }
      split; [exact NX|]. eapply IH; [|exact ER|exact D].
      destruct I1 as [N F]. cbn in *. assert (P : own ++ take i pl ++ x :: drop (S i) pl ≡ₚ (x :: own) ++ take i pl ++ drop (S i) pl).
      { rewrite <- Permutation_middle. symmetry. apply (Permutation_middle own (take i pl ++ drop (S i) pl) x). }
      split; cbn; [rewrite <- P; exact N|]. intros z k Hz. apply F. rewrite P. exact Hz.
    + destruct (p_init s) eqn:Ei; [|discriminate]. injection ES as <- <-. cbn [handed_once disciplined] in *.
      pose proof (not_made _ own (p_made s) I1 ltac:(cbn; lia)) as NM. cbn [p_pool] in NM.
      split; [intros Hx; apply NM; apply elem_of_app; auto|]. eapply IH; [|exact ER|exact D].
      destruct I1 as [N F]. cbn in *. split; cbn.
      * apply NoDup_cons. split; [exact NM|exact N].
      * intros z k Hz Hk. apply elem_of_cons in Hz as [->|Hz]; [intros Hn; apply news_inj in Hn; lia|apply F; [exact Hz|lia]].
  - injection ES as <- <-. cbn [handed_once disciplined] in *. destruct D as [Dx D]. eapply IH; [|exact ER|exact D].
    destruct I1 as [N F]. cbn in *. pose proof N as N0. apply NoDup_app in N as (N1 & N2 & N3). split; cbn.
    + apply NoDup_app. split; [apply NoDup_list_difference, N1|]. split.
      * intros y Hy Hy'. apply elem_of_list_difference in Hy as [Hy1 Hy2]. apply elem_of_cons in Hy' as [->|Hy']; [apply Hy2; left|exact (N2 y Hy1 Hy')].
      * apply NoDup_cons. split; [exact (N2 x Dx)|exact N3].
    + intros y k Hy Hk. apply F; [|exact Hk]. apply elem_of_app in Hy as [Hy|Hy].
      * apply elem_of_list_difference in Hy as [Hy _]. apply elem_of_app. auto.
      * apply elem_of_cons in Hy as [->|Hy]; apply elem_of_app; auto.
Qed.
End Proofs.

(** C46: if New never returns the same pointer twice, nor one the callers have
    already, and callers Put only what they own, then whatever the pool keeps,
    drops or picks, no Get hands out an object somebody owns. *)
Theorem pool_hands_out_once :
  forall (news : nat -> nat), (forall i j, news i = news j -> i = j) ->
  forall own, NoDup own -> (forall x k, x ∈ own -> x <> news k) ->
  forall os rs e, run (p_step news) p_zero os = (rs, e) ->
    disciplined own os rs -> handed_once own os rs.
Proof.
  intros news Hi own ND Hf os rs e E. apply (pool_ok news Hi os p_zero own rs e); [|exact E].
  split; cbn; rewrite app_nil_r; auto.
Qed.
Print Assumptions pool_hands_out_once.
(** every object handed out was put back before or freshly made *)
Theorem pool_origin :
  forall (news : nat -> nat) os rs e, run (p_step news) p_zero os = (rs, e) ->
  forall i x, rs !! i = Some (Some x) ->
    (exists k, x = news k) \/ (exists j ev, j < i /\ os !! j = Some (ev, PPut x)).
Proof.
  intros news os rs e E.
  assert (G : forall os s rs e (P : nat -> Prop), run (p_step news) s os = (rs, e) -> (forall x, x ∈ p_pool s -> P x) ->
            forall i x, rs !! i = Some (Some x) -> P x \/ (exists k, x = news k) \/ (exists j ev, j < i /\ os !! j = Some (ev, PPut x))).
  { clear os rs e E. induction os as [|[ev o] os IH]; intros s rs e P E HP i x Hx.
    - injection E as <- <-. discriminate.
    - cbn [run] in E. destruct (p_step news s (ev, o)) as [[s' r]| |] eqn:ES; [|injection E as <- <-; discriminate..].
      destruct (run (p_step news) s' os) as [rs' e'] eqn:ER. injection E as <- <-.
      unfold p_step in ES. set (pl := filter _ (p_pool s)) in ES.
      assert (HP' : forall y, y ∈ pl -> P y) by (intros y Hy; apply HP; apply elem_of_list_filter in Hy; tauto).
      cbn [p_init p_pool p_made] in ES. destruct o as [| |z].
      + injection ES as <- <-. destruct i as [|i]; [discriminate|]. cbn in Hx.
        destruct (IH _ _ _ P ER HP' i x Hx) as [H|[H|(j & ev' & Hj & H)]]; [auto|auto|]. right; right. exists (S j), ev'. split; [lia|exact H].
      + unfold pool_get in ES. cbn [p_init p_pool p_made] in ES.
        destruct (i0 ← e_pick ev; x0 ← pl !! i0; Some (i0, x0)) as [[j y]|] eqn:EP.
        * injection ES as <- <-. destruct (e_pick ev) as [j'|]; [|discriminate]. cbn in EP.
          destruct (pl !! j') as [y'|] eqn:Ey; [|discriminate]. injection EP as -> ->.
          destruct i as [|i].
          -- cbn in Hx. injection Hx as <-. left. apply HP'. eapply elem_of_list_lookup_2; eauto.
          -- cbn in Hx. assert (HQ : forall z, z ∈ take j pl ++ drop (S j) pl -> P z).
             { intros z Hz. apply HP'. rewrite <- (take_drop_middle pl j y Ey). apply elem_of_app in Hz as [Hz|Hz]; apply elem_of_app; [auto|]. right. right. exact Hz. }
             destruct (IH _ _ _ P ER HQ i x Hx) as [H|[H|(j0 & ev' & Hj & H)]]; [auto|auto|]. right; right. exists (S j0), ev'. split; [lia|exact H].
        * destruct (p_init s); [|discriminate]. injection ES as <- <-. destruct i as [|i].
          -- cbn in Hx. injection Hx as <-. right. left. eauto.
          -- cbn in Hx. destruct (IH _ _ _ P ER HP' i x Hx) as [H|[H|(j0 & ev' & Hj & H)]]; [auto|auto|]. right; right. exists (S j0), ev'. split; [lia|exact H].
      + injection ES as <- <-. destruct i as [|i]; [discriminate|]. cbn in Hx.
        destruct (IH _ _ _ (fun y => y = z \/ P y) ER) with (i := i) (x := x) as [[->|H]|[H|(j & ev' & Hj & H)]]; auto.
        * cbn. intros y Hy. apply elem_of_cons in Hy as [->|Hy]; auto.
        * right; right. exists 0, ev. split; [lia|reflexivity].
        * right; right. exists (S j), ev'. split; [lia|exact H]. }
  intros i x Hx. destruct (G os p_zero rs e (fun _ => False) E) with (i := i) (x := x) as [[]|H]; auto.
  intros y Hy. inversion Hy.
Qed.
Print Assumptions pool_origin.
(** Init is required: Get on a zero Pool panics, whatever the runtime does *)
Theorem pool_get_without_init :
  forall news ev, run (p_step news) p_zero [(ev, PGet)] = ([], Panic).
Proof.
  intros news ev. cbn. unfold pool_get. cbn. destruct (e_pick ev) as [i|]; reflexivity.
Qed.
Print Assumptions pool_get_without_init.

(** after an Init no call panics, and every Get hands something out, whatever the runtime does *)
Theorem pool_after_init :
  forall (news : nat -> nat) os1 os2 e0 rs e, (run (p_step news) p_zero (os1 ++ (e0, PInit) :: os2)) = (rs, e) ->
  length os1 < length rs -> length rs = length os1 + S (length os2) /\ (exists s, e = Ret s) /\
  forall i ev, os2 !! i = Some (ev, PGet) -> exists x, rs !! (length os1 + S i) = Some (Some x).
Proof.
  intros news os1 os2 e0 rs e E HL.
  assert (G : forall os s, p_init s = true -> exists s', (run (p_step news) s os).2 = Ret s' /\ length (run (p_step news) s os).1 = length os /\
            forall i ev, os !! i = Some (ev, PGet) -> exists x, (run (p_step news) s os).1 !! i = Some (Some x)).
  { clear. induction os as [|[ev o] os IH]; intros s HI; [exists s; cbn; repeat split; intros i ? H; rewrite lookup_nil in H; discriminate|].
    assert (HS : exists s' r, p_step news s (ev, o) = Ret (s', r) /\ p_init s' = true /\ (o = PGet -> is_Some r)).
    { unfold p_step. destruct o; cbn [p_init p_pool p_made]; try (eexists _, _; split; [reflexivity|]; cbn; split; [auto|discriminate]; fail).
      unfold pool_get. cbn [p_init p_pool p_made]. destruct (i ← e_pick ev; _) as [[i x]|].
      - eexists _, _. split; [reflexivity|]. split; [exact HI|eauto].
      - rewrite HI. eexists _, _. split; [reflexivity|]. split; [reflexivity|eauto]. }
    destruct HS as (s' & r & ES & HI' & Hr). cbn [run]. rewrite ES. destruct (IH s' HI') as (s'' & H1 & H2 & H3).
    destruct (run (p_step news) s' os) as [rs' e']. cbn [fst snd] in *. exists s''. split; [exact H1|]. split; [cbn; lia|].
    intros [|i] ev' H; cbn in H |- *; [injection H as _ ->; destruct Hr as [x ->]; eauto|eauto]. }
  revert E HL. generalize p_zero as s. revert rs e. induction os1 as [|[ev o] os1 IH]; intros rs e s E HL.
  - cbn [app run] in E. unfold p_step in E at 1. cbn [p_pool p_made p_init] in E.
    set (s1 := PS true _ _) in E. destruct (G os2 s1 eq_refl) as (s' & H1 & H2 & H3). destruct (run (p_step news) s1 os2) as [rs' e']. cbn [fst snd] in *.
    injection E as <- <-. cbn. split; [lia|]. split; [eauto|exact H3].
  - cbn [app run] in E. destruct (p_step news s (ev, o)) as [[s' r]| |]; [|injection E as <- <-; cbn in HL; lia..].
    destruct (run (p_step news) s' (os1 ++ _)) as [rs' e'] eqn:ER. injection E as <- <-. cbn in HL |- *.
    destruct (IH rs' e' s' ER ltac:(lia)) as (H1 & H2 & H3). split; [lia|]. split; [exact H2|exact H3].
Qed.
Print Assumptions pool_after_init.

Example pool_case :
  let keep := fun _ => true in
  let os := [(Env keep None, PInit); (Env keep None, PGet); (Env keep (Some 0), PGet); (Env keep None, PPut 100); (Env keep None, PPut 7);
             (Env keep (Some 1), PGet); (Env keep (Some 0), PGet); (Env keep (Some 0), PGet)] in
  let rs := [None; Some 100; Some 101; None; None; Some 100; Some 7; Some 102] in
  (run (p_step (fun k => 100 + k)) p_zero os).1 = rs /\ disciplined [7] os rs.
Proof. split; [reflexivity|]. cbn. split; [right; left|]. split; [repeat (left || right)|exact Logic.I]. Qed.
