(** C161: underscores in the text of a float, exactly. *)
From Verif Require Import Base ConvModel ConvProofs ConvProofs2 ConvFloat ConvNearest ConvProps ConvNearestProps StrconvModel StrconvRound StrconvParse StrconvShape StrconvFormat StrconvProps.
From Coq Require Import Floats.SpecFloat ZArith.
Local Open Scope Z.

(** *** Specification *)
(** the text without its sign *)
Definition unsigned (s : list Z) : list Z := match s with c :: t => if (c =? 43) || (c =? 45) then t else s | [] => [] end.
(** it begins with 0x or 0X *)
Definition hexed (s : list Z) : Prop := exists x r, unsigned s = 48 :: x :: r /\ (x = 120 \/ x = 88).
Definition digit_in (s : list Z) (c : Z) : Prop := is_digit c \/ (hexed s /\ hex_digit c).
(** every underscore comes after a digit or after 0x, and before a digit *)
Definition well_placed (s : list Z) : Prop := forall a b, unsigned s = a ++ 95 :: b ->
  (exists c b', b = c :: b' /\ digit_in s c) /\ ((exists a' c, a = a' ++ [c] /\ digit_in s c) \/ a = [48; 120] \/ a = [48; 88]).

(** *** Lemmas *)
Lemma unsigned_form sgn t : is_sign sgn -> (sgn = [] -> forall c r, t = c :: r -> c <> 43 /\ c <> 45) -> unsigned (sgn ++ t) = t.
Proof.
  intros [->|[->| ->]] Ht; [|reflexivity|reflexivity]. destruct t as [|c r]; [reflexivity|]. cbn. destruct (Ht eq_refl c r eq_refl) as [H1 H2]. apply Z.eqb_neq in H1, H2. rewrite H1, H2. reflexivity.
Qed.
Lemma unsigned_drop s : drop_sign s = unsigned s.
Proof. destruct s as [|c r]; [reflexivity|]. cbn. rewrite orb_comm. reflexivity. Qed.
Lemma isd_test hex c : (dec_digit c || hex && hex_letter c) = isd hex c.
Proof. reflexivity. Qed.
Lemma isd_95 hex : isd hex 95 = false.
Proof. destruct hex; reflexivity. Qed.
Lemma loop_spec hex t : forall w, underscore_loop hex w t = true <->
  (forall a b, t = a ++ 95 :: b -> (a = [] -> w = SDigit) /\ (forall a' c, a = a' ++ [c] -> isd hex c = true) /\ exists c b', b = c :: b' /\ isd hex c = true) /\
  (w = SUnder -> exists c t', t = c :: t' /\ isd hex c = true).
Proof.
  induction t as [|c t IH]; intros w.
  - cbn. split.
    + intros H. split; [intros a b E; symmetry in E; apply app_nil in E as [_ E]; discriminate|]. intros ->. discriminate.
    + intros [_ H]. destruct w; try reflexivity. destruct (H eq_refl) as (? & ? & ? & _). discriminate.
  - cbn [underscore_loop]. rewrite isd_test. destruct (isd hex c) eqn:Ec.
    + rewrite IH. split.
      * intros [H _]. split; [|eauto]. intros a b E. destruct a as [|y a]; [injection E as -> _; rewrite isd_95 in Ec; discriminate|]. injection E as <- E. destruct (H a b E) as (H1 & H2 & H3).
        split; [discriminate|]. split; [|exact H3]. intros a' z Ea. destruct a' as [|y' a']; [injection Ea as <- _; exact Ec|]. injection Ea as <- Ea. apply (H2 a' z Ea).
      * intros [H _]. split; [|discriminate]. intros a b E. destruct (H (c :: a) b ltac:(rewrite E; reflexivity)) as (_ & H2 & H3). split; [reflexivity|]. split; [|exact H3]. intros a' z Ea. apply (H2 (c :: a') z). rewrite Ea. reflexivity.
    + destruct (Z.eqb_spec c 95) as [->|N].
      * destruct w; [split; [discriminate|]; intros [H _]; destruct (H [] t eq_refl) as (H1 & _); specialize (H1 eq_refl); discriminate| |split; [discriminate|]; intros [H _]; destruct (H [] t eq_refl) as (H1 & _); specialize (H1 eq_refl); discriminate|split; [discriminate|]; intros [H _]; destruct (H [] t eq_refl) as (H1 & _); specialize (H1 eq_refl); discriminate].
        rewrite IH. split.
        -- intros [H H0]. split; [|discriminate]. intros a b E. destruct a as [|y a].
           ++ injection E as ->. split; [reflexivity|]. split; [intros [|? ?] ? Ea; discriminate|]. apply H0. reflexivity.
           ++ injection E as <- E. destruct (H a b E) as (H1 & H2 & H3). split; [discriminate|]. split; [|exact H3]. intros a' z Ea. destruct a' as [|y' a']; [injection Ea as <- ->; specialize (H1 eq_refl); discriminate|]. injection Ea as <- Ea. apply (H2 a' z Ea).
        -- intros [H _]. split; [|intros _; apply (H [] t eq_refl)]. intros a b E. destruct (H (95 :: a) b ltac:(rewrite E; reflexivity)) as (_ & H2 & H3). split; [|split; [|exact H3]].
           ++ intros ->. specialize (H2 [] 95 eq_refl). rewrite isd_95 in H2. discriminate.
           ++ intros a' z Ea. apply (H2 (95 :: a') z). rewrite Ea. reflexivity.
      * assert (G : underscore_loop hex SOther t = true <-> (forall a b, c :: t = a ++ 95 :: b -> (a = [] -> w = SDigit) /\ (forall a' z, a = a' ++ [z] -> isd hex z = true) /\ exists z b', b = z :: b' /\ isd hex z = true)).
        { rewrite IH. split.
          - intros [H _] a b E. destruct a as [|y a]; [injection E as -> _; congruence|]. injection E as <- E. destruct (H a b E) as (H1 & H2 & H3). split; [discriminate|]. split; [|exact H3].
            intros a' z Ea. destruct a' as [|y' a']; [injection Ea as <- ->; specialize (H1 eq_refl); discriminate|]. injection Ea as <- Ea. apply (H2 a' z Ea).
          - intros H. split; [|discriminate]. intros a b E. destruct (H (c :: a) b ltac:(rewrite E; reflexivity)) as (_ & H2 & H3). split; [|split; [|exact H3]].
            + intros ->. specialize (H2 [] c eq_refl). congruence.
            + intros a' z Ea. apply (H2 (c :: a') z). rewrite Ea. reflexivity. }
        destruct w; try (rewrite G; split; [intros H; split; [exact H|discriminate]|intros [H _]; exact H]).
        split; [discriminate|]. intros [_ H]. destruct (H eq_refl) as (z & t' & E & Hz). injection E as <- _. congruence.
Qed.
Lemma digit_in_isd s (hex : bool) c : (hexed s <-> hex = true) -> digit_in s c <-> isd hex c = true.
Proof. intros H. rewrite isd_iff. unfold digit_in, hex_digit, is_digit. rewrite H. intuition lia. Qed.
(** *** what was flagged *)
Lemma scan_flag hex t : forall a a' r, scan hex t a = (a', r) -> exists p, t = p ++ r /\ (under a' = true \/ 95 ∉ p) /\ (under a = true -> under a' = true).
Proof.
  induction t as [|c t IH]; intros a a' r E; cbn [scan] in E.
  - injection E as <- <-. exists []. split; [reflexivity|]. split; [right; apply not_elem_of_nil|auto].
  - assert (Stop : (a, c :: t) = (a', r) -> exists p, c :: t = p ++ r /\ (under a' = true \/ 95 ∉ p) /\ (under a = true -> under a' = true)).
    { intros [= <- <-]. exists []. split; [reflexivity|]. split; [right; apply not_elem_of_nil|auto]. }
    assert (Go : forall b, c <> 95 -> under b = under a -> scan hex t b = (a', r) -> exists p, c :: t = p ++ r /\ (under a' = true \/ 95 ∉ p) /\ (under a = true -> under a' = true)).
    { intros b N Eb E'. destruct (IH b a' r E') as (p & -> & H1 & H2). exists (c :: p). split; [reflexivity|]. split; [destruct H1 as [H1|H1]; [auto|right; apply not_elem_of_cons; split; [congruence|exact H1]]|]. rewrite <- Eb. exact H2. }
    destruct (Z.eqb_spec c 95) as [->|N].
    + destruct (IH _ a' r E) as (p & -> & _ & H2). exists (95 :: p). split; [reflexivity|]. split; [left; apply H2; reflexivity|intros _; apply H2; reflexivity].
    + destruct (c =? 46); [destruct (sawdot a); [apply Stop, E|eapply Go; [exact N| |exact E]; reflexivity]|]. destruct (dec_digit c); [destruct ((c =? 48) && (nd a =? 0)); (eapply Go; [exact N| |exact E]; reflexivity)|].
      destruct (hex && hex_letter c); [eapply Go; [exact N| |exact E]; reflexivity|apply Stop, E].
Qed.
Lemma scan_exp_flag t : forall e u e' u' r, scan_exp t e u = (e', u', r) -> exists p, t = p ++ r /\ (u' = true \/ 95 ∉ p) /\ (u = true -> u' = true) /\ (forall c q, r = c :: q -> c <> 95).
Proof.
  induction t as [|c t IH]; intros e u e' u' r E; cbn [scan_exp] in E.
  - injection E as <- <- <-. exists []. split; [reflexivity|]. split; [right; apply not_elem_of_nil|]. split; [auto|discriminate].
  - destruct (Z.eqb_spec c 95) as [->|N].
    + destruct (IH _ _ _ _ _ E) as (p & -> & _ & H2 & H3). exists (95 :: p). split; [reflexivity|]. specialize (H2 eq_refl). auto.
    + destruct (dec_digit c).
      * destruct (IH _ _ _ _ _ E) as (p & -> & H1 & H2 & H3). exists (c :: p). split; [reflexivity|]. split; [destruct H1 as [H1|H1]; [auto|right; apply not_elem_of_cons; split; [congruence|exact H1]]|]. auto.
      * injection E as <- <- <-. exists []. split; [reflexivity|]. split; [right; apply not_elem_of_nil|]. split; [auto|]. intros ? ? [= <- _]. exact N.
Qed.
Lemma read_exp_flag s u e u' r : read_exp s u = Some (e, u', r) -> exists p, s = p ++ r /\ (u' = true \/ 95 ∉ p) /\ (u = true -> u' = true).
Proof.
  unfold read_exp. destruct (split_sign_form s) as (sgn & t & -> & Hs & Ht). rewrite (split_sign_spec sgn t Hs Ht). destruct t as [|c t]; [discriminate|]. destruct (dec_digit c); [|discriminate].
  destruct (scan_exp (c :: t) 0 u) as [[e0 u0] r0] eqn:E. intros [= _ <- <-]. destruct (scan_exp_flag _ _ _ _ _ _ E) as (p & -> & H1 & H2 & _). exists (sgn ++ p). rewrite <- app_assoc. split; [reflexivity|]. split; [|exact H2].
  destruct H1 as [H1|H1]; [auto|right]. rewrite not_elem_of_app. split; [|exact H1]. destruct Hs as [->|[->| ->]]; rewrite ?not_elem_of_cons; repeat split; try lia; apply not_elem_of_nil.
Qed.
(** *** underscore_ok is well_placed, save after 0b and 0o *)
Lemma ok_placed s : well_placed s -> underscore_ok s = true.
Proof.
  intros H. unfold underscore_ok. rewrite unsigned_drop.
  assert (G : (forall x r, unsigned s = 48 :: x :: r -> ~ (x = 120 \/ x = 88)) -> underscore_loop false SBegin (unsigned s) = true).
  { intros Nx. apply loop_spec. split; [|discriminate]. intros a b E. assert (Hh : hexed s <-> false = true) by (split; [intros (x & r & Ex & Hx); exfalso; exact (Nx x r Ex Hx)|discriminate]).
    destruct (H a b E) as [(c & b' & -> & Hc) H2]. apply (digit_in_isd s false _ Hh) in Hc. split; [|split; [|eauto]].
    - intros ->. exfalso. destruct H2 as [(a' & z & Ea & _)|[Ea|Ea]]; [destruct a'; discriminate|discriminate|discriminate].
    - intros a' z ->. destruct H2 as [(a2 & z2 & Ea & Hz)|[Ea|Ea]].
      + apply app_inj_tail in Ea as [_ ->]. apply (digit_in_isd s false _ Hh), Hz.
      + exfalso. rewrite Ea in E. cbn [app] in E. apply (Nx 120 (95 :: c :: b')); [exact E|auto].
      + exfalso. rewrite Ea in E. cbn [app] in E. apply (Nx 88 (95 :: c :: b')); [exact E|auto]. }
  destruct (unsigned s) as [|z [|c r]] eqn:Eu; [apply G; intros; discriminate|apply G; intros; discriminate|].
  destruct ((z =? 48) && ((lower c =? 98) || (lower c =? 111) || (lower c =? 120))) eqn:Ep.
  - apply andb_true_iff in Ep as [Ez Ep]. apply Z.eqb_eq in Ez. subst z.
    assert (Hh : hexed s <-> (lower c =? 120) = true).
    { rewrite Z.eqb_eq, lower_letter by lia. unfold hexed. rewrite Eu. split; [intros (x & r' & [= <- <-] & Hx); lia|intros Hx; exists c, r; split; [reflexivity|lia]]. }
    apply loop_spec. split; [|discriminate]. intros a b ->. destruct (H (48 :: c :: a) b Eu) as [(d & b' & -> & Hd) H2]. apply (digit_in_isd s _ _ Hh) in Hd. split; [reflexivity|]. split; [|eauto].
    intros a' y ->. destruct H2 as [(a2 & z2 & Ea & Hz)|[Ea|Ea]].
    + change (48 :: c :: a' ++ [y]) with ((48 :: c :: a') ++ [y]) in Ea. apply app_inj_tail in Ea as [_ ->]. apply (digit_in_isd s _ _ Hh), Hz.
    + injection Ea as _ Ea. destruct a'; discriminate.
    + injection Ea as _ Ea. destruct a'; discriminate.
  - apply G. intros x r' [= -> <- <-] Hx. assert (El : lower c = 120) by (apply lower_letter; lia). rewrite El in Ep. discriminate.
Qed.
Lemma placed_ok s : underscore_ok s = true -> (forall c r, unsigned s = 48 :: c :: r -> lower c <> 98 /\ lower c <> 111) -> well_placed s.
Proof.
  unfold underscore_ok. rewrite unsigned_drop. intros H Nb.
  assert (G : underscore_loop false SBegin (unsigned s) = true -> well_placed s).
  { intros L. apply loop_spec in L as [L _]. intros a b E. destruct (L a b E) as (L1 & L2 & (c & b' & -> & Hc)). assert (D : forall c, isd false c = true -> digit_in s c) by (intros y Hy; apply isd_iff in Hy as [Hy|[Hy _]]; [left; exact Hy|discriminate]).
    split; [eauto|]. left. destruct a as [|y a _] using rev_ind; [specialize (L1 eq_refl); discriminate|]. exists a, y. split; [reflexivity|]. apply D, (L2 a y eq_refl). }
  destruct (unsigned s) as [|z [|c r]] eqn:Eu; [apply G, H|apply G, H|]. destruct ((z =? 48) && ((lower c =? 98) || (lower c =? 111) || (lower c =? 120))) eqn:Ep; [|apply G, H].
  apply andb_true_iff in Ep as [Ez Ep]. apply Z.eqb_eq in Ez. subst z. destruct (Nb c r eq_refl) as [N1 N2]. apply Z.eqb_neq in N1, N2. rewrite N1, N2 in Ep. cbn [orb] in Ep. rewrite Ep in H.
  apply Z.eqb_eq in Ep. apply lower_letter in Ep; [|lia]. assert (Hh : hexed s <-> true = true) by (split; [reflexivity|intros _; exists c, r; split; [exact Eu|lia]]).
  apply loop_spec in H as [L _]. intros a b E. rewrite Eu in E. destruct a as [|y [|y2 a]]; [discriminate|injection E as _ E; lia|]. injection E as <- <- E. destruct (L a b E) as (_ & L2 & (d & b' & -> & Hd)).
  split; [exists d, b'; split; [reflexivity|apply (digit_in_isd s _ _ Hh), Hd]|]. destruct a as [|y a _] using rev_ind; [right; destruct Ep as [-> | ->]; auto|]. left. exists (48 :: c :: a), y. split; [reflexivity|]. apply (digit_in_isd s _ _ Hh), (L2 a y eq_refl).
Qed.
Lemma prefix_form t : exists hex t', t = pre hex ++ t' /\ split_prefix t = (is_hex hex, t') /\ match hex with Some y => x_char y /\ t' <> [] | None => forall c y r, t = 48 :: c :: y :: r -> ~ x_char c end.
Proof.
  destruct t as [|z [|c [|y r]]]; try (exists None; eexists; split; [reflexivity|split; [reflexivity|intros; discriminate]]). cbn [split_prefix]. destruct ((z =? 48) && (lower c =? 120)) eqn:E.
  - apply andb_true_iff in E as [E1 E2]. apply Z.eqb_eq in E1, E2. apply lower_letter in E2; [|lia]. exists (Some c), (y :: r). subst z. split; [reflexivity|]. split; [reflexivity|]. split; [exact E2|discriminate].
  - exists None. eexists. split; [reflexivity|]. split; [reflexivity|]. intros c' y' r' [= -> <- _ _] Hx. apply andb_false_iff in E as [E|E]; [discriminate|]. apply Z.eqb_neq in E. apply E. apply lower_letter; [lia|]. destruct Hx; auto.
Qed.
Definition a0 : mant := Mant 0 0 0 false false false.
Lemma take_full (s : list Z) : take (length s - length (@nil Z)) s = s.
Proof. cbn [length]. rewrite Nat.sub_0_r. apply firstn_all. Qed.
(** what is read in full is well placed *)
Lemma read_placed s x : read_float s = Some x -> n_rest x = [] -> well_placed s.
Proof.
  destruct (split_sign_form s) as (sgn & t & -> & Hs & Ht). unfold read_float. rewrite (split_sign_spec sgn t Hs Ht). destruct (prefix_form t) as (hex & t' & Et & Ep & Hx). rewrite Ep. fold a0. set (h := is_hex hex) in *.
  destruct (scan h t' a0) as [a r] eqn:Es. destruct (sawdigits a) eqn:Esd; [|discriminate]. cbn [negb]. intros H Hr.
  destruct (scan_flag _ _ _ _ _ Es) as (p & Ep' & Hp & _). pose proof (unsigned_form sgn t Hs Ht) as Eu.
  (* 0b and 0o are not read *)
  assert (Nb : forall c r0, unsigned (sgn ++ t) = 48 :: c :: r0 -> lower c <> 98 /\ lower c <> 111).
  { rewrite Eu. intros c r0 E. destruct (Z.eq_dec (lower c) 98) as [E98|N98]; [|destruct (Z.eq_dec (lower c) 111) as [E111|]; [|auto]].
    all: exfalso; assert (Hc : c = 98 \/ c = 66 \/ c = 111 \/ c = 79) by (first [apply lower_letter in E98; lia|apply lower_letter in E111; lia]).
    all: destruct hex as [y|]; cbn [pre app] in Et; [rewrite E in Et; injection Et as -> _; unfold x_char in Hx; lia|].
    all: subst t'; unfold h in Es; cbn [is_hex] in Es; rewrite E in Es; cbn [scan] in Es; change (48 =? 95) with false in Es; change (48 =? 46) with false in Es; change (dec_digit 48) with true in Es; cbn match in Es; cbn [nd a0] in Es; change ((48 =? 48) && (0 =? 0)) with true in Es; cbn match in Es.
    all: assert (Hn : (c =? 95) = false /\ (c =? 46) = false /\ dec_digit c = false /\ (lower c =? 101) = false) by (destruct Hc as [->|[->|[->| ->]]]; repeat split; reflexivity); destruct Hn as (n1 & n2 & n3 & n4); rewrite n1, n2, n3 in Es; cbn [andb] in Es; injection Es as <- <-.
    all: unfold h in H; cbn [is_hex] in H; rewrite n4 in H; destruct (under _ && _) in H; [discriminate|]; injection H as <-; discriminate Hr. }
  (* no underscore at all *)
  assert (None95 : 95 ∉ t -> well_placed (sgn ++ t)) by (intros N a' b E; rewrite Eu in E; exfalso; apply N; rewrite E; apply elem_of_app; right; left).
  assert (Pre95 : 95 ∉ pre hex) by (destruct hex as [y|]; cbn [pre]; [destruct Hx as [Hx _]; unfold x_char in Hx; rewrite !not_elem_of_cons; repeat split; try lia; apply not_elem_of_nil|apply not_elem_of_nil]).
  assert (Fin : forall u e r', (if u && negb (underscore_ok (take (length (sgn ++ t) - length r') (sgn ++ t))) then None else Some (Number (sgn_neg sgn) h (mt a) e r')) = Some x -> (u = true \/ 95 ∉ t) -> well_placed (sgn ++ t)).
  { intros u e r' E Hu. destruct u; cbn [andb] in E; [|destruct Hu as [Hu|Hu]; [discriminate|apply None95, Hu]]. destruct (underscore_ok (take (length (sgn ++ t) - length r') (sgn ++ t))) eqn:Eok; [|discriminate].
    cbn [negb] in E. injection E as <-. cbn [n_rest] in Hr. subst r'. rewrite take_full in Eok. apply placed_ok; [exact Eok|exact Nb]. }
  destruct r as [|c r].
  - destruct h; [discriminate|]. eapply Fin; [exact H|]. destruct Hp as [Hp|Hp]; [auto|right]. rewrite Et, Ep', app_nil_r, not_elem_of_app. auto.
  - destruct (lower c =? (if h then 112 else 101)) eqn:Ec.
    + destruct (read_exp r (under a)) as [[[e u] r']|] eqn:Er; [|discriminate]. assert (Hr' : r' = []) by (destruct (u && _) in H; [discriminate|]; injection H as <-; exact Hr).
      destruct (read_exp_flag _ _ _ _ _ Er) as (p2 & Ep2 & Hp2 & Hm). eapply Fin; [exact H|]. destruct Hp as [Hp|Hp]; [left; apply Hm, Hp|]. destruct Hp2 as [Hp2|Hp2]; [auto|right].
      rewrite Et, Ep', Ep2, Hr', app_nil_r, !not_elem_of_app, not_elem_of_cons. repeat split; auto. intros <-. destruct h; discriminate.
    + destruct h; [discriminate|]. destruct (under a && _) in H; [discriminate|]. injection H as <-. discriminate.
Qed.

(** *** what is well placed is read like the text without underscores *)
Lemma scan_exp_all s e u e' r : scan_exp (strip s) e false = (e', false, r) -> r = [] -> exists u', scan_exp s e u = (e', u', []).
Proof.
  intros H ->. pose proof (scan_exp_strip s e u) as X. destruct (scan_exp s e u) as [[e1 u1] r1] eqn:E. cbn [fst snd] in X. rewrite H in X. injection X as -> X. destruct (scan_exp_flag _ _ _ _ _ _ E) as (_ & _ & _ & _ & N).
  destruct r1 as [|c r1]; [eauto|]. rewrite strip_keep in X by (apply (N c r1 eq_refl)). discriminate.
Qed.
Lemma read_exp_all s u e u0 : (forall q, s <> 95 :: q) -> (forall c q, s = c :: 95 :: q -> c <> 43 /\ c <> 45) -> read_exp (strip s) false = Some (e, u0, []) -> exists u', read_exp s u = Some (e, u', []).
Proof.
  intros N1 N2. unfold read_exp. destruct (split_sign_form s) as (sgn & t & -> & Hs & Ht). rewrite (split_sign_spec sgn t Hs Ht), (strip_sign sgn t Hs).
  destruct t as [|c t]; [destruct Hs as [->|[->| ->]]; discriminate|].
  assert (Nc : c <> 95) by (intros ->; destruct Hs as [->|[->| ->]]; [exact (N1 t eq_refl)|destruct (N2 43 t eq_refl); lia|destruct (N2 45 t eq_refl); lia]).
  pose proof (scan_exp_all (c :: t) 0 u) as A. rewrite (strip_keep c t Nc) in *. rewrite split_sign_spec; [|exact Hs|intros E ? ? [= <- _]; exact (Ht E c t eq_refl)]. destruct (dec_digit c); [|discriminate].
  pose proof (scan_exp_strip (c :: t) 0 u) as X. rewrite (strip_keep c t Nc) in X. destruct (scan_exp (c :: strip t) 0 false) as [[e1 u1] r1]. injection X as _ -> _. intros [= <- <- ->]. destruct (A e1 [] eq_refl eq_refl) as (u' & ->). eauto.
Qed.
Lemma read_back s x : well_placed s -> read_float (strip s) = Some x -> n_rest x = [] -> read_float s = Some x.
Proof.
  intros W. pose proof (ok_placed s W) as Ok. revert W Ok. destruct (split_sign_form s) as (sgn & t & -> & Hs & Ht). intros W Ok. pose proof (unsigned_form sgn t Hs Ht) as Eu. unfold well_placed in W. rewrite Eu in W.
  unfold read_float. rewrite (split_sign_spec sgn t Hs Ht), (strip_sign sgn t Hs).
  destruct t as [|c t]; [rewrite split_sign_spec by (first [exact Hs|intros; discriminate]); discriminate|].
  assert (Nc : c <> 95) by (intros ->; destruct (W [] t eq_refl) as [_ [(a' & z & Ea & _)|[Ea|Ea]]]; [destruct a'; discriminate|discriminate|discriminate]).
  rewrite split_sign_spec; [|exact Hs|rewrite strip_keep by exact Nc; intros E ? ? [= <- _]; exact (Ht E c t eq_refl)].
  destruct (prefix_form (c :: t)) as (hex & t' & Et & Ep & Hx). rewrite Ep. fold a0.
  assert (Hh : hexed (sgn ++ c :: t) -> hex <> None \/ (exists y, t = [y] /\ x_char y)).
  { intros (y & r & E & Hy). rewrite Eu in E. destruct hex as [z|]; [left; discriminate|right]. injection E as -> ->. destruct r as [|z r]; [exists y; auto|]. exfalso. exact (Hx y z r eq_refl Hy). }
  assert (Ep2 : split_prefix (strip (c :: t)) = (is_hex hex, strip t')).
  { destruct hex as [y|]; cbn [pre app is_hex] in *.
    - destruct Hx as [Hx Hne]. injection Et as -> ->. rewrite !strip_keep by (unfold x_char in Hx; lia). apply (split_prefix_spec (Some y)). split; [exact Hx|]. destruct t' as [|d t']; [congruence|]. destruct (Z.eq_dec d 95) as [->|Nd].
      + destruct (W [48; y] t' eq_refl) as [(z & b' & -> & Hz) _]. assert (Nz : z <> 95) by (destruct Hz as [Hz|[_ Hz]]; unfold is_digit, hex_digit in Hz; lia). rewrite (strip_cons 95). change (95 =? 95) with true. cbn match. rewrite strip_keep by exact Nz. discriminate.
      + rewrite strip_keep by exact Nd. discriminate.
    - subst t'. apply (split_prefix_spec None). rewrite strip_keep by exact Nc. intros z d y q E. injection E as <- E. destruct (Z.eq_dec c 48) as [->|]; [|auto]. right. intros Xd. destruct t as [|d' t]; [discriminate|]. destruct (Z.eq_dec d' 95) as [->|Nd].
      + destruct (W [48] t eq_refl) as [(z & b' & -> & Hz) _]. destruct Hz as [Hz|[Hz _]].
        * rewrite (strip_cons 95) in E. change (95 =? 95) with true in E. cbn match in E. rewrite strip_keep in E by (unfold is_digit in Hz; lia). injection E as -> _. unfold is_digit in Hz. unfold x_char in Xd. lia.
        * destruct (Hh Hz) as [F|(y' & F & _)]; [congruence|discriminate].
      + rewrite strip_keep in E by exact Nd. injection E as -> E. destruct t as [|e t]; [discriminate|]. exact (Hx d e t eq_refl Xd). }
  rewrite Ep2. set (h := is_hex hex) in *. destruct (scan_strip h t' a0) as [S1 S2]. change (clr a0) with a0 in S1. rewrite S1. destruct (scan h t' a0) as [a r] eqn:Es. cbn [fst snd] in *. cbn [clr sawdigits sawdot dp nd mt under].
  destruct (sawdigits a) eqn:Esd; [|discriminate]. cbn [negb]. destruct (scan_flag _ _ _ _ _ Es) as (p & Ep' & _). destruct r as [|e r].
  - cbn [strip List.filter]. destruct h; [discriminate|]. cbn [andb]. intros [= <-] _. rewrite take_full, Ok. cbn [negb]. rewrite andb_false_r. reflexivity.
  - rewrite strip_keep by (apply (S2 e r eq_refl)). destruct (lower e =? (if h then 112 else 101)) eqn:Ee.
    + destruct (read_exp (strip r) false) as [[[v u] r']|] eqn:Er; [|discriminate]. intros H Hr. assert (Hr' : r' = []) by (destruct (u && _) in H; [discriminate|]; injection H as <-; exact Hr). subst r'.
      change (lower e =? (if h then 112 else 101)) with (e_char h e) in Ee. apply e_char_iff in Ee.
      assert (Nd : ~ digit_in (sgn ++ c :: t) e).
      { intros [Hd|[H1 H2]]; [unfold is_digit in Hd; destruct h; lia|]. destruct (Hh H1) as [F|(y & -> & Hy)]; [unfold h in Ee; destruct hex; [|congruence]; cbn [is_hex] in Ee; unfold hex_digit in H2; lia|].
        destruct hex as [z|]; cbn [pre app is_hex] in *; [destruct Hx as [_ Hx]; injection Et as _ _ E; congruence|]. assert (He : e ∈ t') by (rewrite Ep'; apply elem_of_app; right; left). rewrite <- Et, !elem_of_cons, elem_of_nil in He.
        unfold h in *. cbn [is_hex] in Ee. unfold x_char in Hy. destruct He as [He|[He|[]]]; [|lia]. subst c. destruct H1 as (? & ? & E & _). rewrite Eu in E. injection E as -> _. lia. }
      assert (Et2 : c :: t = (pre hex ++ p) ++ e :: r) by (rewrite <- app_assoc, <- Ep'; exact Et).
      destruct (read_exp_all r (under a) v u) as (u' & Er'); [| |exact Er|].
      * intros q ->. destruct (W ((pre hex ++ p) ++ [e]) q) as [_ [(a' & z & Ea & Hz)|[Ea|Ea]]].
        -- rewrite Et2, <- !app_assoc. reflexivity.
        -- apply app_inj_tail in Ea as [_ <-]. exact (Nd Hz).
        -- change [48; 120] with ([48] ++ [120]) in Ea. apply app_inj_tail in Ea as [_ ->]. destruct h; lia.
        -- change [48; 88] with ([48] ++ [88]) in Ea. apply app_inj_tail in Ea as [_ ->]. destruct h; lia.
      * intros z q ->. destruct (W ((pre hex ++ p) ++ [e; z]) q) as [_ W2].
        -- rewrite Et2, <- !app_assoc. reflexivity.
        -- replace ((pre hex ++ p) ++ [e; z]) with (((pre hex ++ p) ++ [e]) ++ [z]) in W2 by (rewrite <- !app_assoc; reflexivity). destruct W2 as [(a' & z' & Ea & Hz)|[Ea|Ea]].
           ++ apply app_inj_tail in Ea as [_ <-]. destruct Hz as [Hz|[_ Hz]]; unfold is_digit, hex_digit in Hz; lia.
           ++ change [48; 120] with ([48] ++ [120]) in Ea. apply app_inj_tail in Ea as [_ ->]. lia.
           ++ change [48; 88] with ([48] ++ [88]) in Ea. apply app_inj_tail in Ea as [_ ->]. lia.
      * rewrite Er'. rewrite take_full, Ok. cbn [negb]. rewrite andb_false_r. assert (u = false) as ->; [|cbn [andb] in H; exact H].
        destruct (u && _) eqn:Eand in H; [discriminate|]. pose proof (read_exp_strip r (under a) _ _ _ Er') as X. rewrite Er in X. injection X as X. exact X.
    + destruct h; [discriminate|]. cbn [andb]. intros [= <-]. discriminate.
Qed.
Lemma special_head s : special s <> None -> exists c r, unsigned s = c :: r /\ (c = 105 \/ c = 73 \/ c = 110 \/ c = 78).
Proof.
  assert (SI : forall n k w, special_inf n k w <> None -> exists c r, w = c :: r /\ (c = 105 \/ c = 73)).
  { intros n k w H. unfold special_inf in H. destruct w as [|c r]; [cbn in H; congruence|]. exists c, r. split; [reflexivity|]. cbn [common_prefix str_infinity] in H. destruct (Z.eqb_spec (fold_case c) 105) as [E|]; [apply fold_case_i, E|cbn in H; congruence]. }
  destruct s as [|c r]; [cbn; congruence|]. cbn [special unsigned]. destruct ((c =? 43) || (c =? 45)).
  - intros H. destruct (SI _ _ _ H) as (d & q & -> & Hd). exists d, q. split; [reflexivity|]. lia.
  - destruct ((c =? 105) || (c =? 73)) eqn:E1; [intros _; exists c, r; split; [reflexivity|]; apply orb_true_iff in E1; rewrite !Z.eqb_eq in E1; lia|]. destruct ((c =? 110) || (c =? 78)) eqn:E2; [|congruence].
    intros _. exists c, r. split; [reflexivity|]. apply orb_true_iff in E2. rewrite !Z.eqb_eq in E2. lia.
Qed.
Lemma letter_unread s c r : unsigned s = c :: r -> c = 105 \/ c = 73 \/ c = 110 \/ c = 78 -> read_float s = None.
Proof.
  destruct (split_sign_form s) as (sgn & t & -> & Hs & Ht). rewrite (unsigned_form sgn t Hs Ht). intros -> Hc. unfold read_float. rewrite (split_sign_spec sgn _ Hs Ht).
  assert (E : split_prefix (c :: r) = (false, c :: r)) by (destruct r as [|d [|e r]]; cbn [split_prefix]; [reflexivity|reflexivity|]; destruct (Z.eqb_spec c 48); [lia|reflexivity]). rewrite E.
  rewrite scan_stop; [reflexivity| |lia|left; lia]. destruct Hc as [->|[->|[->| ->]]]; reflexivity.
Qed.
Lemma parse_placed s : well_placed s -> parse_float s = parse_float (strip s).
Proof.
  intros W. destruct (parse_strip s) as [Z|E]; [|exact E]. rewrite Z. symmetry. unfold parse_float.
  destruct (special (strip s)) as [[f n]|] eqn:Es.
  - destruct (Nat.eqb_spec n (length (strip s))) as [->|]; [|reflexivity]. (* then there are no underscores *)
    destruct (decide (95 ∈ s)) as [Hin|Hn].
    + exfalso. assert (Hu : 95 ∈ unsigned s) by (destruct s as [|c r]; [inversion Hin|]; cbn [unsigned]; destruct ((c =? 43) || (c =? 45)) eqn:Ec; [|exact Hin]; apply elem_of_cons in Hin as [<-|Hin]; [discriminate|exact Hin]).
      apply elem_of_list_split in Hu as (a & b & Eu). destruct (W a b Eu) as [(d & b' & -> & Hd) _].
      destruct (split_sign_form s) as (sgn & t & -> & Hs & Ht). rewrite (unsigned_form sgn t Hs Ht) in Eu. subst t.
      assert (Hx : is_digit d).
      { destruct Hd as [Hd|[(x & r & Ex & Hx) _]]; [exact Hd|]. exfalso. destruct (special_head (strip (sgn ++ a ++ 95 :: d :: b'))) as (c1 & r1 & Ec & Hc); [congruence|].
        rewrite (unsigned_form sgn _ Hs Ht) in Ex. rewrite Ex, (strip_sign sgn _ Hs) in Ec. rewrite strip_keep in Ec by lia. rewrite unsigned_form in Ec; [|exact Hs|intros _ ? ? [= <- _]; lia]. injection Ec as <- _. lia. }
      assert (Hin2 : d ∈ strip (sgn ++ a ++ 95 :: d :: b')).
      { unfold strip. apply elem_of_list_In, filter_In. split; [apply elem_of_list_In; rewrite !elem_of_app, !elem_of_cons; tauto|]. unfold is_digit in Hx. destruct (Z.eqb_spec d 95); [lia|reflexivity]. }
      apply special_full in Es. assert (G : forall w, (map fold_case w = str_inf \/ map fold_case w = str_infinity \/ map fold_case w = str_nan) -> d ∉ w).
      { intros w Hw Hd'. apply (elem_of_list_fmap_1 fold_case) in Hd'. change (fold_case <$> w) with (map fold_case w) in Hd'. assert (Ef : fold_case d = d) by (unfold fold_case, is_digit in *; destruct (Z.leb_spec 65 d); [lia|reflexivity]). rewrite Ef in Hd'. unfold is_digit in Hx.
        destruct Hw as [Hw|[Hw|Hw]]; rewrite Hw in Hd'; repeat (apply elem_of_cons in Hd' as [Hd'|Hd']; [lia|]); apply elem_of_nil in Hd'; exact Hd'. }
      destruct Es as [(sg & w & E & Hsg & Hw & _)|[Hw _]]; [|revert Hin2; apply G; auto]. rewrite E, elem_of_app in Hin2. destruct Hin2 as [Hin2|Hin2]; [|revert Hin2; apply G; destruct Hw; auto].
      unfold is_digit in Hx. destruct Hsg as [->|[->| ->]]; rewrite ?elem_of_cons, ?elem_of_nil in Hin2; lia.
    + rewrite (strip_none s Hn) in Es. unfold parse_float in Z. rewrite Es, Nat.eqb_refl in Z. exact Z.
  - destruct (read_float (strip s)) as [x|] eqn:Er; [|reflexivity]. destruct (n_rest x) eqn:En; [|reflexivity]. pose proof (read_back s x W Er En) as Er'.
    unfold parse_float in Z. destruct (special s) as [[f n]|] eqn:Es'; [|rewrite Er', En in Z; exact Z]. exfalso. destruct (special_head s) as (c & r & Eu & Hc); [congruence|]. rewrite (letter_unread s c r Eu Hc) in Er'. discriminate.
Qed.
Section P.
Context (oob : ity -> spec_float -> Z).
Notation conv := (convert format_float parse_float oob).

(** *** C161 *)
(** Underscores that separate digits are dropped; one that does not makes the whole zero. *)
Theorem text_underscores_exact s :
  (well_placed s -> conv BStr (BNum F64) (VStr s) = conv BStr (BNum F64) (VStr (no_underscores s))) /\
  (~ well_placed s -> conv BStr (BNum F64) (VStr s) = Some (VFloat (S754_zero false))).
Proof.
  rewrite !conv_parse. split.
  - intros W. do 2 f_equal. apply parse_placed, W.
  - intros N. do 2 f_equal. unfold parse_float. destruct (special s) as [[f n]|] eqn:E.
    + destruct (Nat.eqb_spec n (length s)) as [->|]; [|reflexivity]. exfalso. apply N. intros a b Eu. exfalso.
      destruct (special_head s) as (c & r & Ec & Hc); [congruence|]. assert (Hin : 95 ∈ unsigned s) by (rewrite Eu; apply elem_of_app; right; left).
      assert (G : forall w, (map fold_case w = str_inf \/ map fold_case w = str_infinity \/ map fold_case w = str_nan) -> 95 ∉ w).
      { intros w Hw Hd'. apply (elem_of_list_fmap_1 fold_case) in Hd'. change (fold_case <$> w) with (map fold_case w) in Hd'. change (fold_case 95) with 95 in Hd'.
        destruct Hw as [Hw|[Hw|Hw]]; rewrite Hw in Hd'; repeat (apply elem_of_cons in Hd' as [Hd'|Hd']; [lia|]); apply elem_of_nil in Hd'; exact Hd'. }
      apply special_full in E as [(sg & w & -> & Hsg & Hw & _)|[Hw _]].
      * assert (Hw' : 95 ∈ w) by (destruct Hsg as [->|[->| ->]]; [|exact Hin|exact Hin]; destruct (inf_text_head w Hw) as (d & q & -> & Hd); cbn [app unsigned] in Hin; destruct ((d =? 43) || (d =? 45)); [right; exact Hin|exact Hin]).
        revert Hw'. apply G. destruct Hw; auto.
      * assert (Hw' : 95 ∈ s) by (destruct s as [|d q]; [inversion Hin|]; cbn [unsigned] in Hin; destruct ((d =? 43) || (d =? 45)); [right; exact Hin|exact Hin]). revert Hw'. apply G. auto.
    + destruct (read_float s) as [x|] eqn:Er; [|reflexivity]. destruct (n_rest x) eqn:En; [|reflexivity]. exfalso. apply N. exact (read_placed s x Er En).
Qed.
End P.
Print Assumptions text_underscores_exact.
(** -0x_1_ap0 and 1_000.5: the underscores are dropped; 1__0, _1, 1_.5 and 0_x1p0: zero *)
Example underscores_placed_ex : well_placed [45; 48; 120; 95; 49; 95; 97; 112; 48] /\ well_placed [49; 95; 48; 48; 48; 46; 53] /\ ~ well_placed [49; 95; 95; 48] /\ ~ well_placed [95; 49] /\ ~ well_placed [49; 95; 46; 53] /\ ~ well_placed [48; 95; 120; 49; 112; 48].
Proof.
  assert (Bad : forall s a b, unsigned s = a ++ 95 :: b -> (forall x r, unsigned s = 48 :: x :: r -> x <> 120 /\ x <> 88) -> (forall c b', b = c :: b' -> ~ is_digit c) \/ a = [] -> ~ well_placed s).
  { intros s a b E Nh H W. destruct (W a b E) as [(c & b' & -> & Hc) W2]. destruct Hc as [Hc|[(x & r & Ex & Hx) _]]; [|destruct (Nh x r Ex); lia]. destruct H as [H| ->]; [exact (H c b' eq_refl Hc)|]. destruct W2 as [(a' & z & Ea & _)|[Ea|Ea]]; [destruct a'; discriminate|discriminate|discriminate]. }
  split; [|split; [|split; [|split; [|split]]]].
  - intros a b E. assert (Hh : hexed [45; 48; 120; 95; 49; 95; 97; 112; 48]) by (do 2 eexists; split; [reflexivity|auto]). cbn in E.
    destruct a as [|? a]; [discriminate|]. injection E as <- E. destruct a as [|? a]; [discriminate|]. injection E as <- E. destruct a as [|? a].
    { injection E as <-. split; [do 2 eexists; split; [reflexivity|left; unfold is_digit; lia]|auto]. }
    injection E as <- E. destruct a as [|? a]; [discriminate|]. injection E as <- E. destruct a as [|? a].
    { injection E as <-. split; [do 2 eexists; split; [reflexivity|right; split; [exact Hh|unfold hex_digit; lia]]|]. left. exists [48; 120; 95], 49. split; [reflexivity|left; unfold is_digit; lia]. }
    injection E as <- E. repeat (destruct a as [|? a]; [discriminate|]; injection E as <- E). destruct a; discriminate.
  - intros a b E. cbn in E. destruct a as [|? a]; [discriminate|]. injection E as <- E. destruct a as [|? a].
    { injection E as <-. split; [do 2 eexists; split; [reflexivity|left; unfold is_digit; lia]|]. left. exists [], 49. split; [reflexivity|left; unfold is_digit; lia]. }
    injection E as <- E. repeat (destruct a as [|? a]; [discriminate|]; injection E as <- E). destruct a; discriminate.
  - apply (Bad _ [49] [95; 48]); [reflexivity|intros x r [=]|left]. intros c b' [= <- _]. unfold is_digit. lia.
  - apply (Bad _ [] [49]); [reflexivity|intros x r [=]|right]. reflexivity.
  - apply (Bad _ [49] [46; 53]); [reflexivity|intros x r [=]|left]. intros c b' [= <- _]. unfold is_digit. lia.
  - apply (Bad _ [48] [120; 49; 112; 48]); [reflexivity|intros x r [= <- _]; lia|left]. intros c b' [= <- _]. unfold is_digit. lia.
Qed.
