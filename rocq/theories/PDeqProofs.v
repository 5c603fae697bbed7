(** poolDequeue is a deque: the invariant. *)
From Verif Require Import Base Conc PDeqModel PDeqSpec.
From Coq Require Import Znumtheory.
Open Scope Z_scope.

Section proofs.
Context (n : Z) (Hn : 0 < n) (HnW : n < W) (Hdiv : (n | W)).
Lemma ix_W p : (p mod W) mod n = p mod n.
Proof using Hn Hdiv. symmetry. apply Zmod_div_mod; [exact Hn|reflexivity|exact Hdiv]. Qed.
Lemma mod_close m p q : 0 < m -> p mod m = q mod m -> p - q < m -> q - p < m -> p = q.
Proof. intros Hm E H1 H2. pose proof (Z.div_mod p m ltac:(lia)). pose proof (Z.div_mod q m ltac:(lia)). assert (p / m = q / m) by nia. nia. Qed.
Lemma sput_eq f k s : sput f k s k = s.
Proof. unfold sput. rewrite decide_True by reflexivity. reflexivity. Qed.
Lemma sput_ne f k s j : j <> k -> sput f k s j = f j.
Proof. intros H. unfold sput. rewrite decide_False by exact H. reflexivity. Qed.

Definition cslot (p : cpc) : option Z := match p with C2 t | C3 t _ | C4 t _ => Some (t mod n) | _ => None end.
Definition oslot (o : opc) : option Z := match o with OPush2 _ h | OPush3t _ h | OPush3v _ h | OPush4 _ h | OPop2 h | OPop3 h _ => Some (h mod n) | _ => None end.
Definition cgood (sl : Z -> slot) (p : cpc) (g : option nat) : Prop :=
  match p with
  | CIdle | C0 => g = None
  | C1 h t => h <> t /\ g = None
  | C2 t => exists x, g = Some x /\ sl (t mod n) = Sw true (Some x)
  | C3 t v => exists x, g = Some x /\ v = Some x /\ sl (t mod n) = Sw true (Some x)
  | C4 t v => exists x, g = Some x /\ v = Some x /\ sl (t mod n) = Sw true None
  end.
Definition ogood (H T : Z) (sl : Z -> slot) (o : opc) (g : option nat) : Prop :=
  match o with
  | OIdle | OPush0 _ | OPop0 => g = None
  | OPush1 _ h | OPush2 _ h => g = None /\ h = H mod W /\ H - T < n
  | OPush3t _ h => g = None /\ h = H mod W /\ H - T < n /\ w_typ (sl (h mod n)) = true
  | OPush3v x h => g = None /\ h = H mod W /\ H - T < n /\ w_val (sl (h mod n)) = Some x
  | OPush4 x h => g = None /\ h = H mod W /\ H - T < n /\ sl (h mod n) = Sw true (Some x)
  | OPop1 h t => h <> t /\ g = None
  | OPop2 h => h = H mod W /\ H - T < n /\ exists x, g = Some x /\ sl (h mod n) = Sw true (Some x)
  | OPop3 h v => h = H mod W /\ H - T < n /\ exists x, g = Some x /\ v = Some x /\ sl (h mod n) = Sw true (Some x)
  end.
Record R (H T : Z) (d : dst) (a : adq) : Prop := {
  r_h : d_head d = H mod W;
  r_t : d_tail d = T mod W;
  r_len : H - T = Z.of_nat (length (a_l a));
  r_n : H - T <= n;
  r_live : forall j x, a_l a !! j = Some x -> d_slot d ((T + Z.of_nat j) mod n) = Sw true (Some x);
  r_cons : forall i, cgood (d_slot d) (d_cons d i) (a_hand a i);
  r_cc : forall i j k, cslot (d_cons d i) = Some k -> cslot (d_cons d j) = Some k -> i = j;
  r_cl : forall i k p, cslot (d_cons d i) = Some k -> T <= p < H -> p mod n <> k;
  r_own : ogood H T (d_slot d) (d_own d) (a_own a);
  r_oc : forall i k, oslot (d_own d) = Some k -> cslot (d_cons d i) <> Some k;
  r_typ : forall k, 0 <= k < n -> w_typ (d_slot d k) = true \/ w_val (d_slot d k) <> None ->
    (exists p, T <= p < H /\ p mod n = k) \/ (exists i, cslot (d_cons d i) = Some k) \/ oslot (d_own d) = Some k }.

Lemma R_init h : 0 <= h < W -> R h h (d_init h) a_init.
Proof.
  intros Hh. split; cbn.
  - symmetry. apply Z.mod_small. exact Hh.
  - symmetry. apply Z.mod_small. exact Hh.
  - lia.
  - lia.
  - intros j x E. rewrite lookup_nil in E. discriminate.
  - reflexivity.
  - discriminate.
  - discriminate.
  - reflexivity.
  - discriminate.
  - intros k _ [Q|Q]; congruence.
Qed.

(** a consumer that has a slot: its type is set, and the consumer has an element in hand *)
Lemma cgood_slot sl p g k : cgood sl p g -> cslot p = Some k -> w_typ (sl k) = true /\ exists x, g = Some x.
Proof. destruct p; cbn; intros G [= <-]; [destruct G as (x & -> & ->)|destruct G as (x & -> & _ & ->)|destruct G as (x & -> & _ & ->)]; eauto. Qed.
Lemma cgood_ext sl sl' p g : (forall k, cslot p = Some k -> sl' k = sl k) -> cgood sl p g -> cgood sl' p g.
Proof. intros E. destruct p; cbn; intros G; try exact G; rewrite E by reflexivity; exact G. Qed.
Lemma ogood_ext H T sl sl' o g : (forall k, oslot o = Some k -> sl' k = sl k) -> ogood H T sl o g -> ogood H T sl' o g.
Proof. intros E. destruct o; cbn; intros G; try exact G; rewrite E by reflexivity; exact G. Qed.
(** the owner's slot is the one at head *)
Lemma own_slot H T sl o g k : ogood H T sl o g -> oslot o = Some k -> k = H mod n /\ H - T < n.
Proof using Hn Hdiv.
  destruct o; cbn; intros G [= <-].
  - destruct G as (_ & -> & G). rewrite ix_W. auto.
  - destruct G as (_ & -> & G & _). rewrite ix_W. auto.
  - destruct G as (_ & -> & G & _). rewrite ix_W. auto.
  - destruct G as (_ & -> & G & _). rewrite ix_W. auto.
  - destruct G as (-> & G & _). rewrite ix_W. auto.
  - destruct G as (-> & G & _). rewrite ix_W. auto.
Qed.
Lemma not_live H T p : T <= p < H -> H - T < n -> p mod n <> H mod n.
Proof using Hn. intros Hp HT E. apply (mod_close n) in E; lia. Qed.

(** the owner moves, and no slot changes *)
Lemma R_own H T h t sl o c a o' : R H T (D h t sl o c) a -> ogood H T sl o' (a_own a) ->
  (forall i k, oslot o' = Some k -> cslot (c i) <> Some k) -> (forall k, oslot o = Some k -> oslot o' = Some k) ->
  R H T (D h t sl o' c) a.
Proof.
  intros [A1 A2 A3 A4 A5 A6 A7 A8 A9 A10 A11] G G1 G2. cbn in *. split; cbn; try assumption.
  intros k Hk Hw. destruct (A11 k Hk Hw) as [Q|[Q|Q]]; auto.
Qed.
(** the owner writes its slot *)
Lemma R_write H T h t sl o c a o' s : R H T (D h t sl o c) a -> oslot o = Some (H mod n) -> oslot o' = Some (H mod n) ->
  ogood H T (sput sl (H mod n) s) o' (a_own a) -> R H T (D h t (sput sl (H mod n) s) o' c) a.
Proof using Hn Hdiv.
  intros [A1 A2 A3 A4 A5 A6 A7 A8 A9 A10 A11] E E' G. cbn in *. destruct (own_slot _ _ _ _ _ _ A9 E) as [_ Hlt].
  split; cbn; try assumption.
  - intros j x Hj. pose proof (lookup_lt_Some _ _ _ Hj). rewrite sput_ne by (apply (not_live H T); lia). apply A5. exact Hj.
  - intros i. eapply cgood_ext; [|apply A6]. intros k Hk. apply sput_ne. intros ->. exact (A10 i _ E Hk).
  - intros i k Hk. rewrite E' in Hk. injection Hk as <-. apply A10. exact E.
  - intros k Hk Hw. destruct (decide (k = H mod n)) as [->|N]; [right; right; exact E'|]. rewrite sput_ne in Hw by exact N.
    destruct (A11 k Hk Hw) as [Q|[Q|Q]]; auto. exfalso. apply N. congruence.
Qed.
(** a consumer moves, and no slot changes *)
Lemma R_cons H T h t sl o c a i p' : R H T (D h t sl o c) a -> cgood sl p' (a_hand a i) -> cslot p' = cslot (c i) -> R H T (D h t sl o (tset c i p')) a.
Proof.
  intros [A1 A2 A3 A4 A5 A6 A7 A8 A9 A10 A11] G E. cbn in *.
  assert (CS : forall j, cslot (tset c i p' j) = cslot (c j)) by (intros j; destruct (tset_cases c i p' j) as [[-> ->]|[N ->]]; [exact E|reflexivity]).
  split; cbn; try assumption.
  - intros j. destruct (tset_cases c i p' j) as [[-> ->]|[N ->]]; [exact G|apply A6].
  - intros j j' k. rewrite !CS. apply A7.
  - intros j k p. rewrite CS. apply A8.
  - intros j k. rewrite CS. apply A10.
  - intros k Hk Hw. destruct (A11 k Hk Hw) as [Q|[[j Q]|Q]]; auto. right. left. exists j. rewrite CS. exact Q.
Qed.

Theorem sim H T d a l d' : R H T d a -> d_step n d l d' -> exists H' T' a', a_step n a l a' /\ R H' T' d' a'.
Proof using Hn HnW Hdiv.
  intros HR HS. pose proof HR as [A1 A2 A3 A4 A5 A6 A7 A8 A9 A10 A11]. destruct a as [q ow g]. cbn [a_l a_own a_hand] in *.
  assert (FULL : forall b, 0 <= b <= n -> H mod W = (T + b) mod W -> b = H - T). { intros b Hb E. assert (H = T + b); [|lia]. apply (mod_close W); [reflexivity|exact E|lia|lia]. }
  destruct HS; cbn [d_head d_tail d_slot d_own d_cons] in *.
  - (* push *) cbn in A9. subst ow. exists H, T, (AD q None g). split; [constructor|]. eapply R_own; [exact HR|reflexivity|discriminate|discriminate].
  - cbn in A9. subst ow. exists H, T, (AD q None g). split.
    + constructor. rewrite <- A3. symmetry. apply FULL; [lia|]. rewrite <- A1, <- H0, A2. rewrite Zplus_mod_idemp_l. reflexivity.
    + eapply R_own; [exact HR|reflexivity|discriminate|discriminate].
  - cbn in A9. subst ow. exists H, T, (AD q None g). split; [constructor|]. eapply R_own; [exact HR| |discriminate|discriminate]. cbn. split; [reflexivity|]. split; [exact A1|].
    destruct (decide (H - T < n)) as [L|L]; [exact L|]. exfalso. apply H0. rewrite A1, A2, Zplus_mod_idemp_l. f_equal. lia.
  - (* busy *) cbn in A9. destruct A9 as (-> & -> & Lt). rewrite ix_W in H0. exists H, T, (AD q None g). split.
    + destruct (A11 (H mod n) (Z.mod_pos_bound _ _ Hn) (or_introl H0)) as [(p & Hp & E)|[(i & Hi)|Q]]; [exfalso; exact (not_live H T p Hp Lt E)| |discriminate].
      destruct (cgood_slot _ _ _ _ (A6 i) Hi) as [_ [y Hy]]. econstructor; [lia|exact Hy].
    + eapply R_own; [exact HR|reflexivity|discriminate|discriminate].
  - cbn in A9. destruct A9 as (-> & -> & Lt). exists H, T, (AD q None g). split; [constructor|]. eapply R_own; [exact HR| | |discriminate]; [cbn; auto|].
    cbn. intros i k [= <-] Hi. destruct (cgood_slot _ _ _ _ (A6 i) Hi) as [Ht _]. congruence.
  - (* writes *) pose proof A9 as (-> & -> & Lt). exists H, T, (AD q None g). split; [constructor|]. rewrite ix_W in *. eapply R_write; [exact HR|cbn; rewrite ix_W; reflexivity|cbn; rewrite ix_W; reflexivity|].
    cbn. rewrite ix_W, sput_eq. auto.
  - pose proof A9 as (-> & -> & Lt). exists H, T, (AD q None g). split; [constructor|]. rewrite ix_W in *. eapply R_write; [exact HR|cbn; rewrite ix_W; reflexivity|cbn; rewrite ix_W; reflexivity|].
    cbn. rewrite ix_W, sput_eq. auto.
  - pose proof A9 as (-> & -> & Lt & Ty). exists H, T, (AD q None g). split; [constructor|]. rewrite ix_W in *. eapply R_write; [exact HR|cbn; rewrite ix_W; reflexivity|cbn; rewrite ix_W; reflexivity|].
    cbn. rewrite ix_W, sput_eq, Ty. auto.
  - pose proof A9 as (-> & -> & Lt & Ty). exists H, T, (AD q None g). split; [constructor|]. rewrite ix_W in *. eapply R_write; [exact HR|cbn; rewrite ix_W; reflexivity|cbn; rewrite ix_W; reflexivity|].
    cbn. rewrite ix_W, sput_eq, Ty. auto.
  - (* add *) cbn in A9. destruct A9 as (-> & -> & Lt & Es). rewrite ix_W in Es. exists (H + 1), T, (AD (q ++ [x]) None g). split; [constructor; lia|].
    split; cbn [d_head d_tail d_slot d_own d_cons a_l a_own a_hand]; try assumption.
    + rewrite A1, Zplus_mod_idemp_l. reflexivity.
    + rewrite app_length. cbn. lia.
    + lia.
    + intros j y Hj. apply lookup_app_Some in Hj as [Hj|[Hl Hj]]; [apply A5; exact Hj|]. apply list_lookup_singleton_Some in Hj as [Hj <-].
      replace (T + Z.of_nat j) with H by lia. exact Es.
    + intros i k p Hi Hp E. destruct (decide (p = H)) as [->|N]; [|apply (A8 i k p Hi); [lia|exact E]]. apply (A10 i k); [cbn; rewrite ix_W; congruence|exact Hi].
    + reflexivity.
    + discriminate.
    + intros k Hk Hw. destruct (A11 k Hk Hw) as [(p & Hp & E)|[Q|Q]]; [left; exists p; split; [lia|exact E]|auto|]. cbn in Q. rewrite ix_W in Q. injection Q as <-. left. exists H. split; [lia|reflexivity].
  - (* popHead *) cbn in A9. subst ow. exists H, T, (AD q None g). split; [constructor|]. eapply R_own; [exact HR|reflexivity|discriminate|discriminate].
  - cbn in A9. subst ow. subst t. assert (0 = H - T) by (apply FULL; [lia|]; rewrite Z.add_0_r; congruence). assert (q = []) as -> by (destruct q; [reflexivity|cbn in A3; lia]).
    exists H, T, (AD [] None g). split; [constructor|]. eapply R_own; [exact HR|reflexivity|discriminate|discriminate].
  - cbn in A9. subst ow. exists H, T, (AD q None g). split; [constructor|]. eapply R_own; [exact HR| |discriminate|discriminate]. cbn. auto.
  - (* CAS *) cbn in A9. destruct A9 as [NE ->]. assert (HT : T < H). { destruct (decide (H = T)) as [->|]; [congruence|lia]. }
    destruct (rev q) as [|x q'] eqn:EQ; [apply (f_equal (@rev nat)) in EQ; rewrite rev_involutive in EQ; subst q; cbn in A3; lia|].
    apply (f_equal (@rev nat)) in EQ. rewrite rev_involutive in EQ. cbn in EQ. subst q. set (q := rev q') in *. clearbody q. clear q'.
    rewrite app_length in A3. cbn in A3. assert (EH : H - 1 = T + Z.of_nat (length q)) by lia.
    assert (Es : sl ((H - 1) mod n) = Sw true (Some x)) by (rewrite EH; apply A5; rewrite lookup_app_r, Nat.sub_diag by lia; reflexivity).
    assert (Eh : (h - 1) mod W = (H - 1) mod W) by (rewrite A1, Zminus_mod_idemp_l; reflexivity).
    exists (H - 1), T, (AD q (Some x) g). split; [constructor|]. split; cbn [d_head d_tail d_slot d_own d_cons a_l a_own a_hand]; try assumption.
    + lia.
    + lia.
    + intros j y Hj. apply A5. apply lookup_app_l_Some. exact Hj.
    + intros i k p Hi Hp. apply (A8 i k p Hi). lia.
    + cbn. split; [exact Eh|]. split; [lia|]. exists x. split; [reflexivity|]. rewrite Eh, ix_W. exact Es.
    + cbn. intros i k [= <-] Hi. rewrite Eh, ix_W in Hi. apply (A8 i _ (H - 1) Hi); [lia|reflexivity].
    + intros k Hk Hw. destruct (A11 k Hk Hw) as [(p & Hp & E)|[Q|Q]]; [|auto|discriminate]. destruct (decide (p = H - 1)) as [->|N]; [|left; exists p; split; [lia|exact E]].
      right. right. cbn. rewrite Eh, ix_W, E. reflexivity.
  - cbn in A9. destruct A9 as [_ ->]. exists H, T, (AD q None g). split; [constructor|]. eapply R_own; [exact HR|reflexivity|discriminate|discriminate].
  - pose proof A9 as (-> & Lt & x & -> & Es). exists H, T, (AD q (Some x) g). split; [constructor|]. eapply R_own; [exact HR| |cbn; intros i k Hk; apply A10; exact Hk|cbn; auto].
    cbn. split; [reflexivity|]. split; [exact Lt|]. exists x. rewrite Es. auto.
  - (* zero *) pose proof A9 as (-> & Lt & x & -> & -> & Es). rewrite ix_W in *. exists H, T, (AD q None g). split; [constructor|].
    split; cbn [d_head d_tail d_slot d_own d_cons a_l a_own a_hand]; try assumption.
    + intros j y Hj. pose proof (lookup_lt_Some _ _ _ Hj). rewrite sput_ne by (apply (not_live H T); lia). apply A5. exact Hj.
    + intros i. eapply cgood_ext; [|apply A6]. intros k Hk. apply sput_ne. intros ->. apply (A10 i (H mod n)); [cbn; rewrite ix_W; reflexivity|exact Hk].
    + reflexivity.
    + discriminate.
    + intros k Hk Hw. destruct (decide (k = H mod n)) as [->|N]; [rewrite sput_eq in Hw; cbn in Hw; destruct Hw; congruence|]. rewrite sput_ne in Hw by exact N.
      destruct (A11 k Hk Hw) as [Q|[Q|Q]]; auto. cbn in Q. rewrite ix_W in Q. congruence.
  - (* popTail *) pose proof (A6 i) as G. rewrite H0 in G. exists H, T, (AD q ow g). split; [constructor|]. eapply R_cons; [exact HR|exact G|rewrite H0; reflexivity].
  - pose proof (A6 i) as G. rewrite H0 in G. cbn in G. subst t. assert (0 = H - T) by (apply FULL; [lia|]; rewrite Z.add_0_r; congruence). assert (q = []) as -> by (destruct q; [reflexivity|cbn in A3; lia]).
    exists H, T, (AD [] ow g). split; [constructor; exact G|]. eapply R_cons; [exact HR|exact G|rewrite H0; reflexivity].
  - pose proof (A6 i) as G. rewrite H0 in G. exists H, T, (AD q ow g). split; [constructor|]. eapply R_cons; [exact HR| |rewrite H0; reflexivity]. cbn. split; [congruence|exact G].
  - (* CAS *) pose proof (A6 i) as G. rewrite H0 in G. cbn in G. destruct G as [NE G]. assert (HT : T < H). { destruct (decide (H = T)) as [->|]; [congruence|lia]. }
    destruct q as [|x q]; [cbn in A3; lia|]. cbn in A3.
    assert (Es : sl (T mod n) = Sw true (Some x)) by (rewrite <- (A5 0%nat x eq_refl); f_equal; f_equal; lia).
    exists H, (T + 1), (AD q ow (tset g i (Some x))). split; [constructor; exact G|].
    assert (CS : forall j k, cslot (tset c i (C2 t) j) = Some k -> (j = i /\ k = T mod n) \/ (j <> i /\ cslot (c j) = Some k)).
    { intros j k Hj. destruct (tset_cases c i (C2 t) j) as [[-> E]|[N E]]; rewrite E in Hj; [left|right; auto]. cbn in Hj. rewrite A2, ix_W in Hj. split; congruence. }
    assert (OT : forall j, cslot (c j) = Some (T mod n) -> False) by (intros j Hj; exact (A8 j _ T Hj ltac:(lia) eq_refl)).
    split; cbn [d_head d_tail d_slot d_own d_cons a_l a_own a_hand]; try assumption.
    + rewrite A2, Zplus_mod_idemp_l. reflexivity.
    + lia.
    + lia.
    + intros j y Hj. rewrite <- (A5 (S j) y Hj). f_equal. f_equal. lia.
    + intros j. destruct (tset_cases c i (C2 t) j) as [[-> E]|[N E]]; rewrite E; [rewrite tset_eq|rewrite tset_ne by exact N; apply A6].
      cbn. exists x. split; [reflexivity|]. rewrite A2, ix_W. exact Es.
    + intros j j' k Hj Hj'. destruct (CS _ _ Hj) as [[-> ->]|[N X]], (CS _ _ Hj') as [[-> E]|[N' X']]; [reflexivity|destruct (OT _ X')|subst k; destruct (OT _ X)|exact (A7 _ _ _ X X')].
    + intros j k p Hj Hp. destruct (CS _ _ Hj) as [[-> ->]|[N X]]; [|apply (A8 j k p X); lia]. intros E. apply (mod_close n) in E; lia.
    + assert (HL : forall o, ogood H T sl o ow -> ogood H (T + 1) sl o ow); [|apply HL; exact A9]. intros o'. destruct o'; cbn; intuition lia.
    + intros j k Ho Hj. destruct (CS _ _ Hj) as [[-> ->]|[N X]]; [|exact (A10 j k Ho X)]. destruct (own_slot _ _ _ _ _ _ A9 Ho) as [E Lt]. apply (not_live H T T); [lia|exact Lt|exact E].
    + intros k Hk Hw. destruct (A11 k Hk Hw) as [(p & Hp & E)|[[j Q]|Q]]; [| |auto].
      * destruct (decide (p = T)) as [->|N]; [|left; exists p; split; [lia|exact E]]. right. left. exists i. rewrite tset_eq. cbn. rewrite A2, ix_W, E. reflexivity.
      * right. left. exists j. rewrite tset_ne; [exact Q|]. intros ->. rewrite H0 in Q. discriminate.
  - pose proof (A6 i) as G. rewrite H0 in G. cbn in G. destruct G as [_ G]. exists H, T, (AD q ow g). split; [constructor|]. eapply R_cons; [exact HR|exact G|rewrite H0; reflexivity].
  - pose proof (A6 i) as G. rewrite H0 in G. destruct G as (x & G & Es). exists H, T, (AD q ow g). split; [constructor|]. eapply R_cons; [exact HR| |rewrite H0; reflexivity]. cbn. exists x. rewrite Es. auto.
  - (* val = nil *) pose proof (A6 i) as G. rewrite H0 in G. destruct G as (x & G & -> & Es). exists H, T, (AD q ow g). split; [constructor|]. rewrite Es. cbn [w_typ].
    assert (Hi : cslot (c i) = Some (tl mod n)) by (rewrite H0; reflexivity).
    assert (CS : forall j, cslot (tset c i (C4 tl (Some x)) j) = cslot (c j)) by (intros j; destruct (tset_cases c i (C4 tl (Some x)) j) as [[-> ->]|[N ->]]; [rewrite Hi; reflexivity|reflexivity]).
    split; cbn [d_head d_tail d_slot d_own d_cons a_l a_own a_hand]; try assumption.
    + intros j y Hj. pose proof (lookup_lt_Some _ _ _ Hj). rewrite sput_ne by (apply (A8 i _ _ Hi); lia). apply A5. exact Hj.
    + intros j. destruct (tset_cases c i (C4 tl (Some x)) j) as [[-> ->]|[N ->]].
      * cbn. exists x. rewrite sput_eq. auto.
      * eapply cgood_ext; [|apply A6]. intros k Hk. apply sput_ne. intros ->. apply N. exact (A7 _ _ _ Hk Hi).
    + intros j j' k. rewrite !CS. apply A7.
    + intros j k p. rewrite CS. apply A8.
    + eapply ogood_ext; [|exact A9]. intros k Hk. apply sput_ne. intros ->. exact (A10 i _ Hk Hi).
    + intros j k. rewrite CS. apply A10.
    + intros k Hk Hw. destruct (decide (k = tl mod n)) as [->|N]; [right; left; exists i; rewrite CS; exact Hi|]. rewrite sput_ne in Hw by exact N.
      destruct (A11 k Hk Hw) as [Q|[[j Q]|Q]]; auto. right. left. exists j. rewrite CS. exact Q.
  - (* typ = nil *) pose proof (A6 i) as G. rewrite H0 in G. destruct G as (x & G & -> & Es). exists H, T, (AD q ow (tset g i None)). split; [constructor; exact G|].
    assert (Hi : cslot (c i) = Some (tl mod n)) by (rewrite H0; reflexivity).
    assert (CS : forall j k, cslot (tset c i CIdle j) = Some k -> j <> i /\ cslot (c j) = Some k) by (intros j k Hj; destruct (tset_cases c i CIdle j) as [[-> E]|[N E]]; rewrite E in Hj; [discriminate|auto]).
    split; cbn [d_head d_tail d_slot d_own d_cons a_l a_own a_hand]; try assumption.
    + intros j y Hj. pose proof (lookup_lt_Some _ _ _ Hj). rewrite sput_ne by (apply (A8 i _ _ Hi); lia). apply A5. exact Hj.
    + intros j. destruct (tset_cases c i CIdle j) as [[-> ->]|[N ->]]; [rewrite tset_eq; reflexivity|]. rewrite tset_ne by exact N.
      eapply cgood_ext; [|apply A6]. intros k Hk. apply sput_ne. intros ->. apply N. exact (A7 _ _ _ Hk Hi).
    + intros j j' k Hj Hj'. apply CS in Hj as [_ Hj], Hj' as [_ Hj']. exact (A7 _ _ _ Hj Hj').
    + intros j k p Hj. apply CS in Hj as [_ Hj]. exact (A8 _ _ _ Hj).
    + eapply ogood_ext; [|exact A9]. intros k Hk. apply sput_ne. intros ->. exact (A10 i _ Hk Hi).
    + intros j k Ho Hj. apply CS in Hj as [_ Hj]. exact (A10 _ _ Ho Hj).
    + intros k Hk Hw. destruct (decide (k = tl mod n)) as [->|N]; [rewrite sput_eq, Es in Hw; cbn in Hw; destruct Hw; congruence|]. rewrite sput_ne in Hw by exact N.
      destruct (A11 k Hk Hw) as [Q|[[j Q]|Q]]; auto. right. left. exists j. rewrite tset_ne; [exact Q|]. intros ->. congruence.
Qed.
End proofs.
