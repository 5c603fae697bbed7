(** Proofs for OrdExactProps.v. *)
From Verif Require Import Base Conc SplitMixModel SklSpec SklModel SklProofs SklRefine SklIterProofs OrdMapSpec OrdMapModel OrdMapProofs OrdRangeModel OrdRangeProofs
  SklExactSpec SklExactModel SklExactProofs OrdExactSpec OrdExactModel.

Section P.
Context {K V A : Type} (zeroK : K) (zeroV : V) (ltb eqb : K -> K -> bool).
Context (SWO : strict_weak_order ltb eqb).
Notation keysof := (fmap (fun e : K * V => (e.1, tt))).
Notation Inv := (Inv zeroK ltb).
Notation ent := (ent zeroK tt).
Notation ky := (ky zeroK).
Notation step := (o_step zeroK zeroV ltb eqb).
Notation istep := (ord_step ltb eqb).
Notation RelL := (RelL zeroK ltb eqb).
Notation at_place := (at_place zeroK tt).
Implicit Types (m : list (K * V)) (om : ordmap K V) (its : list iter) (cs : list (place K unit)).

(** the map, and the iterators of the Ranges under way *)
Definition Y om its (st : ostate (K := K) (V := V)) : Prop :=
  exists locs, RelL om st.1 locs /\ Forall2 (at_place (o_skl om) locs) its st.2.

Lemma tail_ent om m locs : RelL om m locs -> ent (s_heap (o_skl om)) (s_tail (o_skl om)) = (zeroK, tt).
Proof. intros R. pose proof (rl_tail _ _ _ _ _ _ R) as T. unfold tail_ok in T. unfold SklProofs.ent, SklProofs.ky, vl. rewrite T. reflexivity. Qed.

Lemma places_unchanged om locs m o its cs : o <> OClear -> (forall k, o = ODel k -> forall y, y ∈ locs -> eqb (ky (s_heap (o_skl om)) y) k = false) ->
  Forall2 (at_place (o_skl om) locs) its cs -> Forall2 (at_place (o_skl om) locs) its (map (range_after ltb eqb m o) cs).
Proof.
  intros Ho Hk. induction 1 as [|it c its cs H HF IH]; [constructor|]. cbn [map]. constructor; [|exact IH].
  destruct o as [|k| | | | |]; try exact H; [|congruence]. specialize (Hk k eq_refl). cbn [range_after place_after].
  destruct c as [|k'|ds [k'| |]|]; try exact H.
  - destruct (eqb k' k) eqn:E; [|exact H]. destruct H as (x & _ & Hx & <-). rewrite (Hk x Hx) in E. discriminate.
  - destruct (eqb k' k) eqn:E; [|exact H]. destruct H as (x & xs & z & _ & _ & _ & _ & Hz & <-). rewrite (Hk z Hz) in E. discriminate.
Qed.

Lemma Y_call om its st c o : Y om its st ->
  exists om', step om (c, o) = Ret (om', (istep st.1 o).2) /\ Y om' its ((istep st.1 o).1, map (range_after ltb eqb st.1 o) st.2).
Proof.
  destruct st as [m cs]. intros (locs & R & HF). cbn [fst snd] in *.
  destruct (ord_step_rel zeroK zeroV ltb eqb SWO om m c o ltac:(exists locs; exact R)) as (om' & E & R'). exists om'. split; [exact E|].
  assert (HG : exists locs', Inv (o_skl om') locs' /\ Forall2 (at_place (o_skl om') locs') its (map (range_after ltb eqb m o) cs)).
  { pose proof (rl_inv _ _ _ _ _ _ R) as I. pose proof (rl_keys _ _ _ _ _ _ R) as HP. change (fmap (fun e : K * V => (e.1, tt)) m) with (keys_only m) in HP.
    assert (HM : forall mo s' r, mo <> MClear -> m_step zeroK tt ltb eqb (fun _ => []) (fun _ => []) (o_skl om) (c, mo) = Ret (s', r) -> o_skl om' = s' ->
                (forall c0, range_after ltb eqb m o c0 = place_after ltb eqb (keys_only m) mo c0) ->
                exists locs', Inv (o_skl om') locs' /\ Forall2 (at_place (o_skl om') locs') its (map (range_after ltb eqb m o) cs)).
    { intros mo s' r Hm Es Eq Hr. destruct (step_shape zeroK tt ltb eqb (fun _ => []) (fun _ => []) SWO (o_skl om) locs c mo s' r I Hm Es) as (locs' & I' & Eh & Et & Fr & Hs & Hl).
      rewrite Eq. exists locs'. split; [exact I'|]. clear -HF I I' HP Eh Et Fr Hs Hl Hm Hr SWO. induction HF as [|it c0 its cs H HF IH]; [constructor|]. cbn [map]. constructor; [|exact IH].
      rewrite Hr. eapply (place_map zeroK tt ltb eqb (fun _ => []) (fun _ => []) SWO (o_skl om) s' locs locs' (keys_only m) mo it c0); eassumption. }
    assert (HU : o <> OClear -> o_skl om' = o_skl om -> (forall k, o = ODel k -> forall y, y ∈ locs -> eqb (ky (s_heap (o_skl om)) y) k = false) ->
                exists locs', Inv (o_skl om') locs' /\ Forall2 (at_place (o_skl om') locs') its (map (range_after ltb eqb m o) cs)).
    { intros Ho Eq Hk. rewrite Eq. exists locs. split; [exact I|]. apply places_unchanged; assumption. }
    destruct o as [k v|k|k| | | |]; unfold o_step in E; cbn [fst snd] in E.
    - unfold ord_set in E. destruct (gm_get eqb (o_m om) k) eqn:Eg; cbn [rbind] in E.
      + injection E as <-. apply HU; [discriminate|reflexivity|discriminate].
      + destruct (sk_insert ltb eqb (o_skl om) k tt) as [s1| |] eqn:Ei; cbn in E; try discriminate. injection E as <-.
        apply (HM (MSet k tt) s1 MUnit); [discriminate| |reflexivity|reflexivity]. unfold m_step. cbn [fst snd]. rewrite Ei. reflexivity.
    - unfold ord_del in E. destruct (gm_get eqb (o_m om) k) eqn:Eg; cbn [rbind] in E.
      + destruct (sk_delete ltb eqb (o_skl om) k) as [[s1 b]| |] eqn:Ei; cbn in E; try discriminate. injection E as <-.
        apply (HM (MDel k) s1 (MBool b)); [discriminate| |reflexivity|reflexivity]. unfold m_step. cbn [fst snd]. rewrite Ei. reflexivity.
      + injection E as <-. apply HU; [discriminate|reflexivity|]. intros k0 [= <-] y Hy. rewrite (rl_get _ _ _ _ _ _ R) in Eg. apply (has_get_false zeroK zeroV) in Eg.
        destruct (eqb (ky (s_heap (o_skl om)) y) k) eqn:Ey; [|reflexivity]. exfalso. assert (Hin : ent (s_heap (o_skl om)) y ∈ keys_only m) by (rewrite HP; apply elem_of_list_fmap; eauto).
        unfold keys_only in Hin. apply elem_of_list_fmap in Hin as (e & He & Hin). injection He as He _. apply not_true_iff_false in Eg. apply Eg. unfold map_has. apply existsb_exists.
        exists e. split; [apply elem_of_list_In; exact Hin|]. rewrite <- He. exact Ey.
    - injection E as <-. apply HU; [discriminate|reflexivity|discriminate].
    - injection E as <-. apply HU; [discriminate|reflexivity|discriminate].
    - injection E as <-. unfold ord_clear. cbn [o_skl]. exists []. split; [apply (new_inv zeroK tt ltb (s_heap (o_skl om)) c); apply (inv_16 _ _ _ _ I)|].
      pose proof (tail_ent om m locs R) as HT. clear -HF I HP HT SWO. induction HF as [|it c0 its cs H HF IH]; [constructor|]. cbn [map]. constructor; [|exact IH].
      eapply (place_clear zeroK tt ltb eqb SWO (o_skl om) locs (keys_only m)); eassumption.
    - destruct (sk_keys (o_skl om)); cbn in E; try discriminate. injection E as <- _. apply HU; [discriminate|reflexivity|discriminate].
    - destruct (ord_values zeroV eqb om); cbn in E; try discriminate. injection E as <- _. apply HU; [discriminate|reflexivity|discriminate]. }
  destruct HG as (locs' & I' & HF'). exists locs'. split; [|exact HF']. cbn [fst]. apply (relL_of zeroK ltb eqb); assumption.
Qed.

(** the runs agree; if they end, in related states with the same iterators *)
Definition agree {B} its (x : list (K * V) * res (B * ordmap K V)) (y : list (K * V) * res (B * ostate (K := K) (V := V))) : Prop :=
  x.1 = y.1 /\ match x.2, y.2 with
  | Ret (b, om), Ret (b', st) => b = b' /\ Y om its st
  | Panic, Panic | Spin, Spin => True
  | _, _ => False
  end.
Definition swap {S} (x : list (K * V) * res (A * S * bool)) : list (K * V) * res (A * bool * S) :=
  (x.1, match x.2 with Ret (a, s, b) => Ret (a, b, s) | Panic => Panic | Spin => Spin end).

Lemma range_sim f g its0 : (forall a k v om its st, Y om its st -> agree its (swap (f a k v om)) (swap (g a k v st))) ->
  forall fuel a om it its m c cs, its = its0 -> Y om (it :: its) (m, c :: cs) ->
  agree its (nrange zeroV eqb f fuel a om it) (srange zeroK zeroV ltb eqb g fuel a m c cs).
Proof.
  intros Hf. induction fuel as [|fuel IH]; intros a om it its m c cs Hi HY; pose proof HY as (locs & R & HF); cbn [fst snd] in *;
    apply Forall2_cons in HF as [Hat HF]; cbn [nrange srange];
    pose proof (place_next_ok zeroK tt ltb eqb (fun _ => []) (fun _ => []) SWO (o_skl om) locs (keys_only m) it c (rl_inv _ _ _ _ _ _ R) (rl_keys _ _ _ _ _ _ R) (tail_ent om m locs R) Hat) as HN;
    (destruct (place_next zeroK tt ltb (keys_only m) c) as [[c' [[k []]|]]| |]; [| |rewrite HN; split; [reflexivity|exact I]|contradiction]);
    destruct HN as (it' & EN & Hat'); rewrite EN.
  2:{ split; [reflexivity|]. cbn. split; [reflexivity|]. exists locs. auto. }
  3:{ split; [reflexivity|]. cbn. split; [reflexivity|]. exists locs. auto. }
  all: rewrite (rl_get _ _ _ _ _ _ R k); set (v := default zeroV (map_get eqb m k));
    assert (HY' : Y om (it' :: its) (m, c' :: cs)) by (exists locs; split; [exact R|constructor; assumption]);
    pose proof (Hf a k v om (it' :: its) (m, c' :: cs) HY') as [G1 G2]; unfold swap in G1, G2;
    destruct (f a k v om) as [t r], (g a k v (m, c' :: cs)) as [t2 r2]; cbn [fst snd] in G1, G2; subst t2;
    destruct r as [[[a' om'] stop]| |], r2 as [[[a2 [m2 cs2]] stop2]| |]; try contradiction; try (split; [reflexivity|exact I]);
    destruct G2 as [[= <- <-] HY2]; pose proof HY2 as (locs2 & R2 & HF2); cbn [fst snd] in *; apply Forall2_cons_inv_l in HF2 as (c2 & cs3 & Hat2 & HF2 & ->);
    destruct stop.
  - split; [reflexivity|]. cbn. split; [reflexivity|]. exists locs2. auto.
  - split; [reflexivity|exact I].
  - split; [reflexivity|]. cbn. split; [reflexivity|]. exists locs2. auto.
  - specialize (IH a' om' it' its m2 c2 cs3 Hi HY2). destruct (nrange zeroV eqb f fuel a' om' it') as [t' r'], (srange zeroK zeroV ltb eqb g fuel a' m2 c2 cs3) as [t2 r2].
    destruct IH as [J1 J2]. cbn [fst snd] in J1, J2. subst t2. split; [reflexivity|exact J2].
Qed.

Lemma exec_sim n p : forall om its st, Y om its st -> agree its (swap (nexec zeroK zeroV ltb eqb n p om)) (swap (sexec zeroK zeroV ltb eqb n p st)).
Proof.
  induction p as [a stop|c o q IH|f IHf a q IHq]; intros om its st HY.
  - split; [reflexivity|]. cbn. auto.
  - cbn [nexec sexec]. destruct (Y_call om its st c o HY) as (om' & E & HY'). rewrite E. destruct (istep st.1 o) as [m' r]. apply IH. exact HY'.
  - cbn [nexec sexec]. assert (HY0 : Y om (it_new :: its) (st.1, PStart :: st.2)) by (destruct HY as (locs & R & HF); exists locs; split; [exact R|constructor; [reflexivity|exact HF]]).
    pose proof (range_sim _ _ its (fun a k v om its st HY => IHf a k v om its st HY) n a om it_new its st.1 PStart st.2 eq_refl HY0) as [G1 G2].
    destruct (nrange zeroV eqb _ n a om it_new) as [t r], (srange zeroK zeroV ltb eqb _ n a st.1 PStart st.2) as [t2 r2]. cbn [fst snd] in G1, G2. subst t2.
    destruct r as [[a' om']| |], r2 as [[a2 st']| |]; try contradiction; try (split; [reflexivity|exact I]). destruct G2 as [<- HY'].
    specialize (IHq a' om' its st' HY'). destruct (nexec zeroK zeroV ltb eqb n (q a') om') as [t' r'], (sexec zeroK zeroV ltb eqb n (q a') st') as [t2 r2].
    destruct IHq as [J1 J2]. cbn [swap fst snd] in J1, J2. subst t2. split; [reflexivity|exact J2].
Qed.
End P.

(** *** Facts about the specification *)
Section S.
Context {K V A : Type} (zeroK : K) (zeroV : V) (ltb eqb : K -> K -> bool).
Notation sexec := (sexec zeroK zeroV ltb eqb).
Notation srange := (srange (A := A) zeroK zeroV ltb eqb).

Definition fine (c : place K unit) : Prop := match c with PDone | POff _ TOld => False | _ => True end.
Lemma fine_target l ds : fine (POff ds (target_of (V := unit) (K := K) l)).
Proof. destruct l; exact I. Qed.
Lemma fine_after m o c : o <> OClear -> fine c -> fine (range_after (V := V) ltb eqb m o c).
Proof.
  intros Ho Hc. destruct o as [|k| | | | |]; try exact Hc; [|congruence]. unfold range_after, place_after.
  destruct c as [|k'|ds [k'| |]|]; try exact Hc; destruct (eqb k' k); try exact Hc; apply fine_target.
Qed.
Lemma fine_next m c : fine c -> match place_next zeroK tt ltb m c with Ret (c', Some _) => fine c' | Ret (_, None) => True | _ => False end.
Proof.
  destruct c as [|k|[|d ds] [k| |]|]; cbn [place_next]; intros H; try exact I; try contradiction.
  - destruct (sorted_entries ltb m); exact I.
  - unfold on_first. destruct (above ltb m k); exact I.
  - unfold on_first. destruct (from ltb m k); exact I.
Qed.

Definition calm (x : list (K * V) * res (A * ostate (K := K) (V := V) * bool)) : Prop :=
  match x.2 with Ret (_, st, _) => Forall fine st.2 | Panic => False | Spin => True end.
Lemma srange_calm f : (forall a k v st, Forall fine st.2 -> calm (f a k v st)) ->
  forall fuel a m c cs, fine c -> Forall fine cs ->
  match (srange f fuel a m c cs).2 with Ret (_, st) => Forall fine st.2 | Panic => False | Spin => True end.
Proof.
  intros Hf. induction fuel as [|fuel IH]; intros a m c cs Hc Hcs; cbn [OrdExactSpec.srange];
    pose proof (fine_next (keys_only m) c Hc) as HN; destruct (place_next zeroK tt ltb (keys_only m) c) as [[c' [[k []]|]]| |]; try contradiction; try exact Hcs;
    set (v := default zeroV (map_get eqb m k)); pose proof (Hf a k v (m, c' :: cs) ltac:(constructor; assumption)) as H; unfold calm in H;
    destruct (f a k v (m, c' :: cs)) as [t [[[a' [m' [|c2 cs']]] stop]| |]]; cbn [snd] in *; try contradiction; try exact I; destruct stop; try exact I.
  1,2: cbn; apply Forall_cons in H as [_ H]; exact H.
  apply Forall_cons in H as [H1 H2]. specialize (IH a' m' c2 cs' H1 H2). destruct (srange f fuel a' m' c2 cs') as [t' r']. exact IH.
Qed.
Lemma sexec_calm n p : no_clear p -> forall st, Forall fine st.2 -> calm (sexec n p st).
Proof.
  induction 1 as [a stop|c o q Ho _ IH|f a q _ IHf _ IHq]; intros st Hst; cbn [OrdExactSpec.sexec].
  - exact Hst.
  - destruct (ord_step ltb eqb st.1 o) as [m' r]. apply IH. cbn [snd]. clear -Hst Ho. induction Hst; cbn; constructor; [apply fine_after; assumption|assumption].
  - pose proof (srange_calm _ (fun a k v st H => IHf a k v st H) n a st.1 PStart st.2 I Hst) as H.
    destruct (srange _ n a st.1 PStart st.2) as [t [[a' st']| |]]; cbn [snd] in H; try contradiction; try exact I.
    specialize (IHq a' st' H). destruct (sexec n (q a') st') as [t' r']. exact IHq.
Qed.

(** with more fuel, a run that ends is the same *)
Lemma srange_more f g : (forall a k v st, (f a k v st).2 <> Spin -> g a k v st = f a k v st) ->
  forall fuel fuel' a m c cs, fuel <= fuel' -> (srange f fuel a m c cs).2 <> Spin -> srange g fuel' a m c cs = srange f fuel a m c cs.
Proof.
  intros Hfg. induction fuel as [|fuel IH]; intros fuel' a m c cs Hle HS; (destruct fuel' as [|fuel']; [try lia|]); cbn [OrdExactSpec.srange] in *;
    destruct (place_next zeroK tt ltb (keys_only m) c) as [[c' [[k []]|]]| |]; try reflexivity;
    set (v := default zeroV (map_get eqb m k)) in *; pose proof (Hfg a k v (m, c' :: cs)) as H;
    destruct (f a k v (m, c' :: cs)) as [t [[[a' [m' [|c2 cs']]] stop]| |]]; cbn [snd] in H; (try (cbn in HS; congruence)); (rewrite H by discriminate; clear H); try reflexivity;
    destruct stop; try reflexivity; try (cbn in HS; congruence).
  specialize (IH fuel' a' m' c2 cs' ltac:(lia)). destruct (srange f fuel a' m' c2 cs') as [t' r']. cbn [snd] in HS, IH. rewrite IH by exact HS. reflexivity.
Qed.
Lemma sexec_more n n' (p : nprog K V A) : n <= n' -> forall st, (sexec n p st).2 <> Spin -> sexec n' p st = sexec n p st.
Proof.
  intros Hle. induction p as [a stop|c o q IH|f IHf a q IHq]; intros st HS; cbn [OrdExactSpec.sexec] in *.
  - reflexivity.
  - destruct (ord_step ltb eqb st.1 o) as [m' r]. apply IH. exact HS.
  - pose proof (srange_more _ _ (fun a k v st H => IHf a k v st H) n n' a st.1 PStart st.2 Hle) as H.
    destruct (srange (fun a k v st => sexec n (f a k v) st) n a st.1 PStart st.2) as [t [[a' st']| |]]; cbn [snd] in *; [|rewrite H by discriminate; reflexivity|congruence].
    rewrite H by discriminate. specialize (IHq a' st'). destruct (sexec n (q a') st') as [t' r']. cbn [snd] in *. rewrite IHq by exact HS. reflexivity.
Qed.
End S.
