(** Proofs for OrdAnyProps: OrdMap (dsx/mapx/ordmapx) with any <, and an == that is
    symmetric and transitive but need not be reflexive (NaN). *)
From Verif Require Import Base SplitMixModel SklSpec SklModel SklProofs SklAnySpec SklAnyProofs OrdMapSpec OrdMapModel.

(** a call of an OrdMap as a call of a map *)
Definition as_map {K V} (o : oop K V) : mop K V :=
  match o with
  | OSet k v => MSet k v | ODel k => MDel k | OGet k => MGet k | OLen => MLen
  | OClear => MClear | OKeys => MKeys | OValues => MValues
  end.
Section Ord.
Context {K V : Type} (zeroK : K) (zeroV : V) (ltb eqb : K -> K -> bool).
Context (Sym : forall x y, eqb x y = true -> eqb y x = true).
Context (Tr : forall x y z, eqb x y = true -> eqb y z = true -> eqb x z = true).
Notation get := (gm_get (V := V) eqb).
Implicit Types m : list (K * V).

Lemma get_some m k v : get m k = Some v -> exists k', k' ∈ m.*1 /\ eqb k' k = true.
Proof.
  induction m as [|[k' v'] m IH]; [discriminate|]. cbn. destruct (eqb k' k) eqn:E.
  - intros _. exists k'. split; [constructor|exact E].
  - intros H. destruct (IH H) as (k2 & H1 & H2). exists k2. split; [apply elem_of_list_further; exact H1|exact H2].
Qed.
Lemma get_none m k : get m k = None -> forall k', k' ∈ m.*1 -> eqb k' k = false.
Proof.
  induction m as [|[k' v'] m IH]; intros H k2 Hk; [inversion Hk|]. cbn in H, Hk. destruct (eqb k' k) eqn:E; [discriminate|].
  apply elem_of_cons in Hk as [->|Hk]; [exact E|auto].
Qed.
Lemma get_congr m k q : eqb k q = true -> get m k = get m q.
Proof.
  intros E. induction m as [|[k' v'] m IH]; [reflexivity|]. cbn.
  destruct (eqb k' k) eqn:E1, (eqb k' q) eqn:E2; auto.
  - rewrite (Tr _ _ _ E1 E) in E2. discriminate.
  - rewrite (Tr _ _ _ E2 (Sym _ _ E)) in E1. discriminate.
Qed.
Lemma get_set m k v q : get (gomap_set eqb m k v) q = if eqb k q then Some v else get m q.
Proof.
  induction m as [|[k' v'] m IH]; cbn.
  - reflexivity.
  - destruct (eqb k' k) eqn:E1; cbn; destruct (eqb k' q) eqn:E2.
    + rewrite (Tr k k' q); auto.
    + destruct (eqb k q) eqn:E3; [|reflexivity]. rewrite (Tr _ _ _ E1 E3) in E2. discriminate.
    + destruct (eqb k q) eqn:E3; [|reflexivity]. rewrite (Tr _ _ _ E2 (Sym _ _ E3)) in E1. discriminate.
    + exact IH.
Qed.
Lemma get_del m k q : get (gm_del eqb m k) q = if eqb k q then None else get m q.
Proof.
  induction m as [|[k' v'] m IH]; cbn.
  - destruct (eqb k q); reflexivity.
  - destruct (eqb k' k) eqn:E1; cbn; destruct (eqb k' q) eqn:E2.
    + rewrite IH. rewrite (Tr k k' q); auto.
    + exact IH.
    + destruct (eqb k q) eqn:E3; [|reflexivity]. rewrite (Tr _ _ _ E2 (Sym _ _ E3)) in E1. discriminate.
    + exact IH.
Qed.

(** the map, its index, and the past calls, most recent first *)
Record OJ (om : ordmap K V) (es : list (K * unit)) (past : list (mop K V)) : Prop := {
  oj_rep : Rep zeroK tt (o_skl om) es;
  oj_get : forall q, get (o_m om) q = last_write eqb q past;
  oj_cover : forall q, is_Some (get (o_m om) q) -> exists k', k' ∈ es.*1 /\ eqb k' q = true }.

Notation noshow := (fun _ => @nil Z).
Notation step := (any_step (V := unit) ltb eqb noshow noshow).
Lemma step_keys_set es k es' r : step es (MSet k tt) es' r ->
  (exists A B, es = A ++ B /\ es' = A ++ (k, tt) :: B) \/ (es' = es /\ exists k', k' ∈ es.*1 /\ eqb k' k = true).
Proof.
  intros H. inversion H as [A B k1 v1 Hm|A B k1 v1 k0 v0 Hc He| | | | | | | | | |]; subst.
  - left. eauto.
  - right. destruct v0. split; [reflexivity|]. exists k0. split; [|exact He].
    rewrite fmap_app. apply elem_of_app; right; constructor.
Qed.
Lemma step_keys_del es k es' r : step es (MDel k) es' r ->
  es' = es \/ exists A B k0, es = A ++ (k0, tt) :: B /\ es' = A ++ B /\ eqb k0 k = true.
Proof.
  intros H. inversion H as [| | | |A B k1 Hm|A B k1 k0 v0 Hc He| | | | | |]; subst; [left; reflexivity|].
  right. destruct v0. eauto 10.
Qed.

(** Values walks the index and reads the Go map *)
Lemma values_loop om (m0 : list (K * V)) : forall fuel it es, o_m om = m0 ->
  sk_enum fuel (o_skl om) it = Ret es ->
  ord_values_loop zeroV eqb fuel om it = Ret ((fun e => default zeroV (get m0 e.1)) <$> es).
Proof.
  intros fuel; induction fuel as [|fuel IH]; intros it es Hm H; cbn [sk_enum ord_values_loop] in *.
  - destruct (it_next (o_skl om) it) as [[it' a]| |]; cbn [rbind] in *; [|discriminate..].
    destruct a; [discriminate|]. injection H as <-. reflexivity.
  - destruct (it_next (o_skl om) it) as [[it' a]| |]; cbn [rbind] in *; [|discriminate..].
    destruct a as [[k u]|]; [|injection H as <-; reflexivity].
    destruct (sk_enum fuel (o_skl om) it') as [es'| |] eqn:E; cbn [rbind] in H; [|discriminate..].
    injection H as <-. rewrite (IH it' es' Hm E). cbn. rewrite Hm. reflexivity.
Qed.

(** what each call answers *)
Definition answer_ok (es : list (K * unit)) (past : list (mop K V)) (o : oop K V) (r : mret K V) : Prop :=
  match o with
  | OSet _ _ | ODel _ | OClear => r = MUnit
  | OGet k => r = MVal (last_write eqb k past)
  | OLen => r = MInt (Z.of_nat (length es))
  | OKeys => r = MKeyList es.*1
  | OValues => r = MValList ((fun k => default zeroV (last_write eqb k past)) <$> es.*1)
  end.
Lemma o_step_any om es past o : OJ om es past ->
  exists om' es' r, o_step zeroK zeroV ltb eqb om o = Ret (om', r) /\ OJ om' es' (as_map o.2 :: past) /\
    answer_ok es past o.2 r /\
    (es' = es /\ (forall k v, o.2 = OSet k v -> is_Some (get (o_m om) k)) /\ o.2 <> OClear \/
     exists r', step es (match as_map o.2 with MSet k _ => MSet k tt | MDel k => MDel k | _ => MClear end) es' r' /\
       (exists k v, o.2 = OSet k v \/ o.2 = ODel k \/ o.2 = OClear)).
Proof.
  intros [HR HG HC]. destruct (rep_entries zeroK tt (o_skl om) es HR) as [He Hl]. destruct o as [c o]. unfold o_step. cbn [snd fst].
  destruct o as [k v|k|k| | | |]; cbn [as_map].
  - unfold ord_set. destruct (get (o_m om) k) as [v0|] eqn:Eg.
    + cbn [rbind]. do 3 eexists. split; [reflexivity|]. split; [|split; [reflexivity|left; split; [reflexivity|split; [intros ? ? [= <- <-]; eauto|discriminate]]]].
      constructor; cbn [o_m o_skl].
      * exact HR.
      * intros q. rewrite get_set. cbn. rewrite HG. reflexivity.
      * intros q Hq. rewrite get_set in Hq. destruct (eqb k q) eqn:E; [|apply HC; exact Hq].
        destruct (HC k) as (k' & H1 & H2); [eauto|]. exists k'. split; [exact H1|]. eapply Tr; eassumption.
    + destruct (set_any zeroK tt ltb eqb noshow noshow (o_skl om) es k tt HR) as (s' & es' & E & HR' & Hs).
      rewrite E. cbn [rbind]. exists (OrdMap (gomap_set eqb (o_m om) k v) s'), es', MUnit. split; [reflexivity|].
      split; [|split; [reflexivity|right; eexists; split; [exact Hs|exists k, v; auto]]].
      constructor; cbn [o_m o_skl].
      * exact HR'.
      * intros q. rewrite get_set. cbn. rewrite HG. reflexivity.
      * intros q Hq. rewrite get_set in Hq. apply step_keys_set in Hs as [(A & B & -> & ->)|[-> (k' & H1 & H2)]].
        -- destruct (eqb k q) eqn:Ekq.
           ++ exists k. split; [|exact Ekq]. rewrite fmap_app. apply elem_of_app; right; constructor.
           ++ destruct (HC q Hq) as (k' & H1 & H2). exists k'. split; [|exact H2].
              rewrite fmap_app in *. apply elem_of_app in H1 as [H1|H1]; apply elem_of_app; [left; exact H1|right; apply elem_of_list_further; exact H1].
        -- destruct (eqb k q) eqn:Ekq; [|apply HC; exact Hq]. exists k'. split; [exact H1|]. eapply Tr; eassumption.
  - unfold ord_del. destruct (get (o_m om) k) as [v0|] eqn:Eg.
    + destruct (del_any zeroK tt ltb eqb noshow noshow (o_skl om) es k HR) as (s' & es' & b & E & HR' & Hs).
      rewrite E. cbn [rbind]. exists (OrdMap (gm_del eqb (o_m om) k) s'), es', MUnit. split; [reflexivity|].
      split; [|split; [reflexivity|right; eexists; split; [exact Hs|exists k, v0; auto]]].
      constructor; cbn [o_m o_skl].
      * exact HR'.
      * intros q. rewrite get_del. cbn. rewrite HG. reflexivity.
      * intros q Hq. rewrite get_del in Hq. destruct (eqb k q) eqn:Ekq; [destruct Hq; discriminate|].
        destruct (HC q Hq) as (k' & H1 & H2). exists k'. split; [|exact H2].
        apply step_keys_del in Hs as [->|(A & B & k0 & -> & -> & H0)]; [exact H1|].
        rewrite fmap_app in *. apply elem_of_app. apply elem_of_app in H1 as [H1|H1]; [left; exact H1|right].
        apply elem_of_cons in H1 as [H1|H1]; [exfalso|exact H1]. cbn in H1. subst k'.
        rewrite (Tr k k0 q) in Ekq; [discriminate|apply Sym; exact H0|exact H2].
    + cbn [rbind]. do 3 eexists. split; [reflexivity|]. split; [|split; [reflexivity|left; split; [reflexivity|split; [intros; discriminate|discriminate]]]].
      constructor; [exact HR| |exact HC].
      intros q. cbn. destruct (eqb k q) eqn:E; [|apply HG]. rewrite <- (get_congr _ _ _ E). exact Eg.
  - do 3 eexists. split; [reflexivity|]. split; [constructor; [exact HR|exact HG|exact HC]|]. split; [cbn; rewrite HG; reflexivity|].
    left; split; [reflexivity|split; [intros; discriminate|discriminate]].
  - do 3 eexists. split; [reflexivity|]. split; [constructor; [exact HR|exact HG|exact HC]|]. split; [cbn; rewrite Hl; reflexivity|].
    left; split; [reflexivity|split; [intros; discriminate|discriminate]].
  - do 3 eexists. split; [reflexivity|]. split; [|split; [reflexivity|]].
    + constructor; cbn [o_m o_skl ord_clear].
      * destruct HR as (locs & I & _). apply rep_new. apply (inv_16 _ _ _ _ I).
      * reflexivity.
      * intros q [x Hq]; discriminate.
    + right. exists MUnit. split; [constructor|]. exists zeroK, zeroV. auto.
  - unfold sk_keys. rewrite He. cbn [rbind]. do 3 eexists. split; [reflexivity|]. split; [constructor; [exact HR|exact HG|exact HC]|]. split; [reflexivity|].
    left; split; [reflexivity|split; [intros; discriminate|discriminate]].
  - unfold ord_values. unfold sk_entries in He. rewrite (values_loop om (o_m om) _ _ es eq_refl He). cbn [rbind].
    do 3 eexists. split; [reflexivity|]. split; [constructor; [exact HR|exact HG|exact HC]|]. split.
    + cbn. rewrite <- list_fmap_compose. f_equal. apply list_fmap_ext. intros i e _. cbn. rewrite HG. reflexivity.
    + left; split; [reflexivity|split; [intros; discriminate|discriminate]].
Qed.
Lemma o_new_any seed : OJ (ord_new zeroK seed) [] [].
Proof. constructor; [apply rep_new; constructor|reflexivity|intros q [x H]; discriminate]. Qed.

Lemma o_run_any : forall hist om es past, OJ om es past ->
  exists om' es' rs, run (o_step zeroK zeroV ltb eqb) om hist = (rs, Ret om') /\
    OJ om' es' (rev (as_map <$> hist.*2) ++ past) /\
    (forall i q, hist.*2 !! i = Some (OGet q) ->
       rs !! i = Some (MVal (last_write eqb q (rev (as_map <$> take i hist.*2) ++ past)))).
Proof.
  induction hist as [|o hist IH]; intros om es past HJ.
  - exists om, es, []. split; [reflexivity|]. split; [exact HJ|]. intros i q H. discriminate.
  - destruct (o_step_any om es past o HJ) as (om1 & es1 & r & E & HJ1 & Ha & _).
    destruct (IH om1 es1 _ HJ1) as (om2 & es2 & rs & E2 & HJ2 & HG).
    exists om2, es2, (r :: rs). cbn [run]. rewrite E, E2. split; [reflexivity|]. split.
    + cbn [fmap list_fmap rev]. rewrite <- app_assoc. exact HJ2.
    + intros i q Hi. destruct i as [|i].
      * cbn in Hi. injection Hi as Ho. rewrite Ho in Ha. cbn in Ha. subst r. reflexivity.
      * cbn in Hi |- *. rewrite <- app_assoc. apply HG. exact Hi.
Qed.

(** counting: keys that differ pairwise have index entries of their own *)
Lemma count_cover (ks keys : list K) :
  (forall i j x y, ks !! i = Some x -> ks !! j = Some y -> i <> j -> eqb x y = false) ->
  (forall k, k ∈ ks -> exists k', k' ∈ keys /\ eqb k' k = true) -> length ks <= length keys.
Proof.
  revert keys; induction ks as [|k ks IH]; intros keys Hd Hc; [cbn; lia|].
  destruct (Hc k) as (k' & H1 & H2); [constructor|].
  apply elem_of_list_split in H1 as (K1 & K2 & ->).
  assert (length ks <= length (K1 ++ K2)).
  { apply IH.
    - intros i j x y Hx Hy Hne. apply (Hd (S i) (S j)); [exact Hx|exact Hy|lia].
    - intros q Hq. destruct (Hc q) as (k2 & H3 & H4); [apply elem_of_list_further; exact Hq|].
      exists k2. split; [|exact H4]. apply elem_of_app. apply elem_of_app in H3 as [H3|H3]; [auto|].
      apply elem_of_cons in H3 as [->|H3]; [exfalso|auto].
      apply elem_of_list_lookup in Hq as [j Hj].
      assert (eqb k q = true) by (eapply Tr; [apply Sym; exact H2|exact H4]).
      rewrite (Hd 0 (S j) k q) in H; [discriminate|reflexivity|exact Hj|lia]. }
  rewrite !app_length in *. cbn. lia.
Qed.

(** keys like NaN in the index *)
Context (kind : K -> bool) (U : unordered ltb eqb kind).
Definition kkinds (es : list (K * unit)) : list K := (kinds kind es).*1.
Lemma get_kind m k : kind k = true -> get m k = None.
Proof.
  intros Hk. induction m as [|[k' v'] m IH]; [reflexivity|]. cbn. destruct (un_eq _ _ _ U k' k Hk) as [-> _]. exact IH.
Qed.
Lemma kkinds_set es es' k v past r : step es (MSet k tt) es' r -> kkinds es = (recent_sets kind past).*1 ->
  kkinds es' = (recent_sets kind (MSet k v :: past : list (mop K V))).*1.
Proof.
  intros H E. unfold kkinds in *. inversion H as [A B k1 v1 [Hc _]|A B k1 v1 k0 v0 Hc He| | | | | | | | | |]; subst; cbn [recent_sets].
  - destruct (kind k) eqn:Hk.
    + rewrite (cut_front ltb eqb kind U k A B Hk Hc) in *. cbn [app] in *. rewrite kinds_cons. cbn [fst]. rewrite Hk. cbn. rewrite E. reflexivity.
    + rewrite kinds_app, kinds_cons in *. cbn [fst]. rewrite Hk. exact E.
  - destruct v0. assert (Hk : kind k = false).
    { destruct (kind k) eqn:Hk; [|reflexivity]. destruct (un_eq _ _ _ U k0 k Hk). congruence. }
    rewrite Hk. exact E.
Qed.
Lemma kkinds_del es es' k r : step es (MDel k) es' r -> kkinds es' = kkinds es.
Proof.
  intros H. unfold kkinds. inversion H as [| | | |A B k1 Hm|A B k1 k0 v0 Hc He| | | | | |]; subst; [reflexivity|].
  rewrite !kinds_app, kinds_cons. cbn [fst]. destruct (kind k0) eqn:Hk; [|reflexivity].
  destruct (un_eq _ _ _ U k k0 Hk). congruence.
Qed.
Lemma o_step_kinds om es past o : OJ om es past -> kkinds es = (recent_sets kind past).*1 ->
  exists om' es' r, o_step zeroK zeroV ltb eqb om o = Ret (om', r) /\ OJ om' es' (as_map o.2 :: past) /\
    kkinds es' = (recent_sets kind (as_map o.2 :: past)).*1.
Proof.
  intros HJ E. destruct (o_step_any om es past o HJ) as (om' & es' & r & Es & HJ' & _ & Hor).
  exists om', es', r. split; [exact Es|]. split; [exact HJ'|].
  destruct Hor as [(-> & Hset & Hcl)|(r' & Hs & k & v & Hk)].
  - destruct o as [c [k v|k|k| | | |]]; cbn [snd as_map recent_sets] in *; try exact E; [|congruence].
    destruct (kind k) eqn:Hk; [|exact E]. destruct (Hset k v eq_refl) as [x Hx]. rewrite get_kind in Hx by exact Hk. discriminate.
  - destruct Hk as [Hk|[Hk|Hk]]; rewrite Hk in *; cbn [as_map] in *.
    + eapply kkinds_set; eassumption.
    + rewrite (kkinds_del _ _ _ _ Hs). exact E.
    + inversion Hs; subst. reflexivity.
Qed.
Lemma o_run_kinds : forall hist om es past, OJ om es past -> kkinds es = (recent_sets kind past).*1 ->
  exists om' es' rs, run (o_step zeroK zeroV ltb eqb) om hist = (rs, Ret om') /\
    OJ om' es' (rev (as_map <$> hist.*2) ++ past) /\
    kkinds es' = (recent_sets kind (rev (as_map <$> hist.*2) ++ past)).*1.
Proof.
  induction hist as [|o hist IH]; intros om es past HJ E.
  - exists om, es, []. split; [reflexivity|]. split; [exact HJ|exact E].
  - destruct (o_step_kinds om es past o HJ E) as (om1 & es1 & r & Es & HJ1 & E1).
    destruct (IH om1 es1 _ HJ1 E1) as (om2 & es2 & rs & E2 & HJ2 & E3).
    exists om2, es2, (r :: rs). cbn [run]. rewrite Es, E2. split; [reflexivity|].
    cbn [fmap list_fmap rev]. rewrite <- app_assoc. split; assumption.
Qed.
End Ord.
