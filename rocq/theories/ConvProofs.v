From Verif Require Import Base ConvModel.
Local Open Scope Z.

(** *** the registry *)
Section look.
Context {F : Type}.
Implicit Types (m : registry_of F) (T R : gty).
Lemma kset_eq {A} (f : option gty -> A) k a : kset f k a k = a.
Proof. unfold kset. rewrite decide_True by reflexivity. reflexivity. Qed.
Lemma kset_ne {A} (f : option gty -> A) k a j : j <> k -> kset f k a j = f j.
Proof. intros H. unfold kset. rewrite decide_False by exact H. reflexivity. Qed.
(** the entry under two keys *)
Definition look m (a b : option gty) : option (entry_of F) := match m a with Some i => i b | None => None end.
Lemma look_register m T R f a b : look (register m T R f) a b = if decide (a = key T /\ b = key R) then Some (Entry T R f) else look m a b.
Proof.
  unfold look, register. destruct (decide (a = key T)) as [->|Ha].
  - rewrite kset_eq. destruct (decide (b = key R)) as [->|Hb].
    + rewrite kset_eq, decide_True by tauto. reflexivity.
    + rewrite kset_ne by exact Hb. rewrite decide_False by tauto. destruct (m (key T)); reflexivity.
  - rewrite kset_ne by exact Ha. rewrite decide_False by tauto. reflexivity.
Qed.
Lemma look_unregister m T R a b : look (unregister m T R) a b = if decide (a = key T /\ b = key R) then None else look m a b.
Proof.
  unfold look, unregister. destruct (m (key T)) as [i|] eqn:E.
  - destruct (decide (a = key T)) as [->|Ha].
    + rewrite kset_eq, E. destruct (decide (b = key R)) as [->|Hb]; [rewrite kset_eq, decide_True by tauto; reflexivity|].
      rewrite kset_ne by exact Hb. rewrite decide_False by tauto. reflexivity.
    + rewrite kset_ne by exact Ha. rewrite decide_False by tauto. reflexivity.
  - destruct (decide (a = key T /\ b = key R)) as [[-> ->]|]; [rewrite E; reflexivity|reflexivity].
Qed.
Lemma exists_look m T R : exists_conv m T R = match look m (key T) (key R) with Some _ => true | None => false end.
Proof. unfold exists_conv, look. destruct (m (key T)); reflexivity. Qed.
Lemma find_look m T R d : find_conv m T R d = match look m d (key R) with
  | Some e => if decide (e_from e = T) then if decide (e_to e = R) then Some (e_fn e) else None else None | None => None end.
Proof. unfold find_conv, look. destruct (m d); reflexivity. Qed.
Lemma key_concrete T : g_iface T = false -> key T = Some T.
Proof. unfold key. intros ->. reflexivity. Qed.
End look.

Section registry.
Context {V : Type}.
Implicit Types (m : registry V) (T R : gty).
Lemma into_look m T R d v : into m T R d v = match look m d (key R) with
  | Some e => if decide (e_from e = T) then if decide (e_to e = R) then Some (e_fn e v) else None else None | None => None end.
Proof. unfold into. rewrite find_look. repeat case_match; congruence. Qed.

(** the ideal: for each pair of types, the converter registered last *)
Definition reg_ideal (S : gty -> gty -> option (V -> V)) (o : rop V) : (gty -> gty -> option (V -> V)) * rret V :=
  match o with
  | ORegister T R f => (fun T' R' => if decide (T' = T /\ R' = R) then Some f else S T' R', RetUnit)
  | OUnregister T R => (fun T' R' => if decide (T' = T /\ R' = R) then None else S T' R', RetUnit)
  | OExists T R => (S, RetBool (match S T R with Some _ => true | None => false end))
  | OInto T R _ v => (S, RetInto (match S T R with Some f => Some (f v) | None => None end))
  | OIntoOr T R _ v or => (S, RetVal (match S T R with Some f => f v | None => or end))
  end.
(** concrete types only, and values of their static type *)
Definition concrete_op (o : rop V) : Prop :=
  match o with
  | ORegister T R _ | OUnregister T R | OExists T R => g_iface T = false /\ g_iface R = false
  | OInto T R d _ | OIntoOr T R d _ _ => g_iface T = false /\ g_iface R = false /\ d = Some T
  end.
Definition reg_rel m (S : gty -> gty -> option (V -> V)) : Prop :=
  forall T R, g_iface T = false -> g_iface R = false ->
    look m (Some T) (Some R) = match S T R with Some f => Some (Entry T R f) | None => None end.
Lemma reg_history os : forall m S, reg_rel m S -> Forall concrete_op os ->
  exists m', run reg_step m os = (ideal_results reg_ideal S os, Ret m').
Proof.
  induction os as [|o os IH]; intros m S H C; [exists m; reflexivity|]. apply Forall_cons in C as [C1 C2].
  assert (St : exists m1, reg_step m o = Ret (m1, (reg_ideal S o).2) /\ reg_rel m1 (reg_ideal S o).1).
  { destruct o as [T R f|T R|T R|T R d v|T R d v or]; cbn [reg_step reg_ideal fst snd concrete_op] in *.
    - eexists. split; [reflexivity|]. intros T' R' HT HR. rewrite look_register, (key_concrete T), (key_concrete R) by tauto.
      destruct (decide (T' = T /\ R' = R)) as [[-> ->]|N]; [rewrite decide_True by tauto; reflexivity|]. rewrite decide_False by (intros [? ?]; apply N; split; congruence). apply H; assumption.
    - eexists. split; [reflexivity|]. intros T' R' HT HR. rewrite look_unregister, (key_concrete T), (key_concrete R) by tauto.
      destruct (decide (T' = T /\ R' = R)) as [[-> ->]|N]; [rewrite decide_True by tauto; reflexivity|]. rewrite decide_False by (intros [? ?]; apply N; split; congruence). apply H; assumption.
    - exists m. split; [|exact H]. rewrite exists_look, (key_concrete T), (key_concrete R), (H T R) by tauto. destruct (S T R); reflexivity.
    - exists m. split; [|exact H]. destruct C1 as (CT & CR & ->). rewrite into_look, (key_concrete R), (H T R) by tauto. destruct (S T R); [|reflexivity]. cbn. rewrite !decide_True by reflexivity. reflexivity.
    - exists m. split; [|exact H]. destruct C1 as (CT & CR & ->). unfold into_or. rewrite into_look, (key_concrete R), (H T R) by tauto. destruct (S T R); [|reflexivity]. cbn. rewrite !decide_True by reflexivity. reflexivity. }
  destruct St as (m1 & E1 & E2). destruct (IH m1 _ E2 C2) as (m2 & E3). exists m2.
  cbn [run]. rewrite E1, E3. unfold ideal_results. cbn [ideal_run]. destruct (reg_ideal S o) as [S1 r1]. cbn [fst snd]. destruct (ideal_run reg_ideal S1 os). reflexivity.
Qed.
Lemma reg_rel_init : reg_rel no_converters (fun _ _ => None).
Proof. intros T R _ _. reflexivity. Qed.
(** what is stored under the key of a concrete type has that type *)
Definition reg_typed m : Prop := forall a b e, look m a b = Some e -> a = key (e_from e) /\ b = key (e_to e).
Lemma reg_typed_step m o m' r : reg_typed m -> reg_step m o = Ret (m', r) -> reg_typed m'.
Proof.
  intros H E a b e. destruct o as [T R f|T R|T R|T R d v|T R d v or]; cbn [reg_step] in E; injection E as <- _; try apply H.
  - rewrite look_register. destruct (decide (a = key T /\ b = key R)) as [[-> ->]|]; [|apply H]. intros [= <-]. split; reflexivity.
  - rewrite look_unregister. destruct (decide (a = key T /\ b = key R)); [discriminate|apply H].
Qed.
Lemma reg_typed_run os : forall m rs m', reg_typed m -> run reg_step m os = (rs, Ret m') -> reg_typed m'.
Proof.
  induction os as [|o os IH]; intros m rs m' H E; cbn [run] in E; [injection E as _ <-; exact H|].
  destruct (reg_step m o) as [[m1 r]| |] eqn:S; try discriminate. destruct (run reg_step m1 os) as [rs1 e] eqn:E1. injection E as _ ->.
  eapply IH; [eapply reg_typed_step; eassumption|exact E1].
Qed.
End registry.

(** *** integers *)
Definition good_ity (t : ity) : Prop := 0 < bits t.
Lemma ity_half t : good_ity t -> 2^(bits t) = 2 * 2^(bits t - 1) /\ 0 < 2^(bits t - 1).
Proof. unfold good_ity. intros H. split; [|apply Z.pow_pos_nonneg; lia]. rewrite <- Z.pow_succ_r by lia. f_equal. lia. Qed.
Lemma wrap_in t x : good_ity t -> in_ity t (wrap t x).
Proof.
  intros H. destruct (ity_half t H) as [E P]. unfold in_ity, wrap. destruct (signed t).
  - pose proof (Z.mod_pos_bound (x + 2^(bits t - 1)) (2^(bits t))). lia.
  - apply Z.mod_pos_bound. lia.
Qed.
Lemma wrap_mod t x : good_ity t -> (wrap t x) mod 2^(bits t) = x mod 2^(bits t).
Proof.
  intros H. destruct (ity_half t H) as [E P]. unfold wrap. destruct (signed t).
  - rewrite Zminus_mod_idemp_l. f_equal. lia.
  - apply Z.mod_mod. lia.
Qed.
Lemma wrap_id t x : good_ity t -> in_ity t x -> wrap t x = x.
Proof.
  intros H Hx. destruct (ity_half t H) as [E P]. unfold in_ity, wrap in *. destruct (signed t).
  - rewrite Z.mod_small by lia. lia.
  - apply Z.mod_small. exact Hx.
Qed.
Lemma wrap_unique t x y : good_ity t -> in_ity t x -> x mod 2^(bits t) = y mod 2^(bits t) -> wrap t y = x.
Proof.
  intros H Hx Exy. rewrite <- (wrap_id t x H Hx). unfold wrap. destruct (signed t); [|congruence]. f_equal.
  rewrite <- (Zplus_mod_idemp_l x), <- (Zplus_mod_idemp_l y), Exy. reflexivity.
Qed.
Lemma fits_spec t x : fits t x = true <-> in_ity t x.
Proof. unfold fits, in_ity. destruct (signed t); rewrite andb_true_iff, Z.leb_le, Z.ltb_lt; tauto. Qed.

(** *** decimal text *)
Definition is_digit (c : Z) : Prop := 48 <= c <= 57.
(** the number a string of digits stands for *)
Definition dec_val (s : list Z) : Z := foldl (fun n c => 10 * n + (c - 48)) 0 s.
Definition dec_from (n : Z) (s : list Z) : Z := foldl (fun n c => 10 * n + (c - 48)) n s.
Lemma dec_from_app n s t : dec_from n (s ++ t) = dec_from (dec_from n s) t.
Proof. apply foldl_app. Qed.
Lemma dec_from_le s : forall n, 0 <= n -> Forall is_digit s -> n <= dec_from n s.
Proof.
  induction s as [|c s IH]; intros n Hn H; [reflexivity|]. apply Forall_cons in H as [Hc H]. unfold is_digit in Hc. change (dec_from n (c :: s)) with (dec_from (10 * n + (c - 48)) s).
  specialize (IH (10 * n + (c - 48)) ltac:(lia) H). lia.
Qed.
Lemma digits_spec fuel : forall n acc, 0 <= n < 10 ^ Z.of_nat fuel ->
  exists ds, digits fuel n acc = ds ++ acc /\ ((0 < fuel)%nat -> ds <> []) /\ Forall is_digit ds /\ dec_val ds = n /\ (forall c r, ds = c :: r -> r <> [] -> c <> 48).
Proof.
  induction fuel as [|fuel IH]; intros n acc Hn.
  - exists []. cbn in Hn. split; [reflexivity|]. split; [lia|]. split; [constructor|]. split; [cbn; lia|discriminate].
  - cbn [digits]. destruct (Z.ltb_spec n 10).
    + exists [chr n]. split; [reflexivity|]. split; [discriminate|]. split; [constructor; [unfold is_digit, chr; lia|constructor]|]. split; [cbn [dec_val foldl]; unfold chr; lia|]. intros c r [= <- <-] F. congruence.
    + rewrite Nat2Z.inj_succ, Z.pow_succ_r in Hn by lia.
      assert (0 <= n / 10 < 10 ^ Z.of_nat fuel) as Hq by (split; [apply Z.div_pos; lia|apply Z.div_lt_upper_bound; lia]).
      destruct (IH (n / 10) (chr (n mod 10) :: acc) Hq) as (ds & E1 & E2 & E3 & E4 & E5). pose proof (Z.mod_pos_bound n 10). pose proof (Z.div_mod n 10).
      assert (Hf : (0 < fuel)%nat). { destruct fuel; [|lia]. cbn in Hq. assert (1 <= n / 10) by (apply Z.div_le_lower_bound; lia). lia. }
      exists (ds ++ [chr (n mod 10)]). split; [rewrite E1, <- app_assoc; reflexivity|]. split; [destruct ds; discriminate|].
      split; [apply Forall_app; split; [exact E3|constructor; [unfold is_digit, chr; lia|constructor]]|]. split.
      * unfold dec_val in *. rewrite foldl_app, E4. cbn [foldl]. unfold chr. lia.
      * intros c r E Hr. destruct ds as [|c0 r0]; [specialize (E2 Hf); congruence|]. injection E as <- <-. destruct r0 as [|c1 r0].
        -- cbn [dec_val foldl] in E4. assert (1 <= n / 10) by (apply Z.div_le_lower_bound; lia). lia.
        -- apply (E5 c0 (c1 :: r0)); [reflexivity|discriminate].
Qed.
Lemma format_uint_spec n : 0 <= n < 2^64 -> format_uint n <> [] /\ Forall is_digit (format_uint n) /\ dec_val (format_uint n) = n /\ (forall c r, format_uint n = c :: r -> r <> [] -> c <> 48).
Proof.
  intros H. destruct (digits_spec 20 n [] ltac:(change (10 ^ Z.of_nat 20) with 100000000000000000000; lia)) as (ds & E1 & E2 & E3 & E4 & E5).
  unfold format_uint. rewrite E1, app_nil_r. split; [apply E2; lia|]. split; [exact E3|]. split; [exact E4|exact E5].
Qed.
(** parsing *)
Lemma digit_val_digit c : is_digit c -> digit_val c = Some (c - 48).
Proof. unfold is_digit, digit_val. intros H. destruct (Z.leb_spec 48 c); [|lia]. destruct (Z.leb_spec c 57); [|lia]. reflexivity. Qed.
Lemma digit_val_other c : ~ is_digit c -> match digit_val c with None => True | Some d => 10 <= d end.
Proof.
  unfold is_digit, digit_val. intros H. destruct ((48 <=? c) && (c <=? 57)) eqn:E; [apply andb_true_iff in E; rewrite !Z.leb_le in E; lia|].
  destruct ((97 <=? c) && (c <=? 122)) eqn:E1; [apply andb_true_iff in E1; rewrite !Z.leb_le in E1; lia|].
  destruct ((65 <=? c) && (c <=? 90)) eqn:E2; [apply andb_true_iff in E2; rewrite !Z.leb_le in E2; lia|]. exact I.
Qed.
Lemma parse_loop_digits s : forall n, 0 <= n < 2^64 -> Forall is_digit s ->
  parse_loop s n = if dec_from n s <? 2^64 then (dec_from n s, ENone) else (max_u64, ERange).
Proof.
  induction s as [|c s IH]; intros n Hn H.
  - cbn [parse_loop dec_from foldl]. destruct (Z.ltb_spec n (2^64)); [reflexivity|lia].
  - apply Forall_cons in H as [Hc H]. cbn [parse_loop]. rewrite (digit_val_digit c Hc). unfold is_digit in Hc.
    change (dec_from n (c :: s)) with (dec_from (10 * n + (c - 48)) s).
    destruct (Z.leb_spec 10 (c - 48)); [lia|]. change cutoff_u64 with 1844674407370955162.
    destruct (Z.leb_spec 1844674407370955162 n).
    + pose proof (dec_from_le s (10 * n + (c - 48)) ltac:(lia) H). destruct (Z.ltb_spec (dec_from (10 * n + (c - 48)) s) (2^64)); [lia|reflexivity].
    + cbv zeta. rewrite (u64_id (n * 10)) by (unfold is_u64; lia). unfold max_u64.
      destruct (Z.lt_ge_cases (n * 10 + (c - 48)) (2^64)).
      * rewrite (u64_id (n * 10 + (c - 48))) by (unfold is_u64; lia).
        destruct (Z.ltb_spec (n * 10 + (c - 48)) (n * 10)); [lia|]. destruct (Z.ltb_spec (2^64 - 1) (n * 10 + (c - 48))); [lia|]. cbn [orb].
        rewrite IH by (try lia; exact H). replace (n * 10 + (c - 48)) with (10 * n + (c - 48)) by lia. reflexivity.
      * pose proof (dec_from_le s (10 * n + (c - 48)) ltac:(lia) H).
        assert (E : u64 (n * 10 + (c - 48)) = n * 10 + (c - 48) - 2^64).
        { unfold u64. replace (n * 10 + (c - 48)) with (n * 10 + (c - 48) - 2^64 + 1 * 2^64) at 1 by lia. rewrite Z.mod_add by lia. apply Z.mod_small. lia. }
        rewrite E. destruct (Z.ltb_spec (n * 10 + (c - 48) - 2^64) (n * 10)); [|lia]. cbn [orb].
        destruct (Z.ltb_spec (dec_from (10 * n + (c - 48)) s) (2^64)); [lia|reflexivity].
Qed.
(** digits, and then something that is not a digit *)
Lemma parse_loop_junk s c t : forall n, 0 <= n < 2^64 -> Forall is_digit s -> ~ is_digit c ->
  parse_loop (s ++ c :: t) n = if dec_from n s <? 2^64 then (0, ESyntax) else (max_u64, ERange).
Proof.
  induction s as [|x s IH]; intros n Hn H Hc.
  - cbn [parse_loop dec_from foldl app]. destruct (Z.ltb_spec n (2^64)); [|lia]. pose proof (digit_val_other c Hc) as D. destruct (digit_val c) as [d|]; [|reflexivity]. destruct (Z.leb_spec 10 d); [reflexivity|lia].
  - apply Forall_cons in H as [Hx H]. cbn [parse_loop app]. rewrite (digit_val_digit x Hx). unfold is_digit in Hx.
    change (dec_from n (x :: s)) with (dec_from (10 * n + (x - 48)) s).
    destruct (Z.leb_spec 10 (x - 48)); [lia|]. change cutoff_u64 with 1844674407370955162.
    destruct (Z.leb_spec 1844674407370955162 n).
    + pose proof (dec_from_le s (10 * n + (x - 48)) ltac:(lia) H). destruct (Z.ltb_spec (dec_from (10 * n + (x - 48)) s) (2^64)); [lia|reflexivity].
    + cbv zeta. rewrite (u64_id (n * 10)) by (unfold is_u64; lia). unfold max_u64.
      destruct (Z.lt_ge_cases (n * 10 + (x - 48)) (2^64)).
      * rewrite (u64_id (n * 10 + (x - 48))) by (unfold is_u64; lia).
        destruct (Z.ltb_spec (n * 10 + (x - 48)) (n * 10)); [lia|]. destruct (Z.ltb_spec (2^64 - 1) (n * 10 + (x - 48))); [lia|]. cbn [orb].
        rewrite IH by (try lia; assumption). replace (n * 10 + (x - 48)) with (10 * n + (x - 48)) by lia. reflexivity.
      * pose proof (dec_from_le s (10 * n + (x - 48)) ltac:(lia) H).
        assert (E : u64 (n * 10 + (x - 48)) = n * 10 + (x - 48) - 2^64).
        { unfold u64. replace (n * 10 + (x - 48)) with (n * 10 + (x - 48) - 2^64 + 1 * 2^64) at 1 by lia. rewrite Z.mod_add by lia. apply Z.mod_small. lia. }
        rewrite E. destruct (Z.ltb_spec (n * 10 + (x - 48) - 2^64) (n * 10)); [|lia]. cbn [orb].
        destruct (Z.ltb_spec (dec_from (10 * n + (x - 48)) s) (2^64)); [lia|reflexivity].
Qed.
Lemma dec_val_nonneg s : Forall is_digit s -> 0 <= dec_val s.
Proof. intros H. exact (dec_from_le s 0 ltac:(lia) H). Qed.
Lemma parse_uint_digits s : s <> [] -> Forall is_digit s -> parse_uint s = if dec_val s <? 2^64 then (dec_val s, ENone) else (max_u64, ERange).
Proof. intros N H. unfold parse_uint. destruct s as [|c s]; [congruence|]. apply (parse_loop_digits (c :: s) 0 ltac:(lia) H). Qed.
Lemma parse_uint_junk s c t : Forall is_digit s -> ~ is_digit c -> parse_uint (s ++ c :: t) = if dec_val s <? 2^64 then (0, ESyntax) else (max_u64, ERange).
Proof. intros H Hc. unfold parse_uint. destruct (s ++ c :: t) eqn:E; [destruct s; discriminate|]. rewrite <- E. apply (parse_loop_junk s c t 0 ltac:(lia) H Hc). Qed.
(** every string is digits, or digits and then something else *)
Lemma split_digits (s : list Z) : Forall is_digit s \/ exists a c t, s = a ++ c :: t /\ Forall is_digit a /\ ~ is_digit c.
Proof.
  induction s as [|x s IH]; [left; constructor|].
  destruct (decide (48 <= x <= 57)) as [Hx|Hx].
  - destruct IH as [IH|(a & c & t & -> & Ha & Hc)]; [left; constructor; assumption|]. right. exists (x :: a), c, t. split; [reflexivity|]. split; [constructor; assumption|exact Hc].
  - right. exists [], x, s. split; [reflexivity|]. split; [constructor|exact Hx].
Qed.
