(** What Parameter.Match and PasswordHash.String do (C134). *)
From Coq Require Import Strings.String Strings.Ascii.
From Verif Require Import Base ConvModel ConvProofs PassModel PassProofs PassProps PassStrModel.
Local Open Scope Z.

(** C134: Match and MatchS call the handler of the parameter and nothing else *)
Theorem match_exact {S} e (on : list (option (S -> res S))) on0 on1 on2 on3 s : on = [on0; on1; on2; on3] -> 0 <= e ->
  param_match e on0 on1 on2 on3 s = match on !! Z.to_nat e with Some (Some f) => f s | Some None => Panic | None => Ret s end /\
  param_match_s e (Handlers on0 on1 on2 on3) s = param_match e on0 on1 on2 on3 s.
Proof.
  intros -> H. split; [|reflexivity]. unfold param_match, call.
  destruct (Z.eqb_spec e 0) as [->|]; [reflexivity|]. destruct (Z.eqb_spec e 1) as [->|]; [reflexivity|]. destruct (Z.eqb_spec e 2) as [->|]; [reflexivity|]. destruct (Z.eqb_spec e 3) as [->|]; [reflexivity|].
  rewrite lookup_ge_None_2 by (cbn; lia). reflexivity.
Qed.
Print Assumptions match_exact.
Example match_case : param_match 2 None None (Some (fun n : nat => Ret (Datatypes.S n))) None 4%nat = Ret 5%nat /\ param_match 1 None None (Some (fun n : nat => Ret n)) None 4%nat = Panic.
Proof. split; reflexivity. Qed.

(** the text of a list of numbers *)
Definition numbers (l : bytes) : list Z := 91 :: spaced (map format_uint l) ++ [93].
(** C134: String never panics, whatever the bytes are; for an invalid record it says so,
    for a valid one it is the parameter, the salt and the hash *)
Theorem passhash_string_exact s : Forall is_byte s -> blen s < 2^63 ->
  (ph_validate s = Ret false /\ ph_string s = Ret (str "PasswordHash (invalid)")) \/
  (ph_validate s = Ret true /\ exists p salt h, ph_param s = Ret p /\ ph_salt s = Ret salt /\ ph_hash s = Ret h /\
    ph_string s = Ret (str "PasswordHash {Param: " ++ param_string p ++ str ", Salt: " ++ numbers salt ++ str ", Hash: " ++ numbers h ++ str "}")).
Proof.
  intros B L. destruct (passhash_validate_safe s B L) as (b & V & H). destruct b; [right|left].
  - split; [exact V|]. destruct (H eq_refl) as (p & salt & h & H1 & H2 & H3 & _). exists p, salt, h. repeat (split; [assumption|]).
    unfold ph_string. rewrite V, H1, H2, H3. cbn [rbind negb]. f_equal. rewrite <- !app_assoc. unfold numbers, sprint_bytes.
    change (str "PasswordHash {Param: ") with (str "PasswordHash {" ++ str "Param: "). change (str ", Salt: ") with (str ", " ++ str "Salt: "). change (str ", Hash: ") with (str ", " ++ str "Hash: ").
    rewrite <- !app_assoc. reflexivity.
  - split; [exact V|]. unfold ph_string. rewrite V. reflexivity.
Qed.
Print Assumptions passhash_string_exact.

(** *** what can be read off *)
Lemma split_at (c : Z) l1 l2 r1 r2 : c ∉ l1 -> c ∉ l2 -> l1 ++ c :: r1 = l2 ++ c :: r2 -> l1 = l2 /\ r1 = r2.
Proof.
  revert l2. induction l1 as [|a l1 IH]; intros [|b l2] H1 H2 H; cbn in H.
  - injection H as H. auto.
  - injection H as -> _. exfalso. apply H2. left.
  - injection H as -> _. exfalso. apply H1. left.
  - injection H as -> H. destruct (IH l2) as [-> ->]; [intros X; apply H1; right; exact X|intros X; apply H2; right; exact X|exact H|auto].
Qed.
Lemma byte_digits b : is_byte b -> format_uint b <> [] /\ Forall is_digit (format_uint b) /\ dec_val (format_uint b) = b.
Proof. intros H. destruct (format_uint_spec b) as (A & B & C & _); [unfold is_byte in H; lia|auto]. Qed.
Lemma digits_not b c : is_byte b -> ~ is_digit c -> c ∉ format_uint b.
Proof. intros H N X. destruct (byte_digits b H) as (_ & D & _). rewrite Forall_forall in D. exact (N (D c X)). Qed.
Lemma spaced_not l c : Forall is_byte l -> ~ is_digit c -> c <> 32 -> c ∉ spaced (map format_uint l).
Proof.
  intros H N N32. induction H as [|b l Hb Hl IH]; [apply not_elem_of_nil|]. cbn [map spaced]. destruct (map format_uint l) as [|y r] eqn:M; [exact (digits_not b c Hb N)|].
  intros X. apply elem_of_app in X as [X|X]; [exact (digits_not b c Hb N X)|]. apply elem_of_cons in X as [X|X]; [exact (N32 X)|exact (IH X)].
Qed.
Lemma spaced_inj l l' : Forall is_byte l -> Forall is_byte l' -> spaced (map format_uint l) = spaced (map format_uint l') -> l = l'.
Proof.
  assert (N32 : ~ is_digit 32) by (unfold is_digit; lia).
  assert (ND : forall b, is_byte b -> 32 ∉ format_uint b) by (intros b Hb; apply digits_not; assumption).
  assert (NE : forall b r, is_byte b -> spaced (format_uint b :: r) <> []).
  { intros b r Hb X. destruct (byte_digits b Hb) as (Z & _). destruct r; cbn in X; [exact (Z X)|]. apply app_eq_nil in X as [X _]. exact (Z X). }
  intros H. revert l'. induction H as [|b l Hb Hl IH]; intros l' H'.
  - destruct H' as [|b' l' Hb' Hl']; [reflexivity|]. cbn [map]. intros X. symmetry in X. destruct (NE _ _ Hb' X).
  - destruct H' as [|b' l' Hb' Hl']; [cbn [map]; intros X; destruct (NE _ _ Hb X)|].
    assert (BV : forall x y, is_byte x -> is_byte y -> format_uint x = format_uint y -> x = y).
    { intros x y Hx Hy Q. destruct (byte_digits x Hx) as (_ & _ & V1). destruct (byte_digits y Hy) as (_ & _ & V2). congruence. }
    intros X. specialize (IH l' Hl'). cbn [map spaced] in X. destruct (map format_uint l) as [|y r] eqn:M, (map format_uint l') as [|y' r'] eqn:M'.
    + destruct l; [|discriminate]. destruct l'; [|discriminate]. f_equal. apply BV; assumption.
    + exfalso. apply (ND b Hb). rewrite X. apply elem_of_app. right. left.
    + exfalso. apply (ND b' Hb'). rewrite <- X. apply elem_of_app. right. left.
    + destruct (split_at 32 _ _ _ _ (ND b Hb) (ND b' Hb') X) as [X1 X2]. f_equal; [apply BV; assumption|apply IH; exact X2].
Qed.
Lemma param_no_comma p : 44 ∉ param_string p.
Proof.
  unfold param_string. repeat match goal with |- context [if ?b then _ else _] => destruct b end; apply not_elem_of_list_In || idtac; intros X; apply elem_of_list_In in X; vm_compute in X;
  repeat match goal with H : _ \/ _ |- _ => destruct H as [H|H]; [discriminate H|] end; exact X.
Qed.
Lemma numbers_split l l' r r' : Forall is_byte l -> Forall is_byte l' -> numbers l ++ r = numbers l' ++ r' -> l = l' /\ r = r'.
Proof.
  intros H H' X. unfold numbers in X. cbn [app] in X. injection X as X. rewrite <- !app_assoc in X. cbn [app] in X.
  assert (N : ~ is_digit 93) by (unfold is_digit; lia).
  apply (split_at 93) in X as [X ->]; [|apply spaced_not; [assumption|exact N|discriminate]..]. split; [|reflexivity]. apply spaced_inj; assumption.
Qed.
Lemma sub_bytes s lo hi r : Forall is_byte s -> sub s lo hi = Ret r -> Forall is_byte r.
Proof. intros H. unfold sub. destruct (_ && _); [|discriminate]. intros [= <-]. apply Forall_take, Forall_drop, H. Qed.
Lemma accessors_bytes s salt h : Forall is_byte s -> ph_salt s = Ret salt -> ph_hash s = Ret h -> Forall is_byte salt /\ Forall is_byte h.
Proof.
  intros B HS HH. unfold ph_salt in HS. unfold ph_hash in HH. split.
  - destruct (at_ s 8) as [|  |]; cbn [rbind] in HS; try discriminate. destruct (read8 s 1) as [|  |]; cbn [rbind] in HS; try discriminate. exact (sub_bytes _ _ _ _ B HS).
  - destruct (at_ s 16) as [|  |]; cbn [rbind] in HH; try discriminate. destruct (read8 s 1) as [|  |]; cbn [rbind] in HH; try discriminate. destruct (read8 s 9) as [|  |]; cbn [rbind] in HH; try discriminate. exact (sub_bytes _ _ _ _ B HH).
Qed.
Lemma text_inj (a b b' c d p p' : list Z) salt salt' h h' : b = 44 :: b' -> 44 ∉ p -> 44 ∉ p' -> Forall is_byte salt -> Forall is_byte salt' -> Forall is_byte h -> Forall is_byte h' ->
  a ++ p ++ b ++ numbers salt ++ c ++ numbers h ++ d = a ++ p' ++ b ++ numbers salt' ++ c ++ numbers h' ++ d -> p = p' /\ salt = salt' /\ h = h'.
Proof.
  intros -> N N' BS BS' BH BH' X. apply app_inv_head in X. cbn [app] in X. apply (split_at 44) in X as [-> X]; [|assumption..]. apply app_inv_head in X.
  apply numbers_split in X as [-> X]; [|assumption..]. apply app_inv_head in X. apply numbers_split in X as [-> _]; [|assumption..]. auto.
Qed.
Lemma param_string_inj p p' : is_byte p -> is_byte p' -> p <= 3 -> param_string p = param_string p' -> p = p'.
Proof.
  unfold is_byte. intros H H' L X. unfold param_string in X.
  repeat match type of X with context [?x =? ?y] => destruct (Z.eqb_spec x y) end; subst; try reflexivity; try lia; vm_compute in X; discriminate X.
Qed.
(** C134: two records with the same String have the same salt, the same hash and, if their
    parameters are known ones, the same parameter *)
Theorem passhash_string_inj_partial s s' t p p' salt salt' h h' : Forall is_byte s -> Forall is_byte s' -> blen s < 2^63 -> blen s' < 2^63 ->
  ph_validate s = Ret true -> ph_validate s' = Ret true -> ph_string s = Ret t -> ph_string s' = Ret t ->
  ph_param s = Ret p -> ph_param s' = Ret p' -> ph_salt s = Ret salt -> ph_salt s' = Ret salt' -> ph_hash s = Ret h -> ph_hash s' = Ret h' ->
  salt = salt' /\ h = h' /\ (p <= 3 -> p = p').
Proof.
  intros B B' L L' V V' T T' P P' S S' H H'.
  destruct (passhash_string_exact s B L) as [[V2 _]|(_ & p1 & s1 & h1 & P1 & S1 & H1 & T1)]; [congruence|].
  destruct (passhash_string_exact s' B' L') as [[V2 _]|(_ & p2 & s2 & h2 & P2 & S2 & H2 & T2)]; [congruence|].
  assert (p1 = p) as -> by congruence. assert (s1 = salt) as -> by congruence. assert (h1 = h) as -> by congruence.
  assert (p2 = p') as -> by congruence. assert (s2 = salt') as -> by congruence. assert (h2 = h') as -> by congruence.
  destruct (accessors_bytes s salt h B S H) as [BS BH]. destruct (accessors_bytes s' salt' h' B' S' H') as [BS' BH'].
  rewrite T in T1. rewrite T' in T2. assert (X : forall a b : list Z, Ret t = Ret a -> Ret t = Ret b -> a = b) by (intros a b [= ->] [= ->]; reflexivity).
  pose proof (X _ _ T1 T2) as Y. apply (text_inj _ _ (str " Salt: ")) in Y as (Y1 & Y2 & Y3); [|reflexivity|apply param_no_comma|apply param_no_comma|assumption..].
  split; [exact Y2|]. split; [exact Y3|]. intros L3. assert (PB : forall s p, Forall is_byte s -> ph_param s = Ret p -> is_byte p).
  { intros x y Bx Px. unfold ph_param, at_ in Px. destruct (x !! 0%nat) as [z|] eqn:Z; [|discriminate]. injection Px as <-. exact (Forall_lookup_1 _ _ _ _ Bx Z). }
  apply param_string_inj; [exact (PB s p B P)|exact (PB s' p' B' P')|exact L3|exact Y1].
Qed.
Print Assumptions passhash_string_inj_partial.
(** ... but unknown parameters print as nothing *)
Theorem passhash_string_inj_refuted salt h p p' r r' : 17 + blen salt + blen h < 2^63 -> 3 < p -> 3 < p' -> new_ph p salt h = Ret r -> new_ph p' salt h = Ret r' -> ph_string r = ph_string r'.
Proof.
  intros L H H' E E'. rewrite new_ph_record in E, E' by exact L. injection E as <-. injection E' as <-.
  assert (L0 : 17 + blen salt + blen h + blen [] < 2^63) by (change (blen []) with 0; lia).
  destruct (record_facts p salt h [] L0) as (V & P & S & Hh & _). destruct (record_facts p' salt h [] L0) as (V' & P' & S' & Hh' & _). rewrite app_nil_r in *.
  unfold ph_string. rewrite V, P, S, Hh, V', P', S', Hh'. cbn [rbind negb].
  assert (Q : forall x, 3 < x -> param_string x = []).
  { intros x Hx. unfold param_string. repeat match goal with |- context [?x =? ?y] => destruct (Z.eqb_spec x y); [lia|] end. reflexivity. }
  rewrite (Q p H), (Q p' H'). reflexivity.
Qed.
Print Assumptions passhash_string_inj_refuted.
Example passhash_string_case : ph_string [2; 19; 0; 0; 0; 0; 0; 0; 0; 20; 0; 0; 0; 0; 0; 0; 0; 7; 81; 255] = Ret (str "PasswordHash {Param: Argon2ID_Mobile_High, Salt: [7 81], Hash: [255]}") /\
  ph_string [2; 3] = Ret (str "PasswordHash (invalid)") /\ ph_validate [2; 19; 0; 0; 0; 0; 0; 0; 0; 20; 0; 0; 0; 0; 0; 0; 0; 7; 81; 255] = Ret true.
Proof. vm_compute. auto. Qed.
