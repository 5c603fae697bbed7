(** Properties of cryptox/passhashx (C76-C79). *)
From Verif Require Import Base PassModel PassProofs.
Local Open Scope Z.

(** C76: the record built by New_PasswordHash *)
Theorem passhash_roundtrip param salt hash : 17 + blen salt + blen hash < 2^63 ->
  exists r, new_ph param salt hash = Ret r /\ blen r = 17 + blen salt + blen hash /\
    ph_validate r = Ret true /\ ph_param r = Ret param /\ ph_salt r = Ret salt /\ ph_hash r = Ret hash.
Proof.
  intros H. exists (record param salt hash). rewrite new_ph_record by exact H. split; [reflexivity|].
  destruct (record_facts param salt hash []) as (V & P & S & Hh & L); [unfold blen in *; cbn; lia|]. rewrite app_nil_r in *. repeat split; assumption.
Qed.
Print Assumptions passhash_roundtrip.
(** the layout: one byte, two little-endian offsets, then the fields *)
Theorem passhash_layout param salt hash : 17 + blen salt + blen hash < 2^63 ->
  new_ph param salt hash = Ret ([param] ++ le 8 (17 + blen salt) ++ le 8 (17 + blen salt + blen hash) ++ salt ++ hash).
Proof. exact (new_ph_record param salt hash). Qed.
Print Assumptions passhash_layout.
Example passhash_layout_ex : new_ph 2 [7; 8] [9] = Ret [2; 19; 0; 0; 0; 0; 0; 0; 0; 20; 0; 0; 0; 0; 0; 0; 0; 7; 8; 9] /\ 17 + blen [7; 8] + blen [9] < 2^63.
Proof. split; [vm_compute; reflexivity|]. unfold blen. cbn. lia. Qed.
(** the bytes of a record are bytes *)
Theorem passhash_bytes param salt hash r : 17 + blen salt + blen hash < 2^63 -> is_byte param -> Forall is_byte salt -> Forall is_byte hash -> new_ph param salt hash = Ret r -> Forall is_byte r.
Proof.
  intros H Hp Hs Hh E. rewrite new_ph_record in E by exact H. injection E as <-. unfold record, header. constructor; [exact Hp|]. apply Forall_app; split; [apply le_bytes|]. apply Forall_app; split; [apply le_bytes|]. apply Forall_app; split; assumption.
Qed.
Print Assumptions passhash_bytes.

(** C77: any byte string at all *)
Theorem passhash_validate_safe s : Forall is_byte s -> blen s < 2^63 ->
  exists b, ph_validate s = Ret b /\
    (b = true -> exists param salt hash, ph_param s = Ret param /\ ph_salt s = Ret salt /\ ph_hash s = Ret hash /\ 17 + blen salt + blen hash <= blen s).
Proof.
  intros Hb Hl. destruct (validate_total s Hb Hl) as [b V]. exists b. split; [exact V|]. intros ->.
  destruct (validate_record s Hb Hl V) as (param & salt & hash & t & -> & L). destruct (record_facts param salt hash t L) as (_ & P & S & Hh & Lr). exists param, salt, hash. repeat split; try assumption.
  unfold blen in *. rewrite app_length. lia.
Qed.
Print Assumptions passhash_validate_safe.
(** and what it rejects would not be read safely: on every rejected string some accessor panics *)
Theorem passhash_validate_exact s : Forall is_byte s -> blen s < 2^63 -> ph_validate s = Ret false -> ph_salt s = Panic \/ ph_hash s = Panic.
Proof.
  intros Hb Hl V. unfold ph_validate in V. destruct (Z.ltb_spec (blen s) 17) as [L|L].
  - right. unfold ph_hash, at_. rewrite lookup_ge_None_2 by (unfold blen in L; lia). reflexivity.
  - destruct (header_split s L) as (p & a & b & t & -> & La & Lb). unfold header in Hb. apply Forall_cons in Hb as [_ Hb]. apply Forall_app in Hb as [Ha Hb]. apply Forall_app in Hb as [Hb _].
    destruct (header_reads p a b t La Lb Ha Hb) as (R1 & [x R2] & [y R3] & R4 & R5 & R6). rewrite R3 in V. cbn [rbind] in V. rewrite R4 in V. cbn [rbind] in V. rewrite R5 in V. cbn [rbind] in V. injection V as V.
    rewrite u64_id in V by (unfold is_u64, blen in *; lia). unfold ph_salt, ph_hash. rewrite R2, R3. cbn [rbind]. rewrite R4. cbn [rbind]. rewrite R5. cbn [rbind]. unfold sub.
    destruct (Z.leb_spec 17 (unle a)) as [G1|G1]; [|left; rewrite !andb_false_r; reflexivity].
    cbn [andb] in V. destruct (Z.leb_spec (unle a) (unle b)) as [G2|G2]; [|right; rewrite !andb_false_r; reflexivity]. cbn [andb] in V. rewrite V. right. rewrite !andb_false_r. reflexivity.
Qed.
Print Assumptions passhash_validate_exact.
Section kdf.
Context (idkey : bytes -> bytes -> Z -> Z -> Z -> Z -> bytes).
Theorem verify_total pw s : Forall is_byte s -> blen s < 2^63 -> exists r, verify idkey pw s = Ret r.
Proof.
  intros Hb Hl. destruct (passhash_validate_safe s Hb Hl) as (b & V & A). unfold verify. rewrite V. cbn [rbind]. destruct b; [|eexists; reflexivity]. cbn [negb].
  destruct (A eq_refl) as (param & salt & h & -> & -> & -> & _). cbn [rbind]. destruct (alg idkey param); [|eexists; reflexivity]. destruct (bool_decide _); eexists; reflexivity.
Qed.
(** what Verify answers, for every byte string *)
Theorem verify_exact pw s : Forall is_byte s -> blen s < 2^63 ->
  match ph_validate s with
  | Ret true => exists param salt h, ph_param s = Ret param /\ ph_salt s = Ret salt /\ ph_hash s = Ret h /\
      verify idkey pw s = Ret (match alg idkey param with None => Some ErrUnknownAlgorithm | Some f => if bool_decide (f pw salt = h) then None else Some ErrHashMismatch end)
  | _ => verify idkey pw s = Ret (Some ErrInvalidPassHash)
  end.
Proof.
  intros Hb Hl. destruct (passhash_validate_safe s Hb Hl) as (b & V & A). rewrite V. destruct b.
  - destruct (A eq_refl) as (param & salt & h & P & S & Hh & _). exists param, salt, h. repeat split; try assumption. unfold verify. rewrite V, P. cbn [rbind negb]. destruct (alg idkey param); [|reflexivity].
    rewrite S, Hh. cbn [rbind]. destruct (bool_decide _); reflexivity.
  - unfold verify. rewrite V. reflexivity.
Qed.
Lemma dec_groups_bytes l : forall r, b64_groups l = Some r -> Forall is_byte r /\ (length r <= length l)%nat.
Proof.
  assert (B : forall v k, is_byte (v / k mod 256)) by (intros; apply Z.mod_pos_bound; lia). assert (B' : forall v, is_byte (v mod 256)) by (intros; apply Z.mod_pos_bound; lia).
  assert (G : forall n l, (length l <= n)%nat -> forall r, b64_groups l = Some r -> Forall is_byte r /\ (length r <= length l)%nat).
  { clear l. induction n as [|n IH]; intros l Hn r E.
    - destruct l; [|cbn in Hn; lia]. injection E as <-. split; [constructor|cbn; lia].
    - destruct l as [|a [|b [|c [|d l]]]]; cbn [b64_groups] in E; try discriminate; try (injection E as <-; split; [repeat (first [apply Forall_nil_2 | apply Forall_cons_2; [apply B|]])|cbn; lia]).
      destruct (b64_groups l) as [t|] eqn:Et; [|discriminate]. injection E as <-. cbn [length] in *. destruct (IH l ltac:(lia) t Et) as [H1 H2].
      split; [|cbn [length]; lia]. constructor; [apply B|]. constructor; [apply B|]. constructor; [apply B'|]. exact H1. }
  intros r. apply (G (length l)). lia.
Qed.
Lemma decode_bytes s r : b64_decode s = Some r -> Forall is_byte r /\ (length r <= length s)%nat.
Proof.
  unfold b64_decode. destruct (mapM dec_char (List.filter not_break s)) as [l|] eqn:E; [|discriminate]. intros G. apply dec_groups_bytes in G as [G1 G2]. split; [exact G1|].
  apply mapM_length in E. assert (length (List.filter not_break s) <= length s)%nat by (clear; induction s as [|x s IH]; cbn; [lia|]; destruct (not_break x); cbn; lia). lia.
Qed.
Theorem verify_base64_total pw s : blen s < 2^63 -> exists r, verify_base64 idkey pw s = Ret r.
Proof. intros H. unfold verify_base64. destruct (b64_decode s) as [r|] eqn:E; [|eexists; reflexivity]. apply decode_bytes in E as [E1 E2]. apply verify_total; [exact E1|]. unfold blen in *. lia. Qed.

(** VerifyBase64 accepts exactly the texts of records that Verify accepts *)
Theorem verify_base64_exact pw s :
  (verify_base64 idkey pw s = Ret None <-> exists r, b64_decode s = Some r /\ verify idkey pw r = Ret None) /\
  (b64_decode s = None -> verify_base64 idkey pw s = Ret (Some ErrBase64)) /\
  (forall r, b64_decode s = Some r -> verify_base64 idkey pw s = verify idkey pw r).
Proof.
  unfold verify_base64. destruct (b64_decode s) as [r|] eqn:E.
  - split; [|split; [discriminate|intros r' [= <-]; reflexivity]]. split; [intros H; exists r; auto|intros (r' & [= <-] & H); exact H].
  - split; [|split; [reflexivity|discriminate]]. split; [discriminate|intros (r & X & _); discriminate].
Qed.

(** C78: Hash, then Verify.  Argon2 gives as many bytes as it was asked for. *)
Definition kdf_contract : Prop := forall pw salt t m th n, 0 <= n -> blen (idkey pw salt t m th n) = n /\ Forall is_byte (idkey pw salt t m th n).
(** argon2.IDKey with the parameters of each level *)
Definition level_kdf (sl : Z) (pw salt : bytes) : bytes :=
  if decide (sl = 1) then idkey pw salt 20 65536 4 32 else if decide (sl = 2) then idkey pw salt 32 4096 1 32
  else if decide (sl = 3) then idkey pw salt 4 37888 1 32 else idkey pw salt 8 15360 1 32.
Lemma alg_level sl param (pw salt : bytes) : security_level sl = Some param -> exists f, alg idkey param = Some f /\ (forall pw salt, f pw salt = level_kdf sl pw salt) /\ 0 <= param < 4.
Proof.
  unfold security_level. intros H. repeat (match type of H with (if ?a =? ?b then _ else _) = _ => destruct (Z.eqb_spec a b) as [->|] end; [injection H as <-; eexists; split; [reflexivity|]; split; [reflexivity|lia]|]). discriminate.
Qed.
Theorem hash_exact rand pw sl : kdf_contract -> (forall n salt, rand n = Some salt -> blen salt = n) ->
  hash idkey rand pw sl =
    if decide (1 <= sl <= 4) then match rand 16 with None => Ret (inr ErrReadSaltFailed) | Some salt => Ret (inl (record (sl - 1) salt (level_kdf sl pw salt))) end
    else Ret (inr ErrInvalidSecurityLevel).
Proof.
  intros K R. unfold hash. destruct (security_level sl) as [param|] eqn:E.
  - assert (Hs : 1 <= sl <= 4 /\ param = sl - 1).
    { unfold security_level in E. repeat (match type of E with (if ?a =? ?b then _ else _) = _ => destruct (Z.eqb_spec a b) as [->|] end; [injection E as <-; lia|]). discriminate. }
    rewrite decide_True by lia. unfold salt_len. destruct (rand 16) as [salt|] eqn:Er; [|reflexivity]. destruct (alg_level sl param pw salt E) as (f & -> & F & _). rewrite F.
    rewrite new_ph_record; [|]. { cbn [rbind]. destruct Hs as [_ ->]. reflexivity. }
    apply R in Er. assert (Lk : blen (level_kdf sl pw salt) = 32). { unfold level_kdf. repeat case_decide; apply K; lia. } lia.
  - rewrite decide_False; [reflexivity|]. intros G. unfold security_level in E. repeat (match type of E with (if ?a =? ?b then _ else _) = _ => destruct (Z.eqb_spec a b) as [->|] end; [discriminate|]). lia.
Qed.
Theorem verify_hash rand p q sl salt : kdf_contract -> (forall n salt, rand n = Some salt -> blen salt = n) -> rand 16 = Some salt -> 1 <= sl <= 4 ->
  exists r, hash idkey rand p sl = Ret (inl r) /\ blen r = 65 /\
    verify idkey q r = Ret (if decide (level_kdf sl q salt = level_kdf sl p salt) then None else Some ErrHashMismatch).
Proof.
  intros K R E Hs. exists (record (sl - 1) salt (level_kdf sl p salt)). rewrite hash_exact by assumption. rewrite decide_True by exact Hs. rewrite E. split; [reflexivity|].
  assert (Lk : blen (level_kdf sl p salt) = 32). { unfold level_kdf. repeat case_decide; apply K; lia. } pose proof (R _ _ E) as Ls.
  destruct (record_facts (sl - 1) salt (level_kdf sl p salt) []) as (V & P & S & Hh & L); [unfold blen in *; cbn; lia|]. rewrite app_nil_r in *. split; [lia|].
  unfold verify. rewrite V, P. cbn [rbind negb].
  assert (A : exists f, alg idkey (sl - 1) = Some f /\ forall pw salt, f pw salt = level_kdf sl pw salt).
  { assert (Sl : security_level sl = Some (sl - 1)) by (assert (sl = 1 \/ sl = 2 \/ sl = 3 \/ sl = 4) as [-> | [-> | [-> | ->]]] by lia; reflexivity). destruct (alg_level sl (sl - 1) p salt Sl) as (f & F1 & F2 & _). exists f. split; assumption. }
  destruct A as (f & -> & F). rewrite S, Hh. cbn [rbind]. rewrite F. destruct (decide (level_kdf sl q salt = level_kdf sl p salt)) as [D|D]; [rewrite bool_decide_true by exact D; reflexivity|rewrite bool_decide_false by exact D; reflexivity].
Qed.
Corollary verify_hash_same rand p sl salt : kdf_contract -> (forall n salt, rand n = Some salt -> blen salt = n) -> rand 16 = Some salt -> 1 <= sl <= 4 ->
  exists r, hash idkey rand p sl = Ret (inl r) /\ verify idkey p r = Ret None.
Proof. intros K R E Hs. destruct (verify_hash rand p p sl salt K R E Hs) as (r & H1 & _ & H2). exists r. rewrite decide_True in H2 by reflexivity. split; assumption. Qed.
(** the Base64 variants say the same *)
Theorem base64_roundtrip s : Forall is_byte s -> b64_decode (b64_encode s) = Some s.
Proof. exact (decode_encode s). Qed.
Theorem verify_hash_base64 rand p q sl salt : kdf_contract -> (forall n salt, rand n = Some salt -> blen salt = n /\ Forall is_byte salt) -> rand 16 = Some salt -> 1 <= sl <= 4 ->
  exists r t, hash idkey rand p sl = Ret (inl r) /\ hash_base64 idkey rand p sl = Ret (inl t) /\ verify_base64 idkey q t = verify idkey q r.
Proof.
  intros K R E Hs. exists (record (sl - 1) salt (level_kdf sl p salt)), (b64_encode (record (sl - 1) salt (level_kdf sl p salt))).
  assert (H : hash idkey rand p sl = Ret (inl (record (sl - 1) salt (level_kdf sl p salt)))) by (rewrite hash_exact by (try assumption; intros; apply R; assumption); rewrite decide_True by exact Hs; rewrite E; reflexivity).
  split; [exact H|]. split; [unfold hash_base64; rewrite H; reflexivity|]. unfold verify_base64. rewrite base64_roundtrip; [reflexivity|].
  assert (Bk : Forall is_byte (level_kdf sl p salt)) by (unfold level_kdf; repeat case_decide; apply K; lia). assert (Lk : blen (level_kdf sl p salt) = 32) by (unfold level_kdf; repeat case_decide; apply K; lia).
  destruct (R _ _ E) as [Ls Bs]. apply (passhash_bytes (sl - 1) salt (level_kdf sl p salt)); try assumption; [lia|unfold is_byte; lia|]. apply new_ph_record. lia.
Qed.
(** an unknown parameter byte *)
Theorem verify_unknown pw s param : Forall is_byte s -> blen s < 2^63 -> ph_validate s = Ret true -> ph_param s = Ret param -> 4 <= param -> verify idkey pw s = Ret (Some ErrUnknownAlgorithm).
Proof.
  intros Hb Hl V P H. unfold verify. rewrite V, P. cbn [rbind negb]. unfold alg. repeat (match goal with |- context [if ?a =? ?b then _ else _] => destruct (Z.eqb_spec a b); [lia|] end). reflexivity.
Qed.

(** C79: a record with something after it is as good as the record *)
Theorem passhash_trailing param salt h r t pw : 17 + blen salt + blen h + blen t < 2^63 -> new_ph param salt h = Ret r -> verify idkey pw (r ++ t) = verify idkey pw r.
Proof.
  intros H E. rewrite new_ph_record in E by (unfold blen in *; lia). injection E as <-. destruct (record_facts param salt h t H) as (V & P & S & Hh & _).
  destruct (record_facts param salt h []) as (V' & P' & S' & Hh' & _); [unfold blen in *; cbn; lia|]. rewrite app_nil_r in *. unfold verify. rewrite V, V', P, P'. cbn [rbind negb]. rewrite S, S', Hh, Hh'. reflexivity.
Qed.
Theorem passhash_malleable_refuted param salt h pw : 18 + blen salt + blen h < 2^63 ->
  exists r r', new_ph param salt h = Ret r /\ r <> r' /\ ph_validate r' = Ret true /\ verify idkey pw r' = verify idkey pw r.
Proof.
  intros H. exists (record param salt h), (record param salt h ++ [0]). assert (E : new_ph param salt h = Ret (record param salt h)) by (apply new_ph_record; lia). split; [exact E|].
  split; [intros G; apply (f_equal length) in G; rewrite app_length in G; cbn in G; lia|].
  split; [refine (proj1 (record_facts param salt h [0] _)); unfold blen in *; cbn; lia|]. refine (passhash_trailing param salt h _ [0] pw _ E). unfold blen in *. cbn. lia.
Qed.
(** what holds: two accepted strings with nothing after the hash field and the same fields
    are the same string *)
Theorem passhash_unique_partial s s' param salt h : Forall is_byte s -> Forall is_byte s' -> blen s < 2^63 -> blen s' < 2^63 -> ph_validate s = Ret true -> ph_validate s' = Ret true ->
  ph_param s = Ret param -> ph_salt s = Ret salt -> ph_hash s = Ret h -> ph_param s' = Ret param -> ph_salt s' = Ret salt -> ph_hash s' = Ret h ->
  blen s = 17 + blen salt + blen h -> blen s' = 17 + blen salt + blen h -> s = s' /\ new_ph param salt h = Ret s.
Proof.
  intros B B' L L' V V' P S Hh P' S' Hh' E E'.
  assert (G : forall s, Forall is_byte s -> blen s < 2^63 -> ph_validate s = Ret true -> ph_param s = Ret param -> ph_salt s = Ret salt -> ph_hash s = Ret h -> blen s = 17 + blen salt + blen h -> s = record param salt h).
  { clear. intros s B L V P S Hh E. destruct (validate_record s B L V) as (p & sa & ha & t & -> & Lt). destruct (record_facts p sa ha t Lt) as (_ & P1 & S1 & H1 & Lr). rewrite P1 in P. rewrite S1 in S. rewrite H1 in Hh. injection P as ->. injection S as ->. injection Hh as ->.
    destruct t as [|x t]; [apply app_nil_r|]. exfalso. unfold blen in *. rewrite app_length in E. cbn [length] in E. lia. }
  rewrite (G s), (G s') by assumption. split; [reflexivity|]. apply new_ph_record. lia.
Qed.
(** in general: an accepted string is the record of its fields, followed by anything *)
Theorem passhash_accepted s : Forall is_byte s -> blen s < 2^63 -> ph_validate s = Ret true ->
  exists param salt h r t, ph_param s = Ret param /\ ph_salt s = Ret salt /\ ph_hash s = Ret h /\ new_ph param salt h = Ret r /\ s = r ++ t.
Proof.
  intros B L V. destruct (validate_record s B L V) as (p & sa & ha & t & -> & Lt). destruct (record_facts p sa ha t Lt) as (_ & P1 & S1 & H1 & Lr). exists p, sa, ha, (record p sa ha), t. repeat split; try assumption. apply new_ph_record. unfold blen in *. lia.
Qed.
(** and Base64 text: line breaks anywhere, and the spare bits of the last character *)
Theorem base64_malleable_refuted s : Forall is_byte s -> exists t, t <> b64_encode s /\ b64_decode t = Some s.
Proof.
  intros B. exists (10 :: b64_encode s). split; [intros E; apply (f_equal length) in E; cbn in E; lia|]. change (b64_decode (10 :: b64_encode s)) with (b64_decode (b64_encode s)). apply base64_roundtrip. exact B.
Qed.
Example base64_bits_refuted : b64_decode [65; 65] = b64_decode [65; 66] /\ b64_encode [0] = [65; 65].
Proof. split; vm_compute; reflexivity. Qed.
End kdf.
Print Assumptions verify_total.
Print Assumptions verify_exact.
Print Assumptions verify_base64_total.
Print Assumptions verify_base64_exact.
Print Assumptions hash_exact.
Print Assumptions verify_hash.
Print Assumptions verify_hash_same.
Print Assumptions base64_roundtrip.
Print Assumptions verify_hash_base64.
Print Assumptions verify_unknown.
Print Assumptions passhash_trailing.
Print Assumptions passhash_malleable_refuted.
Print Assumptions passhash_unique_partial.
Print Assumptions passhash_accepted.
Print Assumptions base64_malleable_refuted.
(** an instance of the contract: a key is its length in zeroes but for the first byte *)
Definition toy_kdf (pw salt : bytes) (t m th n : Z) : bytes := match Z.to_nat n with O => [] | S k => (fold_left (fun a b => (a * 31 + b) mod 256) (pw ++ salt ++ [t; m; th]) 7) :: repeat 0 k end.
Example kdf_contract_ex : kdf_contract toy_kdf.
Proof.
  intros pw salt t m th n Hn. unfold toy_kdf, blen. destruct (Z.to_nat n) as [|k] eqn:E; [split; [cbn; lia|constructor]|]. split; [cbn [length]; rewrite repeat_length; lia|]. constructor.
  - rewrite !app_assoc. rewrite fold_left_app. cbn [fold_left]. apply Z.mod_pos_bound. lia.
  - apply Forall_forall. intros x Hx. apply elem_of_list_In, repeat_spec in Hx. subst x. unfold is_byte. lia.
Qed.
Example verify_hash_ex : let rand := fun n => Some (repeat 5 (Z.to_nat n)) in
  exists r, hash toy_kdf rand [1; 2; 3] 3 = Ret (inl r) /\ verify toy_kdf [1; 2; 3] r = Ret None /\ verify toy_kdf [1; 2; 4] r = Ret (Some ErrHashMismatch) /\
  hash toy_kdf rand [1; 2; 3] 0 = Ret (inr ErrInvalidSecurityLevel) /\ hash toy_kdf rand [1] 5 = Ret (inr ErrInvalidSecurityLevel).
Proof. cbv zeta. eexists. split; [vm_compute; reflexivity|]. repeat split; vm_compute; reflexivity. Qed.
(** each theorem on a case that meets its hypotheses *)
Definition ex_rand (n : Z) : option bytes := Some (repeat 5 (Z.to_nat n)).
Lemma ex_rand_16 n salt : 0 <= n -> ex_rand n = Some salt -> blen salt = n.
Proof. intros Hn [= <-]. unfold blen. rewrite repeat_length. lia. Qed.
Definition rand_16 (n : Z) : option bytes := if decide (0 <= n) then ex_rand n else None.
Lemma rand_16_ok n salt : rand_16 n = Some salt -> blen salt = n.
Proof. unfold rand_16. destruct (decide (0 <= n)); [apply ex_rand_16; assumption|discriminate]. Qed.
Lemma rand_16_bytes n salt : rand_16 n = Some salt -> blen salt = n /\ Forall is_byte salt.
Proof.
  intros H. split; [apply rand_16_ok; exact H|]. unfold rand_16, ex_rand in H. destruct (decide (0 <= n)); [|discriminate]. injection H as <-.
  apply Forall_forall. intros x I. apply elem_of_list_In, repeat_spec in I. subst. unfold is_byte. lia.
Qed.
Lemma ex_bytes (s : bytes) : forallb (fun b => (0 <=? b) && (b <? 256)) s = true -> Forall is_byte s.
Proof. intros H. apply Forall_forall. intros x I. apply elem_of_list_In in I. rewrite forallb_forall in H. specialize (H x I). apply andb_prop in H as [H1 H2]. apply Z.leb_le in H1. apply Z.ltb_lt in H2. split; assumption. Qed.
Notation ex_record := [2; 19; 0; 0; 0; 0; 0; 0; 0; 20; 0; 0; 0; 0; 0; 0; 0; 7; 8; 9].
Lemma ex_record_bytes : Forall is_byte ex_record. Proof. apply ex_bytes. reflexivity. Qed.
Example passhash_roundtrip_case := passhash_roundtrip 2 [7; 8] [9] eq_refl.
Example passhash_bytes_case := passhash_bytes 2 [7; 8] [9] ex_record eq_refl ltac:(split; [discriminate|reflexivity]) ltac:(apply ex_bytes; reflexivity) ltac:(apply ex_bytes; reflexivity) eq_refl.
Example passhash_validate_safe_case := passhash_validate_safe ex_record ex_record_bytes eq_refl.
Example passhash_validate_exact_case := passhash_validate_exact (take 19 ex_record) ltac:(apply ex_bytes; reflexivity) eq_refl eq_refl.
Example verify_total_case := verify_total toy_kdf [1; 2] ex_record ex_record_bytes eq_refl.
Example verify_exact_case := verify_exact toy_kdf [1; 2] ex_record ex_record_bytes eq_refl.
Example verify_base64_total_case := verify_base64_total toy_kdf [1; 2] [65; 66; 33] eq_refl.
Example verify_base64_exact_case : verify_base64 toy_kdf [1; 2] [65; 66; 33] = Ret (Some ErrBase64) /\ verify_base64 toy_kdf [1; 2] (b64_encode (take 19 ex_record)) = Ret (Some ErrInvalidPassHash).
Proof. split; vm_compute; reflexivity. Qed.
Example hash_exact_case := hash_exact toy_kdf rand_16 [1; 2] 3 kdf_contract_ex rand_16_ok.
Example verify_hash_case := verify_hash toy_kdf rand_16 [1; 2] [1; 3] 3 _ kdf_contract_ex rand_16_ok eq_refl ltac:(split; discriminate).
Example verify_hash_same_case := verify_hash_same toy_kdf rand_16 [1; 2] 3 _ kdf_contract_ex rand_16_ok eq_refl ltac:(split; discriminate).
Example base64_roundtrip_case := base64_roundtrip ex_record ex_record_bytes.
Example verify_hash_base64_case := verify_hash_base64 toy_kdf rand_16 [1; 2] [1; 3] 3 _ kdf_contract_ex rand_16_bytes eq_refl ltac:(split; discriminate).
Example verify_unknown_case := verify_unknown toy_kdf [1; 2] (4 :: tail ex_record) 4 ltac:(apply ex_bytes; reflexivity) eq_refl eq_refl eq_refl ltac:(discriminate).
Example passhash_trailing_case := passhash_trailing toy_kdf 2 [7; 8] [9] ex_record [33] [1; 2] eq_refl eq_refl.
Example passhash_unique_case := passhash_unique_partial ex_record ex_record 2 [7; 8] [9] ex_record_bytes ex_record_bytes eq_refl eq_refl eq_refl eq_refl eq_refl eq_refl eq_refl eq_refl eq_refl eq_refl eq_refl eq_refl.
Example passhash_accepted_case := passhash_accepted (ex_record ++ [1; 1]) ltac:(apply ex_bytes; reflexivity) eq_refl eq_refl.
