(** Properties of cryptox/bcryptx (C82, C102). *)
From Verif Require Import Base PassModel BcryptModel.
Local Open Scope Z.

Lemma key_lookup pw i : (i < 72)%nat -> key_schedule pw !! i = Some (nth (i mod (length pw + 1)) (pw ++ [0]) 0).
Proof. intros H. unfold key_schedule. rewrite list_lookup_fmap, lookup_seq_lt by lia. reflexivity. Qed.
Lemma key_length pw : length (key_schedule pw) = 72%nat.
Proof. unfold key_schedule. rewrite map_length, seq_length. reflexivity. Qed.
Lemma key_lookup_pw pw i x : (i < 72)%nat -> pw !! i = Some x -> key_schedule pw !! i = Some x.
Proof.
  intros H L. pose proof (lookup_lt_Some _ _ _ L). rewrite key_lookup by exact H. rewrite Nat.mod_small by lia. f_equal. apply nth_lookup_Some. rewrite lookup_app_l by lia. exact L.
Qed.
Lemma key_lookup_nul pw : (length pw < 72)%nat -> key_schedule pw !! length pw = Some 0.
Proof. intros H. rewrite key_lookup by exact H. rewrite Nat.mod_small by lia. f_equal. apply nth_lookup_Some. rewrite lookup_app_r, Nat.sub_diag by lia. reflexivity. Qed.
(** passwords without NUL bytes have the same key exactly if their first 72 bytes agree *)
Theorem key_schedule_exact p q : (0 ∉ p) -> (0 ∉ q) -> (key_schedule p = key_schedule q <-> take 72 p = take 72 q).
Proof.
  assert (A : forall p q, 0 ∉ p -> 0 ∉ q -> key_schedule p = key_schedule q -> forall i x, (i < 72)%nat -> p !! i = Some x -> q !! i = Some x).
  { intros p' q' Np Nq E i x Hi. revert x. induction i as [i IH] using lt_wf_ind. intros x L. pose proof (key_lookup_pw p' i x Hi L) as K. rewrite E in K.
    destruct (q' !! i) as [y|] eqn:Lq; [pose proof (key_lookup_pw q' i y Hi Lq) as K'; congruence|]. exfalso. apply lookup_ge_None in Lq.
    (* q' is shorter, so there is a NUL where p' has a byte *)
    pose proof (lookup_lt_Some _ _ _ L) as Lp. destruct (lookup_lt_is_Some_2 p' (length q')) as [z Lz]; [lia|]. pose proof (key_lookup_pw p' (length q') z ltac:(lia) Lz) as K1. rewrite E in K1. rewrite key_lookup_nul in K1 by lia. injection K1 as <-. apply Np. eapply elem_of_list_lookup_2. exact Lz. }
  intros Np Nq. split; intros E.
  - apply list_eq. intros i. destruct (decide (i < 72)%nat) as [Hi|Hi].
    + rewrite !lookup_take by exact Hi. destruct (p !! i) as [x|] eqn:Lp; [symmetry; exact (A p q Np Nq E i x Hi Lp)|]. destruct (q !! i) as [x|] eqn:Lq; [|reflexivity]. rewrite (A q p Nq Np (eq_sym E) i x Hi Lq) in Lp. discriminate.
    + rewrite !lookup_take_ge by lia. reflexivity.
  - assert (B : forall (p q : bytes), take 72 p = take 72 q -> (length p < 72)%nat -> p = q).
    { clear. intros p q E L. assert (Lq : length (take 72 p) = length (take 72 q)) by congruence. rewrite !take_length in Lq. rewrite (take_ge p), (take_ge q) in E by lia. exact E. }
    destruct (decide (length p < 72)%nat) as [L|L]; [rewrite (B p q E L); reflexivity|]. destruct (decide (length q < 72)%nat) as [L'|L']; [rewrite (B q p (eq_sym E) L'); reflexivity|].
    apply list_eq. intros i. destruct (decide (i < 72)%nat) as [Hi|Hi]; [|rewrite !lookup_ge_None_2 by (rewrite key_length; lia); reflexivity].
    destruct (lookup_lt_is_Some_2 p i) as [x Lx]; [lia|]. destruct (lookup_lt_is_Some_2 q i) as [y Ly]; [lia|]. rewrite (key_lookup_pw p i x Hi Lx), (key_lookup_pw q i y Hi Ly).
    apply (f_equal (.!! i)) in E. rewrite !lookup_take in E by exact Hi. congruence.
Qed.
(** with NUL bytes there are more collisions: p, NUL, p is the same key as p *)
Theorem key_schedule_nul p : key_schedule (p ++ [0] ++ p) = key_schedule p.
Proof.
  apply list_eq. intros i. destruct (decide (i < 72)%nat) as [Hi|Hi]; [|rewrite !lookup_ge_None_2 by (rewrite key_length; lia); reflexivity].
  rewrite !key_lookup by exact Hi. f_equal. replace (length (p ++ [0%Z] ++ p) + 1)%nat with (2 * (length p + 1))%nat by (rewrite !app_length; cbn; lia).
  set (n := (length p + 1)%nat). replace ((p ++ [0] ++ p) ++ [0]) with ((p ++ [0]) ++ (p ++ [0])) by (rewrite <- !app_assoc; reflexivity).
  assert (Ln : length (p ++ [0]) = n) by (rewrite app_length; reflexivity). assert (n <> 0)%nat by (unfold n; lia).
  assert (E : (i mod (2 * n) = i mod n \/ i mod (2 * n) = i mod n + n)%nat).
  { pose proof (Nat.mod_upper_bound i (2 * n) ltac:(lia)). pose proof (Nat.div_mod i (2 * n) ltac:(lia)) as D. destruct (decide (i mod (2 * n) < n)%nat) as [L|L].
    - left. apply (Nat.mod_unique i n (2 * (i / (2 * n)))); lia.
    - right. assert (i mod (2 * n) - n = i mod n)%nat; [|lia]. apply (Nat.mod_unique i n (2 * (i / (2 * n)) + 1)); lia. }
  pose proof (Nat.mod_upper_bound i n ltac:(lia)). destruct E as [-> | ->]; [rewrite app_nth1 by lia; reflexivity|]. rewrite app_nth2 by lia. f_equal. lia.
Qed.
Section bcrypt.
Context (digest : Z -> bytes -> bytes -> bytes) (render : Z * bytes * bytes -> bytes) (parse : bytes -> option (Z * bytes * bytes)).
(** parsing the text of a hash gives its parts *)
Context (P : forall r, parse (render r) = Some r).
Notation enc := (encrypt digest render). Notation dec := (decrypt digest parse).
(** C82: Encrypt *)
Theorem bcrypt_length_limit rand pw : (72 < blen pw -> enc rand pw = inr ErrPasswordTooLong) /\
  (blen pw <= 72 -> forall salt, rand = Some salt -> exists h, enc rand pw = inl h) /\ (blen pw <= 72 -> rand = None -> enc rand pw = inr ErrGenerate).
Proof.
  unfold encrypt. destruct (Z.ltb_spec 72 (blen pw)); (split; [|split]); try lia; try reflexivity; intros _; [intros salt ->; eexists; reflexivity|intros ->; reflexivity].
Qed.
(** Decrypt of what Encrypt made: true exactly if the digests agree *)
Theorem bcrypt_decrypt_exact salt p q : blen p <= 72 -> exists h, enc (Some salt) p = inl h /\
  dec h q = if decide (digest 10 salt (key_schedule p) = digest 10 salt (key_schedule q)) then (true, None) else (false, Some ErrMismatched).
Proof.
  intros H. unfold encrypt. destruct (Z.ltb_spec 72 (blen p)); [lia|]. eexists. split; [reflexivity|]. unfold decrypt, compare. rewrite P. destruct (decide _) as [E|E]; [rewrite bool_decide_true by exact E|rewrite bool_decide_false by exact E]; reflexivity.
Qed.
Theorem bcrypt_same salt p : blen p <= 72 -> exists h, enc (Some salt) p = inl h /\ dec h p = (true, None).
Proof. intros H. destruct (bcrypt_decrypt_exact salt p p H) as (h & E & D). exists h. rewrite decide_True in D by reflexivity. split; assumption. Qed.
(** for passwords without NUL bytes, and no collision of the digest: exactly p,
    and if p has 72 bytes every password that begins with p *)
Theorem bcrypt_right_password_partial salt p q : blen p <= 72 -> 0 ∉ p -> 0 ∉ q -> (digest 10 salt (key_schedule p) = digest 10 salt (key_schedule q) -> key_schedule p = key_schedule q) ->
  exists h, enc (Some salt) p = inl h /\ (fst (dec h q) = true <-> q = p \/ (blen p = 72 /\ take 72 q = p)).
Proof.
  intros H Np Nq C. destruct (bcrypt_decrypt_exact salt p q H) as (h & E & D). exists h. split; [exact E|]. rewrite D.
  assert (G : key_schedule p = key_schedule q <-> q = p \/ (blen p = 72 /\ take 72 q = p)).
  { rewrite key_schedule_exact by assumption. unfold blen in *. rewrite (take_ge p) by lia. split.
    - intros G. destruct (decide (length q < 72)%nat) as [L|L]; [left; rewrite take_ge in G by lia; symmetry; exact G|]. right. split; [|symmetry; exact G]. rewrite G, take_length. lia.
    - intros [-> | [_ G]]; [rewrite take_ge by lia; reflexivity|symmetry; exact G]. }
  rewrite <- G. destruct (decide _) as [F|F]; cbn [fst]; split; intros X; first [apply C; exact F | reflexivity | discriminate | exfalso; apply F; rewrite X; reflexivity].
Qed.
Corollary bcrypt_short_password_partial salt p q : blen p <= 72 -> blen q <= 72 -> 0 ∉ p -> 0 ∉ q -> (digest 10 salt (key_schedule p) = digest 10 salt (key_schedule q) -> key_schedule p = key_schedule q) ->
  exists h, enc (Some salt) p = inl h /\ (fst (dec h q) = true <-> q = p).
Proof.
  intros H Hq Np Nq C. destruct (bcrypt_right_password_partial salt p q H Np Nq C) as (h & E & D). exists h. split; [exact E|]. rewrite D. split; [|intros ->; left; reflexivity]. intros [G|[_ G]]; [exact G|]. rewrite take_ge in G by (unfold blen in *; lia). exact G.
Qed.
(** as stated it is false: Decrypt has no length limit, and NUL bytes repeat the key *)
Theorem bcrypt_long_password_refuted salt p t : blen p = 72 -> exists h, enc (Some salt) p = inl h /\ dec h (p ++ t) = (true, None).
Proof.
  intros H. destruct (bcrypt_decrypt_exact salt p (p ++ t) ltac:(lia)) as (h & E & D). exists h. split; [exact E|]. rewrite decide_True in D; [exact D|]. f_equal.
  apply list_eq. intros i. destruct (decide (i < 72)%nat) as [Hi|Hi]; [|rewrite !lookup_ge_None_2 by (rewrite key_length; lia); reflexivity].
  destruct (lookup_lt_is_Some_2 p i) as [x Lx]; [unfold blen in H; lia|]. rewrite (key_lookup_pw p i x Hi Lx). symmetry. apply key_lookup_pw; [exact Hi|]. rewrite lookup_app_l by (unfold blen in H; lia). exact Lx.
Qed.
Theorem bcrypt_nul_refuted salt p : blen p <= 72 -> exists h, enc (Some salt) p = inl h /\ dec h (p ++ [0] ++ p) = (true, None).
Proof. intros H. destruct (bcrypt_decrypt_exact salt p (p ++ [0] ++ p) H) as (h & E & D). exists h. split; [exact E|]. rewrite decide_True in D; [exact D|]. rewrite key_schedule_nul. reflexivity. Qed.
(** a text that is no hash is refused *)
Theorem bcrypt_malformed h q : parse h = None -> dec h q = (false, Some ErrMalformed).
Proof. intros E. unfold decrypt, compare. rewrite E. reflexivity. Qed.
(** Decrypt says true exactly if there is no error *)
Theorem bcrypt_no_error h q : fst (dec h q) = true <-> snd (dec h q) = None.
Proof. unfold decrypt. destruct (compare digest parse h q); cbn; split; congruence. Qed.
End bcrypt.
(** a digest without collisions, and a text form *)
Definition toy_render (r : Z * bytes * bytes) : bytes := let '(c, s, d) := r in c :: Z.of_nat (length s) :: s ++ d.
Definition toy_parse (t : bytes) : option (Z * bytes * bytes) := match t with c :: n :: r => Some (c, take (Z.to_nat n) r, drop (Z.to_nat n) r) | _ => None end.
Example bcrypt_contract_ex : (forall r, toy_parse (toy_render r) = Some r) /\ (forall (p q : bytes), (fun (c : Z) (s k : bytes) => k) 10 [] (key_schedule p) = (fun (c : Z) (s k : bytes) => k) 10 [] (key_schedule q) -> key_schedule p = key_schedule q).
Proof. split; [|intros p q E; exact E]. intros [[c s] d]. cbn. rewrite Nat2Z.id, take_app, drop_app. reflexivity. Qed.
Example bcrypt_ex : exists h, encrypt (fun _ _ k => k) toy_render (Some [5]) [104; 105] = inl h /\ fst (decrypt (fun _ _ k => k) toy_parse h [104; 105]) = true /\
  fst (decrypt (fun _ _ k => k) toy_parse h [104; 106]) = false /\ fst (decrypt (fun _ _ k => k) toy_parse h [104; 105; 0; 104; 105]) = true /\ fst (decrypt (fun _ _ k => k) toy_parse h [104; 105; 0]) = false.
Proof. eexists. split; [vm_compute; reflexivity|]. repeat split; vm_compute; reflexivity. Qed.
(** each theorem on a case that meets its hypotheses *)
Notation toy_digest := (fun (_ : Z) (_ k : bytes) => k).
Lemma no_nul (p : bytes) : forallb (fun x => negb (x =? 0)) p = true -> 0 ∉ p.
Proof. intros H I. apply elem_of_list_In in I. rewrite forallb_forall in H. specialize (H 0 I). discriminate H. Qed.
Example key_schedule_exact_case := key_schedule_exact [104; 105] (repeat 7 80) ltac:(apply no_nul; reflexivity) ltac:(apply no_nul; reflexivity).
Example bcrypt_length_limit_case := (proj1 (bcrypt_length_limit toy_digest toy_render (Some [5]) (repeat 7 73)) eq_refl, proj1 (proj2 (bcrypt_length_limit toy_digest toy_render (Some [5]) (repeat 7 72))) ltac:(discriminate) [5] eq_refl).
Example bcrypt_decrypt_exact_case := bcrypt_decrypt_exact toy_digest _ _ (proj1 bcrypt_contract_ex) [5] [104; 105] [104; 106] ltac:(discriminate).
Example bcrypt_same_case := bcrypt_same toy_digest _ _ (proj1 bcrypt_contract_ex) [5] [104; 105] ltac:(discriminate).
Example bcrypt_right_password_partial_case := bcrypt_right_password_partial toy_digest _ _ (proj1 bcrypt_contract_ex) [5] (repeat 7 72) (repeat 7 80) ltac:(discriminate) ltac:(apply no_nul; reflexivity) ltac:(apply no_nul; reflexivity) (fun H => H).
Example bcrypt_short_password_partial_case := bcrypt_short_password_partial toy_digest _ _ (proj1 bcrypt_contract_ex) [5] [104; 105] [104; 106] ltac:(discriminate) ltac:(discriminate) ltac:(apply no_nul; reflexivity) ltac:(apply no_nul; reflexivity) (fun H => H).
Example bcrypt_malformed_case := bcrypt_malformed toy_digest toy_parse [9] [104; 105] eq_refl.
Example bcrypt_no_error_case := proj1 (bcrypt_no_error toy_digest toy_parse (toy_render (10, [5], key_schedule [104; 105])) [104; 105]) eq_refl.
Print Assumptions key_schedule_exact.
Print Assumptions key_schedule_nul.
Print Assumptions bcrypt_length_limit.
Print Assumptions bcrypt_decrypt_exact.
Print Assumptions bcrypt_same.
Print Assumptions bcrypt_right_password_partial.
Print Assumptions bcrypt_short_password_partial.
Print Assumptions bcrypt_long_password_refuted.
Print Assumptions bcrypt_nul_refuted.
Print Assumptions bcrypt_malformed.
Print Assumptions bcrypt_no_error.
