(** Base 64 as numbers (C76, C135): what passhashx and bcryptx write and read. *)
From Coq Require Import String.
From Verif Require Import Base PassModel PassProofs BcryptModel BcryptRecModel BcryptRecProps PassStrModel.
Local Open Scope Z.

(** digits in base b, the first one counts most *)
Definition number (b : Z) (ds : list Z) : Z := foldl (fun n d => b * n + d) 0 ds.
Definition url_alphabet : list Z := str "ABCDEFGHIJKLMNOPQRSTUVWXYZabcdefghijklmnopqrstuvwxyz0123456789-_"%string.
Definition bcrypt_alphabet : list Z := str "./ABCDEFGHIJKLMNOPQRSTUVWXYZabcdefghijklmnopqrstuvwxyz0123456789"%string.
(** the characters t stand for the digits ds *)
Definition spells (alphabet t ds : list Z) : Prop := Forall2 (fun c d => 0 <= d /\ alphabet !! Z.to_nat d = Some c) t ds.
(** the bits of ds are the bits of s, and zeros to fill up the last digit *)
Definition encodes (ds s : list Z) : Prop :=
  let l := Z.of_nat (length ds) in let n := Z.of_nat (length s) in l = (8 * n + 5) / 6 /\ number 64 ds = number 256 s * 2^(6 * l - 8 * n).
(** the bits of s are the bits of ds, without the few that make no byte *)
Definition decodes (ds s : list Z) : Prop :=
  let l := Z.of_nat (length ds) in let n := Z.of_nat (length s) in Forall is_byte s /\ n = 6 * l / 8 /\ number 256 s = number 64 ds / 2^(6 * l - 8 * n).
Definition without_breaks (t : list Z) : list Z := List.filter (fun c => negb ((c =? 10) || (c =? 13))) t.

Lemma number_app b x y : number b (x ++ y) = number b x * b^Z.of_nat (length y) + number b y.
Proof.
  revert x. induction y as [|d y IH] using rev_ind; intros x; [rewrite app_nil_r; cbn; lia|]. rewrite app_assoc. unfold number in *. rewrite !foldl_app. cbn [foldl]. rewrite <- foldl_app, IH, app_length. cbn [length].
  rewrite Nat2Z.inj_add. change (Z.of_nat 1) with 1. rewrite Z.pow_add_r, Z.pow_1_r by lia. lia.
Qed.
Lemma number_range b ds : 0 < b -> Forall (fun d => 0 <= d < b) ds -> 0 <= number b ds < b^Z.of_nat (length ds).
Proof.
  intros Hb. induction ds as [|d ds IH] using rev_ind; intros H; [cbn; lia|]. apply Forall_app in H as [H Hd]. apply Forall_cons in Hd as [Hd _]. specialize (IH H). rewrite number_app, app_length. cbn [length]. rewrite Nat2Z.inj_add. change (Z.of_nat 1) with 1.
  rewrite Z.pow_add_r, Z.pow_1_r by lia. change (number b [d]) with (b * 0 + d). nia.
Qed.
Lemma number_inj b x y : 0 < b -> length x = length y -> Forall (fun d => 0 <= d < b) x -> Forall (fun d => 0 <= d < b) y -> number b x = number b y -> x = y.
Proof.
  intros Hb. revert y. induction x as [|d x IH] using rev_ind; intros y L Hx Hy E; [destruct y; [reflexivity|discriminate]|]. destruct y as [|e y _] using rev_ind; [rewrite app_length in L; cbn in L; lia|].
  rewrite !app_length in L. cbn [length] in L. apply Forall_app in Hx as [Hx Hd]. apply Forall_app in Hy as [Hy He]. apply Forall_cons in Hd as [Hd _]. apply Forall_cons in He as [He _].
  rewrite !number_app in E. cbn [length] in E. change (Z.of_nat 1) with 1 in E. rewrite !Z.pow_1_r in E. change (number b [d]) with (b * 0 + d) in E. change (number b [e]) with (b * 0 + e) in E.
  assert (number b x = number b y) by nia. assert (d = e) by nia. rewrite (IH y); [congruence|lia|assumption..].
Qed.
Lemma pow_parts n q : 0 <= n -> 0 <= q -> 2^(6 * (4 * n + q)) = 256^(3 * n) * 2^(6 * q).
Proof. intros. change 256 with (2^8). rewrite <- Z.pow_mul_r, <- Z.pow_add_r by lia. f_equal. lia. Qed.
Lemma six_encodes s : Forall is_byte s -> encodes (six s) s.
Proof.
  unfold encodes. cbn zeta. induction s as [|a|a b|a b c r IH] using bytes3_ind; intros H; [split; reflexivity| | |];
    repeat (apply Forall_cons in H; let h := fresh in destruct H as [h H]; unfold is_byte in h); cbn [six].
  - split; [reflexivity|]. cbn [length number foldl]. change (2^(6 * Z.of_nat 2 - 8 * Z.of_nat 1)) with 16. zm.
  - split; [reflexivity|]. cbn [length number foldl]. change (2^(6 * Z.of_nat 3 - 8 * Z.of_nat 2)) with 4. zm.
  - destruct (IH H) as [L N]. match goal with |- context [?x :: ?y :: ?z :: ?w :: six r] => set (p := [x; y; z; w]); change (x :: y :: z :: w :: six r) with (p ++ six r); assert (P : number 64 p = number 256 [a; b; c]) by (unfold p; cbn [number foldl]; zm); assert (LP : length p = 4%nat) by reflexivity end. clearbody p.
    change (a :: b :: c :: r) with ([a; b; c] ++ r). rewrite !app_length, LP. cbn [length]. rewrite !Nat2Z.inj_add. change (Z.of_nat 4) with 4. change (Z.of_nat 3) with 3. set (l := Z.of_nat (length (six r))) in *. set (n := Z.of_nat (length r)) in *. assert (0 <= n) by (unfold n; lia).
    split; [rewrite L; zm|]. rewrite !number_app, P, N. fold l n. assert (6 * l - 8 * n >= 0) by (rewrite L; zm). replace (6 * (4 + l) - 8 * (3 + n)) with (6 * l - 8 * n) by lia. rewrite Z.mul_add_distr_r. f_equal. rewrite <- Z.mul_assoc. f_equal.
    change 64 with (2^6). change 256 with (2^8). rewrite <- !Z.pow_mul_r, <- Z.pow_add_r by lia. f_equal. lia.
Qed.
Lemma quads (P : list Z -> Prop) : P [] -> (forall a, P [a]) -> (forall a b, P [a; b]) -> (forall a b c, P [a; b; c]) -> (forall a b c d r, P r -> P (a :: b :: c :: d :: r)) -> forall s, P s.
Proof.
  intros H0 H1 H2 H3 H4. assert (G : forall n s, (length s <= n)%nat -> P s); [|intros s; apply (G (length s)); lia]. induction n as [|n IH]; intros s L; [destruct s; [exact H0|cbn in L; lia]|].
  destruct s as [|a [|b [|c [|d r]]]]; auto. apply H4, IH. cbn in L. lia.
Qed.
Lemma groups_decodes ds : Forall (fun d => 0 <= d < 64) ds -> forall s, b64_groups ds = Some s -> (length ds mod 4 <> 1)%nat /\ decodes ds s.
Proof.
  unfold decodes. cbn zeta. assert (B : forall x, is_byte (x mod 256)) by (intros x; pose proof (Z.mod_pos_bound x 256); unfold is_byte; lia).
  induction ds as [|a|a b|a b c|a b c d r IH] using quads; intros H s E; cbn [b64_groups] in E; try discriminate;
    repeat (apply Forall_cons in H; let h := fresh in destruct H as [h H]).
  - injection E as <-. split; [discriminate|]. split; [constructor|]. split; reflexivity.
  - injection E as <-. split; [discriminate|]. split; [repeat constructor; apply B|]. split; [reflexivity|]. cbn [length number foldl]. change (2^(6 * Z.of_nat 2 - 8 * Z.of_nat 1)) with 16. zm.
  - injection E as <-. split; [discriminate|]. split; [repeat constructor; apply B|]. split; [reflexivity|]. cbn [length number foldl]. change (2^(6 * Z.of_nat 3 - 8 * Z.of_nat 2)) with 4. zm.
  - destruct (b64_groups r) as [t|] eqn:Et; [|discriminate]. injection E as <-. destruct (IH H t eq_refl) as (L & F & N & V). split; [cbn [length]; replace (S (S (S (S (length r))))) with (length r + 1 * 4)%nat by lia; rewrite Nat.mod_add by lia; exact L|].
    split; [constructor; [apply B|]; constructor; [apply B|]; constructor; [apply B|exact F]|].
    match goal with |- context [?x :: ?y :: ?z :: t] => set (p := [x; y; z]); change (x :: y :: z :: t) with (p ++ t); assert (P : number 256 p = number 64 [a; b; c; d]) by (unfold p; cbn [number foldl]; zm); assert (LP : length p = 3%nat) by reflexivity end. clearbody p.
    change (a :: b :: c :: d :: r) with ([a; b; c; d] ++ r). rewrite !app_length, LP. cbn [length]. rewrite !Nat2Z.inj_add. change (Z.of_nat 4) with 4. change (Z.of_nat 3) with 3. set (l := Z.of_nat (length r)) in *. set (n := Z.of_nat (length t)) in *. assert (0 <= l) by (unfold l; lia).
    split; [rewrite N; zm|]. rewrite !number_app, P, V. fold l n. assert (6 * l - 8 * n >= 0) by (rewrite N; zm). replace (6 * (4 + l) - 8 * (3 + n)) with (6 * l - 8 * n) by lia.
    assert (E64 : 64^l = 256^n * 2^(6 * l - 8 * n)) by (change 64 with (2^6); change 256 with (2^8); rewrite <- !Z.pow_mul_r, <- Z.pow_add_r by lia; f_equal; lia). rewrite E64. rewrite Z.mul_assoc. rewrite Z.div_add_l by (apply Z.pow_nonzero; lia). reflexivity.
Qed.
Lemma groups_some ds : (length ds mod 4 <> 1)%nat -> exists s, b64_groups ds = Some s.
Proof.
  induction ds as [|a|a b|a b c|a b c d r IH] using quads; intros H; cbn [b64_groups]; eauto; [exfalso; apply H; reflexivity|]. destruct IH as [t Et]; [|rewrite Et; eauto]. intros F. apply H. cbn [length]. replace (S (S (S (S (length r))))) with (length r + 1 * 4)%nat by lia. rewrite Nat.mod_add by lia. exact F.
Qed.
Lemma decodes_unique ds s s' : decodes ds s -> decodes ds s' -> s = s'.
Proof.
  unfold decodes. cbn zeta. intros (F & N & V) (F' & N' & V'). assert (L : length s = length s') by lia. rewrite L in *. apply (number_inj 256); [lia|exact L|exact F|exact F'|congruence].
Qed.
Section alphabet.
Context (al : list Z) (dec : Z -> option Z) (enc : Z -> Z).
Context (Hd : forall c d, dec c = Some d <-> 0 <= d /\ al !! Z.to_nat d = Some c) (He : forall d, 0 <= d < 64 -> al !! Z.to_nat d = Some (enc d)) (Hl : length al = 64%nat).
Lemma spells_mapM t ds : mapM dec t = Some ds <-> spells al t ds.
Proof using Hd.
  rewrite mapM_Some. unfold spells. split; intros H; (eapply Forall2_impl; [exact H|]); intros c d; apply Hd.
Qed.
Lemma spells_range t ds : spells al t ds -> Forall (fun d => 0 <= d < 64) ds.
Proof using Hl. intros H. induction H as [|c d t ds [H1 H2] _ IH]; constructor; [|exact IH]. apply lookup_lt_Some in H2. rewrite Hl in H2. lia. Qed.
Lemma spells_enc ds : Forall (fun d => 0 <= d < 64) ds -> spells al (map enc ds) ds.
Proof using He. clear Hl. intros H. induction H as [|d ds H _ IH]; constructor; [|exact IH]. split; [lia|apply He; exact H]. Qed.
End alphabet.
Lemma all64 (P : Z -> Prop) : Forall P (map Z.of_nat (seq 0 64)) -> forall d, 0 <= d < 64 -> P d.
Proof. rewrite List.Forall_forall. intros H d Hd'. apply H. apply in_map_iff. exists (Z.to_nat d). split; [lia|]. apply in_seq. lia. Qed.
Lemma url_enc d : 0 <= d < 64 -> url_alphabet !! Z.to_nat d = Some (enc_char d) /\ dec_char (enc_char d) = Some d.
Proof. apply (all64 (fun d => url_alphabet !! Z.to_nat d = Some (enc_char d) /\ dec_char (enc_char d) = Some d)). cbn [seq map]. repeat (constructor; [split; reflexivity|]). constructor. Qed.
Lemma url_dec c d : dec_char c = Some d <-> 0 <= d /\ url_alphabet !! Z.to_nat d = Some c.
Proof.
  split.
  - intros E. assert (G : 0 <= d < 64 /\ enc_char d = c); [|destruct G as [G <-]; split; [lia|apply url_enc; exact G]].
    unfold dec_char in E. repeat match type of E with context [(?x <=? ?y)] => destruct (Z.leb_spec x y); cbn [andb] in E end; repeat match type of E with context [(?x =? ?y)] => destruct (Z.eqb_spec x y); cbn [andb] in E end; try discriminate E; injection E as <-; (split; [lia|]); subst; try reflexivity;
      unfold enc_char; repeat match goal with |- context [(?x <? ?y)] => destruct (Z.ltb_spec x y) end; lia.
  - intros [H0 H]. pose proof (lookup_lt_Some _ _ _ H) as L. change (length url_alphabet) with 64%nat in L. destruct (url_enc d ltac:(lia)) as [E1 E2]. congruence.
Qed.
Lemma bc_enc d : 0 <= d < 64 -> bcrypt_alphabet !! Z.to_nat d = Some (bc_char d) /\ bc_val (bc_char d) = Some d.
Proof. apply (all64 (fun d => bcrypt_alphabet !! Z.to_nat d = Some (bc_char d) /\ bc_val (bc_char d) = Some d)). cbn [seq map]. repeat (constructor; [split; reflexivity|]). constructor. Qed.
Lemma bc_dec c d : bc_val c = Some d <-> 0 <= d /\ bcrypt_alphabet !! Z.to_nat d = Some c.
Proof.
  split.
  - intros E. assert (G : 0 <= d < 64 /\ bc_char d = c); [|destruct G as [G <-]; split; [lia|apply bc_enc; exact G]].
    unfold bc_val in E. repeat match type of E with context [(?x =? ?y)] => destruct (Z.eqb_spec x y); cbn [andb] in E end; repeat match type of E with context [(?x <=? ?y)] => destruct (Z.leb_spec x y); cbn [andb] in E end; try discriminate E; injection E as <-; (split; [lia|]); subst; try reflexivity;
      unfold bc_char; repeat match goal with |- context [(?x =? ?y)] => destruct (Z.eqb_spec x y) end; repeat match goal with |- context [(?x <? ?y)] => destruct (Z.ltb_spec x y) end; lia.
  - intros [H0 H]. pose proof (lookup_lt_Some _ _ _ H) as L. change (length bcrypt_alphabet) with 64%nat in L. destruct (bc_enc d ltac:(lia)) as [E1 E2]. congruence.
Qed.

(** C76: the text of a record, byte for byte *)
Theorem passhash_base64_text s : Forall is_byte s -> exists ds, spells url_alphabet (b64_encode s) ds /\ encodes ds s.
Proof. intros H. exists (six s). rewrite encode_six. split; [apply (spells_enc url_alphabet enc_char); [intros d Hd; apply url_enc; exact Hd|apply six_range; exact H]|apply six_encodes; exact H]. Qed.
(** and which texts are taken for which bytes *)
Theorem passhash_base64_read t s : b64_decode t = Some s <-> exists ds, spells url_alphabet (without_breaks t) ds /\ (length ds mod 4 <> 1)%nat /\ decodes ds s.
Proof.
  unfold b64_decode. change (List.filter not_break t) with (without_breaks t). split.
  - destruct (mapM dec_char (without_breaks t)) as [ds|] eqn:E; [|discriminate]. apply (spells_mapM url_alphabet dec_char url_dec) in E. intros G. exists ds. split; [exact E|]. apply groups_decodes; [apply (spells_range url_alphabet eq_refl) in E; exact E|exact G].
  - intros (ds & E & L & D). pose proof (spells_range url_alphabet eq_refl _ _ E) as R. apply (spells_mapM url_alphabet dec_char url_dec) in E. rewrite E. destruct (groups_some ds L) as [s' G]. rewrite G. f_equal. apply (decodes_unique ds); [apply groups_decodes; assumption|exact D].
Qed.
(** C135: the digest in the text of a bcrypt hash, and the salt *)
Theorem bcrypt_base64_text s : Forall is_byte s -> exists ds, spells bcrypt_alphabet (bc_encode s) ds /\ encodes ds s.
Proof. intros H. exists (six s). rewrite bc_encode_six. split; [apply (spells_enc bcrypt_alphabet bc_char); [intros d Hd; apply bc_enc; exact Hd|apply six_range; exact H]|apply six_encodes; exact H]. Qed.
Theorem bcrypt_base64_salt t s : bc_decode_salt t = Some s <-> exists ds, spells bcrypt_alphabet (without_breaks t) ds /\ (length ds mod 4 = 2)%nat /\ decodes ds s.
Proof.
  unfold bc_decode_salt. change (List.filter not_break t) with (without_breaks t). split.
  - destruct (mapM bc_val (without_breaks t)) as [ds|] eqn:E; [|discriminate]. apply (spells_mapM bcrypt_alphabet bc_val bc_dec) in E. destruct (Nat.eqb_spec (length ds mod 4) 2) as [M|]; [|discriminate]. intros G. exists ds. split; [exact E|]. split; [exact M|]. apply groups_decodes; [apply (spells_range bcrypt_alphabet eq_refl) in E; exact E|exact G].
  - intros (ds & E & L & D). pose proof (spells_range bcrypt_alphabet eq_refl _ _ E) as R. apply (spells_mapM bcrypt_alphabet bc_val bc_dec) in E. rewrite E, L. cbn [Nat.eqb]. destruct (groups_some ds ltac:(rewrite L; discriminate)) as [s' G]. rewrite G. f_equal. apply (decodes_unique ds); [apply groups_decodes; assumption|exact D].
Qed.
Print Assumptions passhash_base64_text.
Print Assumptions passhash_base64_read.
Print Assumptions bcrypt_base64_text.
Print Assumptions bcrypt_base64_salt.
Example base64_ex : spells url_alphabet (str "_-8"%string) [63; 62; 60] /\ encodes [63; 62; 60] [255; 239] /\ decodes [63; 62; 61] [255; 239] /\ b64_decode (str "_-9"%string) = Some [255; 239] /\ spells bcrypt_alphabet (str "./9"%string) [0; 1; 63].
Proof. split; [repeat constructor; lia|]. split; [split; reflexivity|]. split; [split; [repeat constructor; unfold is_byte; lia|split; reflexivity]|]. split; [reflexivity|]. repeat constructor; lia. Qed.
Example base64_text_case : Forall is_byte [255; 239] /\ b64_encode [255; 239] = str "_-8"%string /\ bc_decode_salt (str "./"%string) = Some [0].
Proof. vm_compute. repeat split; try discriminate; repeat constructor; discriminate. Qed.
Example passhash_base64_text_case := passhash_base64_text [255; 239] (proj1 base64_text_case).
Example bcrypt_base64_text_case := bcrypt_base64_text [255; 239] (proj1 base64_text_case).
Example passhash_base64_read_case := proj1 (passhash_base64_read (str "_-9"%string) [255; 239]) eq_refl.
Example bcrypt_base64_salt_case := proj1 (bcrypt_base64_salt (str "./"%string) [0]) eq_refl.
