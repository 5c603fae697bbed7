(** AES: InvCipher undoes Cipher and the other way round, for every key and every block;
    the lengths of the primitives. *)
From Verif Require Import Base PassModel PassProofs AesModel AesProps AesCipherModel.
Local Open Scope Z.

(** *** statements about all bytes, by computation *)
Definition all_bytes : list Z := map Z.of_nat (seq 0 256).
Lemma in_all x : is_byte x -> In x all_bytes.
Proof. intros [H1 H2]. apply in_map_iff. exists (Z.to_nat x). split; [lia|]. apply in_seq. lia. Qed.
Lemma by_bytes (P : Z -> bool) : forallb P all_bytes = true -> forall x, is_byte x -> P x = true.
Proof. intros H x Hx. rewrite forallb_forall in H. apply H, in_all, Hx. Qed.
Lemma by_bytes2 (P : Z -> Z -> bool) : forallb (fun x => forallb (P x) all_bytes) all_bytes = true -> forall x y, is_byte x -> is_byte y -> P x y = true.
Proof. intros H x y Hx Hy. pose proof (by_bytes _ H x Hx) as G. exact (by_bytes _ G y Hy). Qed.
Definition byteb (x : Z) : bool := (0 <=? x) && (x <? 256).
Lemma byteb_spec x : byteb x = true <-> is_byte x.
Proof. unfold byteb, is_byte. rewrite andb_true_iff, Z.leb_le, Z.ltb_lt. reflexivity. Qed.
Lemma lxor_byte x y : is_byte x -> is_byte y -> is_byte (Z.lxor x y).
Proof. intros Hx Hy. apply byteb_spec. apply (by_bytes2 (fun x y => byteb (Z.lxor x y))); [vm_compute; reflexivity|exact Hx|exact Hy]. Qed.
Lemma xtime_byte x : is_byte x -> is_byte (xtime x).
Proof. intros Hx. apply byteb_spec. apply (by_bytes (fun x => byteb (xtime x))); [vm_compute; reflexivity|exact Hx]. Qed.
Lemma xtime_lxor x y : is_byte x -> is_byte y -> xtime (Z.lxor x y) = Z.lxor (xtime x) (xtime y).
Proof. intros Hx Hy. apply Z.eqb_eq. apply (by_bytes2 (fun x y => xtime (Z.lxor x y) =? Z.lxor (xtime x) (xtime y))); [vm_compute; reflexivity|exact Hx|exact Hy]. Qed.
Lemma sbox_byte x : is_byte x -> is_byte (sbox x) /\ is_byte (inv_sbox x) /\ inv_sbox (sbox x) = x /\ sbox (inv_sbox x) = x.
Proof.
  intros Hx. pose proof (by_bytes (fun x => byteb (sbox x) && byteb (inv_sbox x) && (inv_sbox (sbox x) =? x) && (sbox (inv_sbox x) =? x)) ltac:(vm_compute; reflexivity) x Hx) as H.
  rewrite !andb_true_iff, !byteb_spec, !Z.eqb_eq in H. tauto.
Qed.

(** *** linear maps on bytes *)
Definition linear (f : Z -> Z) : Prop := (forall x, is_byte x -> is_byte (f x)) /\ (forall x y, is_byte x -> is_byte y -> f (Z.lxor x y) = Z.lxor (f x) (f y)).
Lemma lxor_swap a b c d : Z.lxor (Z.lxor a b) (Z.lxor c d) = Z.lxor (Z.lxor a c) (Z.lxor b d).
Proof. rewrite !Z.lxor_assoc. f_equal. rewrite <- !Z.lxor_assoc. f_equal. apply Z.lxor_comm. Qed.
Lemma linear_id : linear (fun x => x).
Proof. split; auto. Qed.
Lemma linear_xtime f : linear f -> linear (fun x => xtime (f x)).
Proof. intros [H1 H2]. split; [intros x Hx; apply xtime_byte, H1, Hx|]. intros x y Hx Hy. rewrite H2 by assumption. apply xtime_lxor; apply H1; assumption. Qed.
Lemma linear_lxor f g : linear f -> linear g -> linear (fun x => Z.lxor (f x) (g x)).
Proof. intros [F1 F2] [G1 G2]. split; [intros x Hx; apply lxor_byte; auto|]. intros x y Hx Hy. rewrite F2, G2 by assumption. apply lxor_swap. Qed.
Ltac lin := unfold mul2, mul3, mul9, mul11, mul13, mul14; repeat (apply linear_lxor || apply linear_xtime || apply linear_id).
Lemma l1 : linear (fun x => x). Proof. lin. Qed.
Lemma l2 : linear mul2. Proof. lin. Qed.
Lemma l3 : linear mul3. Proof. lin. Qed.
Lemma l9 : linear mul9. Proof. lin. Qed.
Lemma l11 : linear mul11. Proof. lin. Qed.
Lemma l13 : linear mul13. Proof. lin. Qed.
Lemma l14 : linear mul14. Proof. lin. Qed.
Lemma xor4_byte a b c d : is_byte a -> is_byte b -> is_byte c -> is_byte d -> is_byte (xor4 a b c d).
Proof. intros. unfold xor4. repeat apply lxor_byte; assumption. Qed.
Lemma linear_xor4 f a b c d : linear f -> is_byte a -> is_byte b -> is_byte c -> is_byte d -> f (xor4 a b c d) = xor4 (f a) (f b) (f c) (f d).
Proof. intros [H1 H2] Ha Hb Hc Hd. unfold xor4. rewrite !H2 by (try assumption; apply lxor_byte; assumption). reflexivity. Qed.
Lemma transpose a1 b1 c1 d1 a2 b2 c2 d2 a3 b3 c3 d3 a4 b4 c4 d4 :
  xor4 (xor4 a1 b1 c1 d1) (xor4 a2 b2 c2 d2) (xor4 a3 b3 c3 d3) (xor4 a4 b4 c4 d4) =
  xor4 (xor4 a1 a2 a3 a4) (xor4 b1 b2 b3 b4) (xor4 c1 c2 c3 c4) (xor4 d1 d2 d3 d4).
Proof.
  unfold xor4.
  assert (E : forall p q r s p' q' r' s', Z.lxor (Z.lxor (Z.lxor p q) (Z.lxor r s)) (Z.lxor (Z.lxor p' q') (Z.lxor r' s')) = Z.lxor (Z.lxor (Z.lxor p p') (Z.lxor q q')) (Z.lxor (Z.lxor r r') (Z.lxor s s'))).
  { intros. rewrite lxor_swap. f_equal; apply lxor_swap. }
  rewrite (E a1), (E a3), E. reflexivity.
Qed.
(** one row of a matrix times a matrix, one entry at a time *)
Lemma row f1 f2 f3 f4 (a1 a2 a3 a4 b1 b2 b3 b4 c1 c2 c3 c4 d1 d2 d3 d4 : Z -> Z) a b c d :
  linear f1 -> linear f2 -> linear f3 -> linear f4 ->
  linear a1 -> linear a2 -> linear a3 -> linear a4 -> linear b1 -> linear b2 -> linear b3 -> linear b4 ->
  linear c1 -> linear c2 -> linear c3 -> linear c4 -> linear d1 -> linear d2 -> linear d3 -> linear d4 ->
  is_byte a -> is_byte b -> is_byte c -> is_byte d ->
  xor4 (f1 (xor4 (a1 a) (b1 b) (c1 c) (d1 d))) (f2 (xor4 (a2 a) (b2 b) (c2 c) (d2 d))) (f3 (xor4 (a3 a) (b3 b) (c3 c) (d3 d))) (f4 (xor4 (a4 a) (b4 b) (c4 c) (d4 d))) =
  xor4 (xor4 (f1 (a1 a)) (f2 (a2 a)) (f3 (a3 a)) (f4 (a4 a))) (xor4 (f1 (b1 b)) (f2 (b2 b)) (f3 (b3 b)) (f4 (b4 b)))
       (xor4 (f1 (c1 c)) (f2 (c2 c)) (f3 (c3 c)) (f4 (c4 c))) (xor4 (f1 (d1 d)) (f2 (d2 d)) (f3 (d3 d)) (f4 (d4 d))).
Proof.
  intros F1 F2 F3 F4 [A1 _] [A2 _] [A3 _] [A4 _] [B1 _] [B2 _] [B3 _] [B4 _] [C1 _] [C2 _] [C3 _] [C4 _] [D1 _] [D2 _] [D3 _] [D4 _] Ha Hb Hc Hd.
  rewrite (linear_xor4 f1), (linear_xor4 f2), (linear_xor4 f3), (linear_xor4 f4) by auto. apply transpose.
Qed.
Ltac entry := match goal with |- ?e = ?r => match goal with
  | H : is_byte ?x |- _ => match e with context [x] => let P := eval pattern x in (e =? r) in match P with ?F _ => apply Z.eqb_eq; apply (by_bytes F); [vm_compute; reflexivity|exact H] end end end end.
Lemma xor4_first a : xor4 a 0 0 0 = a. Proof. unfold xor4. rewrite !Z.lxor_0_r. reflexivity. Qed.
Lemma xor4_second a : xor4 0 a 0 0 = a. Proof. unfold xor4. rewrite !Z.lxor_0_r, Z.lxor_0_l. reflexivity. Qed.
Lemma xor4_third a : xor4 0 0 a 0 = a. Proof. unfold xor4. rewrite !Z.lxor_0_r, Z.lxor_0_l. reflexivity. Qed.
Lemma xor4_fourth a : xor4 0 0 0 a = a. Proof. unfold xor4. rewrite !Z.lxor_0_l. reflexivity. Qed.
Definition idz (x : Z) : Z := x.
Lemma lid : linear idz. Proof. exact linear_id. Qed.
Local Hint Resolve l1 l2 l3 l9 l11 l13 l14 lid : lin.
Ltac column_row f1 f2 f3 f4 a1 a2 a3 a4 b1 b2 b3 b4 c1 c2 c3 c4 d1 d2 d3 d4 a b c d fin :=
  transitivity (xor4 (f1 (xor4 (a1 a) (b1 b) (c1 c) (d1 d))) (f2 (xor4 (a2 a) (b2 b) (c2 c) (d2 d))) (f3 (xor4 (a3 a) (b3 b) (c3 c) (d3 d))) (f4 (xor4 (a4 a) (b4 b) (c4 c) (d4 d)))); [reflexivity|];
  rewrite row by auto with lin; etransitivity; [|apply fin]; f_equal; entry.
Ltac inv_mix_row f1 f2 f3 f4 a b c d fin := column_row f1 f2 f3 f4 mul2 idz idz mul3 mul3 mul2 idz idz idz mul3 mul2 idz idz idz mul3 mul2 a b c d fin.
Ltac mix_row f1 f2 f3 f4 a b c d fin := column_row f1 f2 f3 f4 mul14 mul9 mul13 mul11 mul11 mul14 mul9 mul13 mul13 mul11 mul14 mul9 mul9 mul13 mul11 mul14 a b c d fin.
Lemma inv_mix a b c d : is_byte a -> is_byte b -> is_byte c -> is_byte d ->
  columns inv_mix_column (mix_column a b c d) = [a; b; c; d].
Proof.
  intros Ha Hb Hc Hd. unfold mix_column, columns, inv_mix_column. cbn [app]. f_equal; [|f_equal; [|f_equal; [|f_equal]]].
  - inv_mix_row mul14 mul11 mul13 mul9 a b c d xor4_first.
  - inv_mix_row mul9 mul14 mul11 mul13 a b c d xor4_second.
  - inv_mix_row mul13 mul9 mul14 mul11 a b c d xor4_third.
  - inv_mix_row mul11 mul13 mul9 mul14 a b c d xor4_fourth.
Qed.
Lemma mix_inv a b c d : is_byte a -> is_byte b -> is_byte c -> is_byte d ->
  columns mix_column (inv_mix_column a b c d) = [a; b; c; d].
Proof.
  intros Ha Hb Hc Hd. unfold inv_mix_column, columns, mix_column. cbn [app]. f_equal; [|f_equal; [|f_equal; [|f_equal]]].
  - mix_row mul2 mul3 idz idz a b c d xor4_first.
  - mix_row idz mul2 mul3 idz a b c d xor4_second.
  - mix_row idz idz mul2 mul3 a b c d xor4_third.
  - mix_row mul3 idz idz mul2 a b c d xor4_fourth.
Qed.

(** *** blocks *)
Definition block16 (b : bytes) : Prop := length b = 16%nat /\ Forall is_byte b.
Lemma is_block_spec b : is_block b = true <-> block16 b.
Proof.
  unfold is_block, is_bytes, block16. rewrite andb_true_iff, Nat.eqb_eq, forallb_forall, Forall_forall. split; intros [H1 H2]; (split; [exact H1|]).
  - intros x Hx. apply byteb_spec. apply H2. apply elem_of_list_In. exact Hx.
  - intros x Hx. apply byteb_spec. apply H2. apply elem_of_list_In. exact Hx.
Qed.
Lemma block_split b : block16 b -> exists b0 b1 b2 b3 b4 b5 b6 b7 b8 b9 b10 b11 b12 b13 b14 b15,
  b = [b0; b1; b2; b3; b4; b5; b6; b7; b8; b9; b10; b11; b12; b13; b14; b15] /\
  is_byte b0 /\ is_byte b1 /\ is_byte b2 /\ is_byte b3 /\ is_byte b4 /\ is_byte b5 /\ is_byte b6 /\ is_byte b7 /\
  is_byte b8 /\ is_byte b9 /\ is_byte b10 /\ is_byte b11 /\ is_byte b12 /\ is_byte b13 /\ is_byte b14 /\ is_byte b15.
Proof.
  intros [L H]. do 16 (destruct b as [|? b]; [discriminate L|]). destruct b; [|discriminate L].
  repeat match goal with H : Forall _ (_ :: _) |- _ => apply Forall_cons_1 in H as [? H] end. clear H L. do 16 eexists. split; [reflexivity|]. split_and!; assumption.
Qed.
Lemma xor_block a b : block16 a -> block16 b -> block16 (xor a b).
Proof.
  intros [La Ha] [Lb Hb]. split; [rewrite xor_length; lia|]. clear La Lb. unfold xor. revert b Hb. induction Ha as [|x a Hx Ha IH]; intros b Hb; [constructor|].
  destruct Hb as [|y b Hy Hb]; constructor; [apply lxor_byte; assumption|apply IH; assumption].
Qed.
Ltac bytes_goal := split; [reflexivity|]; repeat (apply Forall_cons; split); try apply Forall_nil; try exact I.
Lemma sub_block s : block16 s -> block16 (map sbox s) /\ block16 (map inv_sbox s) /\ map inv_sbox (map sbox s) = s /\ map sbox (map inv_sbox s) = s.
Proof.
  intros [L H]. assert (G : Forall (fun x => is_byte (sbox x) /\ is_byte (inv_sbox x) /\ inv_sbox (sbox x) = x /\ sbox (inv_sbox x) = x) s) by (eapply Forall_impl; [exact H|]; intros x Hx; apply sbox_byte, Hx).
  unfold block16. rewrite !map_length. clear H. split_and!; [exact L| |exact L| | |]; clear L; induction G as [|x s (A & B & C & D) G IH]; cbn [map]; try constructor; try assumption; try reflexivity; f_equal; assumption.
Qed.
Lemma shift_block s : block16 s -> block16 (shift_rows s) /\ block16 (inv_shift_rows s) /\ inv_shift_rows (shift_rows s) = s /\ shift_rows (inv_shift_rows s) = s.
Proof.
  intros H. apply block_split in H as (b0 & b1 & b2 & b3 & b4 & b5 & b6 & b7 & b8 & b9 & b10 & b11 & b12 & b13 & b14 & b15 & -> & H).
  destruct_and!. split_and!; try reflexivity; unfold shift_rows, inv_shift_rows, pick; cbn [map nth]; bytes_goal; assumption.
Qed.
Lemma column_byte a b c d : is_byte a -> is_byte b -> is_byte c -> is_byte d -> Forall is_byte (mix_column a b c d) /\ Forall is_byte (inv_mix_column a b c d).
Proof.
  intros Ha Hb Hc Hd. destruct l2 as [A2 _], l3 as [A3 _], l9 as [A9 _], l11 as [A11 _], l13 as [A13 _], l14 as [A14 _].
  split; unfold mix_column, inv_mix_column; repeat (apply Forall_cons; split); try (apply Forall_nil; exact I); apply xor4_byte; auto.
Qed.
Lemma columns4 f a b c d e : length (f a b c d) = 4%nat -> columns f (f a b c d ++ e) = columns f (f a b c d) ++ columns f e.
Proof. intros L. destruct (f a b c d) as [|p [|q [|r [|s [|]]]]] eqn:E; try discriminate L. cbn [app columns]. rewrite app_nil_r. reflexivity. Qed.
Lemma mix_block s : block16 s -> block16 (mix_columns s) /\ block16 (inv_mix_columns s) /\ inv_mix_columns (mix_columns s) = s /\ mix_columns (inv_mix_columns s) = s.
Proof.
  intros H. apply block_split in H as (b0 & b1 & b2 & b3 & b4 & b5 & b6 & b7 & b8 & b9 & b10 & b11 & b12 & b13 & b14 & b15 & -> & H).
  destruct_and!.
  destruct (column_byte b0 b1 b2 b3) as [P0 Q0]; try assumption. destruct (column_byte b4 b5 b6 b7) as [P1 Q1]; try assumption.
  destruct (column_byte b8 b9 b10 b11) as [P2 Q2]; try assumption. destruct (column_byte b12 b13 b14 b15) as [P3 Q3]; try assumption.
  unfold mix_columns, inv_mix_columns. split_and!.
  - split; [reflexivity|]. cbn [columns]. rewrite !Forall_app. auto.
  - split; [reflexivity|]. cbn [columns]. rewrite !Forall_app. auto.
  - cbn [columns]. 
    assert (E : forall a b c d e, columns inv_mix_column (mix_column a b c d ++ e) = columns inv_mix_column (mix_column a b c d) ++ columns inv_mix_column e).
    { intros. unfold mix_column. cbn [app columns]. rewrite app_nil_r. reflexivity. }
    rewrite !E, !inv_mix by assumption. reflexivity.
  - cbn [columns].
    assert (E : forall a b c d e, columns mix_column (inv_mix_column a b c d ++ e) = columns mix_column (inv_mix_column a b c d) ++ columns mix_column e).
    { intros. unfold inv_mix_column. cbn [app columns]. rewrite app_nil_r. reflexivity. }
    rewrite !E, !mix_inv by assumption. reflexivity.
Qed.

(** *** the rounds *)
Lemma undo a k : block16 a -> block16 k -> xor (xor a k) k = a.
Proof. intros [L _] [L' _]. apply xor_undo. lia. Qed.
Lemma round_block s k : block16 s -> block16 k -> block16 (round s k) /\ block16 (inv_round s k) /\ inv_round (round s k) k = s /\ round (inv_round s k) k = s.
Proof.
  intros Hs Hk. unfold round, inv_round.
  destruct (sub_block s Hs) as (A1 & _ & A3 & _). destruct (shift_block _ A1) as (B1 & _ & B3 & _). destruct (mix_block _ B1) as (C1 & _ & C3 & _).
  pose proof (xor_block s k Hs Hk) as X. destruct (mix_block _ X) as (_ & D2 & _ & D4). destruct (shift_block _ D2) as (_ & E2 & _ & E4). destruct (sub_block _ E2) as (_ & F2 & _ & F4).
  split_and!; [apply xor_block; assumption|exact F2| |].
  - rewrite undo, C3, B3, A3 by assumption. reflexivity.
  - rewrite F4, E4, D4, undo by assumption. reflexivity.
Qed.
Lemma rounds_block ks : Forall block16 ks -> forall s, block16 s -> block16 (foldl round s ks) /\ block16 (foldl inv_round s (rev ks)) /\
  foldl inv_round (foldl round s ks) (rev ks) = s /\ foldl round (foldl inv_round s (rev ks)) ks = s.
Proof.
  induction 1 as [|k ks Hk _ IH]; intros s Hs; cbn [foldl rev]; [auto|]. rewrite !foldl_app. cbn [foldl].
  destruct (round_block s k Hs Hk) as (R1 & _ & R3 & _). destruct (IH _ R1) as (A1 & _ & A3 & _). destruct (IH s Hs) as (_ & B2 & _ & B4).
  destruct (round_block _ k B2 Hk) as (_ & C2 & _ & C4).
  split_and!; [exact A1|exact C2|rewrite A3; exact R3|rewrite C4; exact B4].
Qed.

(** *** the round keys are blocks, whatever the key *)
Definition key_ok (k : bytes) : Prop := let '(first, mid, last) := round_keys k in block16 first /\ Forall block16 mid /\ block16 last.
Lemma cipher_ok_inv k s : key_ok k -> block16 s -> block16 (cipher k s) /\ block16 (inv_cipher k s) /\ inv_cipher k (cipher k s) = s /\ cipher k (inv_cipher k s) = s.
Proof.
  unfold key_ok, cipher, inv_cipher. destruct (round_keys k) as [[first mid] last]. intros (Kf & Km & Kl) Hs.
  pose proof (xor_block s first Hs Kf) as X. destruct (rounds_block mid Km _ X) as (A1 & _ & A3 & _). destruct (sub_block _ A1) as (B1 & _ & B3 & _). destruct (shift_block _ B1) as (C1 & _ & C3 & _).
  pose proof (xor_block s last Hs Kl) as Y. destruct (shift_block _ Y) as (_ & D2 & _ & D4). destruct (sub_block _ D2) as (_ & E2 & _ & E4). destruct (rounds_block mid Km _ E2) as (_ & F2 & _ & F4).
  split_and!; [apply xor_block; assumption|apply xor_block; assumption| |].
  - rewrite (undo _ last), C3, B3, A3, undo by assumption. reflexivity.
  - rewrite (undo _ first), F4, E4, D4, undo by assumption. reflexivity.
Qed.
Lemma words_byte n : forall k : bytes, Forall is_byte k -> Forall (Forall is_byte) (words n k).
Proof. induction n as [|n IH]; intros k H; constructor; [apply Forall_take, H|apply IH, Forall_drop, H]. Qed.
Lemma xor_bytes a b : Forall is_byte a -> Forall is_byte b -> Forall is_byte (xor a b).
Proof.
  intros Ha. unfold xor. revert b. induction Ha as [|x a Hx Ha IH]; intros b Hb; [constructor|]. destruct Hb as [|y b Hy Hb]; constructor; [apply lxor_byte; assumption|apply IH; assumption].
Qed.
Lemma nth_bytes (ws : list bytes) i : Forall (Forall is_byte) ws -> Forall is_byte (nth i ws []).
Proof. intros H. revert i. induction H as [|w ws Hw H IH]; intros [|i]; cbn [nth]; auto. Qed.
Lemma map_sbox_bytes (w : bytes) : Forall is_byte w -> Forall is_byte (map sbox w).
Proof. induction 1; constructor; [apply sbox_byte; assumption|assumption]. Qed.
Lemma rcon_byte i : is_byte (rcon i).
Proof. unfold rcon. induction (i - 1)%nat as [|n IH]; cbn [Nat.iter nat_rect]; [unfold is_byte; lia|apply xtime_byte, IH]. Qed.
Lemma key_word_bytes nk ws i : Forall (Forall is_byte) ws -> Forall is_byte (key_word nk ws i).
Proof.
  intros H. unfold key_word. apply xor_bytes; [apply nth_bytes, H|]. pose proof (nth_bytes ws (i - 1) H) as G. destruct (_ =? 0)%nat.
  - apply xor_bytes.
    + apply map_sbox_bytes. destruct G as [|x w Hx G]; [constructor|]. cbn [rot_word]. apply Forall_app. auto.
    + repeat (apply Forall_cons; split); try (apply Forall_nil; exact I); try (unfold is_byte; lia). apply rcon_byte.
  - destruct (_ && _); [apply map_sbox_bytes, G|exact G].
Qed.
Lemma expand_bytes n nk : forall ws, Forall (Forall is_byte) ws -> Forall (Forall is_byte) (expand n nk ws).
Proof. induction n as [|n IH]; intros ws H; cbn [expand]; [exact H|]. apply IH, Forall_app. split; [exact H|]. constructor; [apply key_word_bytes, H|constructor]. Qed.
Lemma concat_bytes (ws : list bytes) : Forall (Forall is_byte) ws -> Forall is_byte (concat ws).
Proof. induction 1; cbn [concat]; [constructor|apply Forall_app; auto]. Qed.
Lemma round_key_block ws r : Forall (Forall is_byte) ws -> block16 (round_key ws r).
Proof.
  intros H. unfold round_key. split; [rewrite take_length, app_length, repeat_length; lia|]. apply Forall_take, Forall_app. split; [apply concat_bytes, Forall_drop, H|].
  apply Forall_forall. intros x Hx. apply elem_of_list_In in Hx. apply repeat_spec in Hx. subst. unfold is_byte. lia.
Qed.
Lemma round_keys_ok k : Forall is_byte k -> key_ok k.
Proof.
  intros H. unfold key_ok, round_keys. pose proof (expand_bytes (4 * (length k / 4 + 7) - length k / 4) (length k / 4) _ (words_byte (length k / 4) k H)) as G. unfold key_words.
  split_and!; [apply round_key_block, G| |apply round_key_block, G]. apply Forall_forall. intros x Hx. apply elem_of_list_In, in_map_iff in Hx as (r & <- & _). apply round_key_block, G.
Qed.

(** *** lengths *)
Lemma sha_block_length h b : length h = 8%nat -> length (sha_block h b) = 8%nat.
Proof. intros H. unfold sha_block. do 8 (destruct h as [|? h]; [discriminate H|]). destruct h; [|discriminate H]. destruct (foldl _ _ _) as [[[[[[[? ?] ?] ?] ?] ?] ?] ?]. reflexivity. Qed.
Lemma sha_blocks_length n : forall h m, length h = 8%nat -> length (sha_blocks n h m) = 8%nat.
Proof. induction n as [|n IH]; intros h m H; cbn [sha_blocks]; [exact H|]. apply IH, sha_block_length, H. Qed.
Lemma concat_be4 l : length (concat (map (be 4) l)) = (4 * length l)%nat /\ Forall is_byte (concat (map (be 4) l)).
Proof. induction l as [|x l [IH1 IH2]]; [split; [reflexivity|constructor]|]. change (concat (map (be 4) (x :: l))) with (be 4 x ++ concat (map (be 4) l)). rewrite app_length, be_length, IH1. split; [cbn [length]; lia|]. apply Forall_app. split; [apply be_bytes|exact IH2]. Qed.
Lemma sha256_ok m : length (sha256_sum m) = 32%nat /\ Forall is_byte (sha256_sum m).
Proof. unfold sha256_sum. destruct (concat_be4 (sha_blocks (length (sha_pad m) / 64) sha_init (sha_pad m))) as [L F]. rewrite sha_blocks_length in L by reflexivity. split; [exact L|exact F]. Qed.
Lemma sha_pad_blocks m : (length (sha_pad m) mod 64 = 0)%nat.
Proof.
  unfold sha_pad. rewrite !app_length, repeat_length, be_length. change (length [128]) with 1%nat. pose proof (Nat.mod_upper_bound (length m) 64 ltac:(lia)) as B. pose proof (Nat.div_mod_eq (length m) 64) as D. set (q := (length m / 64)%nat) in *. set (r := (length m mod 64)%nat) in *. clearbody q r.
  destruct (Nat.ltb_spec r 56); rewrite D.
  - replace (64 * q + r + (1 + (55 - r + 8)))%nat with ((q + 1) * 64)%nat by lia. apply Nat.mod_mul. lia.
  - replace (64 * q + r + (1 + (64 + 55 - r + 8)))%nat with ((q + 2) * 64)%nat by lia. apply Nat.mod_mul. lia.
Qed.
Lemma gcm_tag_length k n c : length (gcm_tag k n c) = 16%nat.
Proof. unfold gcm_tag. rewrite take_length, app_length, repeat_length. lia. Qed.
