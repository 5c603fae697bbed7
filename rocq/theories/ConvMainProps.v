(** The registry of convx together with the converters of init.go, and test/main.go
    (C153, C154). *)
From Coq Require Import Floats.SpecFloat.
From Verif Require Import Base ConvModel ConvProofs ConvProofs2 ConvUtf8 ConvProps ConvMainModel.
Local Open Scope Z.

Section main.
Context (ff : spec_float -> list Z) (pf : list Z -> spec_float) (oob : ity -> spec_float -> Z).

(** the last call of a program that registers or removes a converter for exactly this pair of types *)
Inductive change {V} := Registered (f : V -> V) | Removed | Untouched.
Definition last_change {V} (T R : gty) (os : list (rop V)) : change :=
  foldl (fun c o =>
    match o with
    | ORegister T' R' f => if decide (T' = T /\ R' = R) then Registered f else c
    | OUnregister T' R' => if decide (T' = T /\ R' = R) then Removed else c
    | _ => c
    end) Untouched os.
(** what init.go answers for a pair of types of the program *)
Definition initially (T R : gty) (v : bval) (r : option bval) : Prop :=
  (exists a b, T = bgty a /\ R = bgty b /\ r = convert ff pf oob a b v) \/
  (r = None /\ forall a b, T = bgty a -> R = bgty b -> False).

Lemma look_after {V} os : forall (m : registry V) rs m' T R, run reg_step m os = (rs, Ret m') -> g_iface T = false -> g_iface R = false ->
  look m' (Some T) (Some R) = match last_change T R os with Registered f => Some (Entry T R f) | Removed => None | Untouched => look m (Some T) (Some R) end.
Proof.
  unfold last_change.
  induction os as [|o os IH] using rev_ind; intros m rs m' T R E HT HR; [injection E as _ <-; reflexivity|].
  assert (X : exists rs1 m1 r, run reg_step m os = (rs1, Ret m1) /\ reg_step m1 o = Ret (m', r)).
  { clear IH HT HR. revert m rs E. induction os as [|p os IH]; intros m rs E; cbn [app run] in *.
    - destruct (reg_step m o) as [[m1 r]| |] eqn:S; try discriminate. injection E as _ <-. eauto.
    - destruct (reg_step m p) as [[m1 r]| |] eqn:S; try discriminate. destruct (run reg_step m1 (os ++ [o])) as [rs1 e] eqn:E1. injection E as _ ->.
      destruct (IH _ _ E1) as (rs2 & m2 & r2 & A & B). rewrite A. eauto. }
  destruct X as (rs1 & m1 & r & E1 & E2). specialize (IH _ _ _ T R E1 HT HR). rewrite foldl_app. cbn [foldl].
  assert (K : forall T' R', (Some T = key T' /\ Some R = key R') <-> T' = T /\ R' = R).
  { intros T' R'. unfold key. split.
    - intros [A B]. destruct (g_iface T') eqn:?, (g_iface R') eqn:?; try discriminate. injection A as ->. injection B as ->. split; reflexivity.
    - intros [-> ->]. rewrite HT, HR. split; reflexivity. }
  destruct o as [T' R' f|T' R'|T' R'|T' R' d v|T' R' d v or]; cbn [reg_step] in E2; injection E2 as <- _; try exact IH.
  - rewrite look_register. destruct (decide (T' = T /\ R' = R)) as [D|D].
    + rewrite decide_True by (apply K; exact D). destruct D as [-> ->]. reflexivity.
    + rewrite decide_False by (intros C; apply D, K, C). exact IH.
  - rewrite look_unregister. destruct (decide (T' = T /\ R' = R)) as [D|D].
    + rewrite decide_True by (apply K; exact D). reflexivity.
    + rewrite decide_False by (intros C; apply D, K, C). exact IH.
Qed.
Lemma look_foreign {A} (tbl : list (bty * bty * (A -> A))) : forall (m : registry A) T R, (forall a b, T = bgty a -> R = bgty b -> False) ->
  look (foldl (fun m '(T, R, f) => register m (bgty T) (bgty R) f) m tbl) (Some T) (Some R) = look m (Some T) (Some R).
Proof.
  induction tbl as [|[[a b] f] tbl IH]; intros m T R N; [reflexivity|]. cbn [foldl]. rewrite IH by exact N. rewrite look_register, decide_False; [reflexivity|].
  intros [E1 E2]. cbn in E1, E2. injection E1 as ->. injection E2 as ->. eapply N; reflexivity.
Qed.
Lemma bgty_dec T : {a | T = bgty a} + {forall a, T <> bgty a}.
Proof.
  destruct (List.find (fun a => bool_decide (T = bgty a)) all_bty) as [a|] eqn:F.
  - left. exists a. apply List.find_some in F as [_ F]. exact (proj1 (bool_decide_eq_true _) F).
  - right. intros a E. assert (I : In a all_bty) by (destruct a as [[]| | | |]; cbn; tauto).
    pose proof (List.find_none _ _ F a I) as X. cbn in X. rewrite bool_decide_true in X by exact E. discriminate.
Defined.
Lemma initially_look T R v : g_iface R = false ->
  initially T R v (match look (builtin ff pf oob) (Some T) (Some R) with Some e => if decide (e_from e = T) then if decide (e_to e = R) then Some (e_fn e v) else None else None | None => None end).
Proof.
  intros HR. destruct (bgty_dec T) as [[a ->]|N]; [destruct (bgty_dec R) as [[b ->]|N]|].
  - left. exists a, b. split; [reflexivity|]. split; [reflexivity|]. unfold convert. rewrite into_look. reflexivity.
  - right. assert (F : forall x y, bgty a = bgty x -> R = bgty y -> False) by (intros x y _ E; exact (N y E)). split; [|exact F].
    unfold builtin. rewrite look_foreign by exact F. reflexivity.
  - right. assert (F : forall x y, T = bgty x -> R = bgty y -> False) by (intros x y E _; exact (N x E)). split; [|exact F].
    unfold builtin. rewrite look_foreign by exact F. reflexivity.
Qed.

(** C153: whatever a program registers and removes - also for interface types - a call of
    Into or Exists for two types that are not interfaces answers with the converter the
    program registered last for that very pair; with none if it removed it later; and
    otherwise with the one of init.go.  The converters of init.go can be replaced and
    removed, and nothing that is registered for another pair disturbs them *)
Theorem registry_over_builtin os rs m T R v : run reg_step (builtin ff pf oob) os = (rs, Ret m) -> g_iface T = false -> g_iface R = false ->
  (match last_change T R os with
   | Registered f => into m T R (Some T) v = Some (f v) /\ exists_conv m T R = true
   | Removed => into m T R (Some T) v = None /\ exists_conv m T R = false
   | Untouched => initially T R v (into m T R (Some T) v) /\ (exists_conv m T R = true <-> is_Some (into m T R (Some T) v))
   end) /\
  forall or, into_or m T R (Some T) v or = default or (into m T R (Some T) v).
Proof.
  intros E HT HR. pose proof (look_after _ _ _ _ T R E HT HR) as L. split; [|intros or; unfold into_or; destruct (into m T R (Some T) v); reflexivity].
  rewrite into_look, exists_look, (key_concrete T), (key_concrete R), L by assumption.
  destruct (last_change T R os) as [f| |]; cbn [e_from e_to e_fn].
  - rewrite !decide_True by reflexivity. split; reflexivity.
  - split; reflexivity.
  - split; [apply initially_look; exact HR|].
    assert (RT : reg_typed (builtin ff pf oob)).
    { unfold builtin. assert (G : forall tbl (m0 : registry bval), reg_typed m0 -> reg_typed (foldl (fun m '(T, R, f) => register m (bgty T) (bgty R) f) m0 tbl)).
      { induction tbl as [|[[a b] f] tbl IH]; intros m0 H0; [exact H0|]. cbn [foldl]. apply IH. eapply (reg_typed_step m0 (ORegister (bgty a) (bgty b) f)); [exact H0|reflexivity]. }
      apply G. intros a b e F. discriminate F. }
    destruct (look (builtin ff pf oob) (Some T) (Some R)) as [e|] eqn:LB; [|split; [discriminate|intros [? ?]; discriminate]].
    destruct (RT _ _ _ LB) as [A B]. unfold key in A, B. destruct (g_iface (e_from e)); [discriminate|]. destruct (g_iface (e_to e)); [discriminate|]. injection A as ->. injection B as ->.
    rewrite !decide_True by reflexivity. split; [eauto|reflexivity].
Qed.
(** a program that replaces the converter from int64 to string, removes the one from bool to
    string, and adds one for an interface type and one for a type of its own *)
Definition own_ops : list (rop bval) :=
  [ORegister (bgty (BNum I64)) (bgty BStr) (fun _ => VStr [63]); OUnregister (bgty BBool) (bgty BStr);
   ORegister (GTy 17 true) (bgty BStr) (fun v => v); ORegister (bgty BBytes) HexString (fun v => v)].
Example registry_over_builtin_ex :
  last_change (bgty (BNum I64)) (bgty BStr) own_ops = Registered (fun _ => VStr [63]) /\ last_change (bgty BBool) (bgty BStr) own_ops = Removed /\
  last_change (bgty BStr) (bgty BBool) own_ops = Untouched /\ last_change (bgty BStr) HexString own_ops = Untouched /\
  exists rs m, run reg_step (builtin ff pf oob) own_ops = (rs, Ret m) /\ into m (bgty BStr) (bgty BBool) (Some (bgty BStr)) (VStr [116]) = Some (VBool true) /\
    into m (bgty BStr) HexString (Some (bgty BStr)) (VStr [116]) = None.
Proof. repeat (split; [reflexivity|]). eexists _, _. split; [reflexivity|]. split; reflexivity. Qed.

(** C154: what test/main.go prints, whatever the random bytes: 123456, true, 5678, the bytes
    as two hexadecimal digits each, and true true *)
Definition hex_alphabet : list Z := [48; 49; 50; 51; 52; 53; 54; 55; 56; 57; 97; 98; 99; 100; 101; 102].
Theorem demo_output buf : Forall is_byte buf -> exists h,
  demo ff pf oob buf = [49; 50; 51; 52; 53; 54; 10; 116; 114; 117; 101; 10; 53; 54; 55; 56; 10] ++ h ++ [10; 116; 114; 117; 101; 32; 116; 114; 117; 101; 10] /\
  length h = (2 * length buf)%nat /\
  forall i b, buf !! i = Some b -> exists x y, b = 16 * Z.of_nat x + Z.of_nat y /\ h !! (2 * i)%nat = hex_alphabet !! x /\ h !! (2 * i + 1)%nat = hex_alphabet !! y /\ (x < 16)%nat /\ (y < 16)%nat.
Proof.
  intros B. exists (hex_encode buf). split; [|split].
  - unfold demo, into_or.
    change (into (builtin ff pf oob) (bgty (BNum I64)) (bgty BStr) (Some (bgty (BNum I64))) (VInt 123456)) with (convert ff pf oob (BNum I64) BStr (VInt 123456)).
    change (into (builtin ff pf oob) (bgty BBool) (bgty BStr) (Some (bgty BBool)) (VBool true)) with (convert ff pf oob BBool BStr (VBool true)).
    change (into (builtin ff pf oob) (bgty BStr) (bgty (BNum I32)) (Some (bgty BStr)) (VStr [53; 54; 55; 56])) with (convert ff pf oob BStr (BNum I32) (VStr [53; 54; 55; 56])).
    rewrite convert_num_str, convert_str_num, (proj1 (convert_others ff pf oob)). rewrite (into_look (register _ _ _ _) (bgty BBytes)), look_register.
    rewrite decide_True by (split; reflexivity). cbn [e_from e_to e_fn]. rewrite !decide_True by reflexivity.
    rewrite (into_look (register _ _ _ _) (bgty (BNum I64))), look_register. rewrite decide_False by (intros [X _]; discriminate X).
    rewrite <- into_look. change (into (builtin ff pf oob) (bgty (BNum I64)) (bgty BBool) (Some (bgty (BNum I64))) (VInt 1)) with (convert ff pf oob (BNum I64) BBool (VInt 1)).
    rewrite convert_num_bool. cbn [println operand pair_bool conv_to_string nty_ity signed conv_from_string conv_to_bool]. 
    replace (int_to_string 123456) with [49; 50; 51; 52; 53; 54] by reflexivity. rewrite <- !app_assoc. reflexivity.
  - clear B. unfold hex_encode. induction buf as [|b buf IH]; [reflexivity|]. cbn [flat_map app length]. rewrite IH. lia.
  - intros i. revert buf B. induction i as [|i IH]; intros buf B b L; destruct buf as [|b0 buf]; try discriminate; apply Forall_cons in B as [B1 B2].
    + injection L as ->. unfold is_byte in B1. assert (D : forall n, 0 <= n < 16 -> Some (hex_digit n) = hex_alphabet !! Z.to_nat n).
      { intros n Hn. assert (X : n ∈ seqZ 0 16) by (apply elem_of_seqZ; lia). revert X. change (seqZ 0 16) with [0;1;2;3;4;5;6;7;8;9;10;11;12;13;14;15]. rewrite !elem_of_cons, elem_of_nil. clear. intros X. repeat destruct X as [->|X]; [reflexivity..|destruct X]. }
      pose proof (Z.mod_pos_bound b 16 ltac:(lia)). assert (0 <= b / 16 < 16) by (split; [apply Z.div_pos; lia|apply Z.div_lt_upper_bound; lia]).
      exists (Z.to_nat (b / 16)), (Z.to_nat (b mod 16)). rewrite !Z2Nat.id by lia. split; [apply Z.div_mod; lia|]. cbn [hex_encode flat_map app Nat.mul Nat.add lookup list_lookup]. rewrite <- !D by lia. repeat split; lia.
    + destruct (IH buf B2 b L) as (x & y & E & X & Y & Hx & Hy). exists x, y. split; [exact E|].
      replace (2 * S i)%nat with (S (S (2 * i))) by lia. replace (S (S (2 * i)) + 1)%nat with (S (S (2 * i + 1))) by lia. split; [exact X|]. split; [exact Y|]. split; assumption.
Qed.
Example demo_ex : demo ff pf oob [0; 171; 255] = [49; 50; 51; 52; 53; 54; 10; 116; 114; 117; 101; 10; 53; 54; 55; 56; 10; 48; 48; 97; 98; 102; 102; 10; 116; 114; 117; 101; 32; 116; 114; 117; 101; 10].
Proof. reflexivity. Qed.
End main.
Print Assumptions registry_over_builtin.
Print Assumptions demo_output.
