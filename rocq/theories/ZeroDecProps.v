(** A Decoupler declared with var, without NewDecoupler (C169). *)
From Verif Require Import Base DecModel ZeroDecModel.
Local Open Scope Z.

Definition nonempty (o : dop) : bool := match o with OWrite (_ :: _) => true | _ => false end.
(** every Write panics, every Next answers false; only the write counter moves *)
Theorem decoupler_zero :
  forall (fuel : nat) (os : list dop),
    ideal_run (z0_step fuel) dec_zero os =
    (map (fun o => match o with OWrite _ => Panic | ONext => Ret (DNext None) end) os,
     Dec 0 (u64 (Z.of_nat (length (List.filter nonempty os)))) 0 0 (fun _ => 0) (fun _ => [])).
Proof.
  intros fuel os.
  assert (G : forall n, ideal_run (z0_step fuel) (Dec 0 (u64 (Z.of_nat n)) 0 0 (fun _ => 0) (fun _ => [])) os =
    (map (fun o => match o with OWrite _ => Panic | ONext => Ret (DNext None) end) os,
     Dec 0 (u64 (Z.of_nat (length (List.filter nonempty os) + n))) 0 0 (fun _ => 0) (fun _ => [])));
    [|specialize (G 0%nat); rewrite Nat.add_0_r in G; exact G].
  induction os as [|o os IH]; intros n; [reflexivity|]. cbn [ideal_run map List.filter].
  destruct o as [[|x b]|]; cbn [nonempty length].
  - change (z0_step fuel ?d (OWrite [])) with (d, @Panic dret). cbv beta iota. rewrite IH. reflexivity.
  - change (z0_step fuel ?d (OWrite (x :: b))) with (Dec (d_read d) (u64 (d_write d + 1)) (d_len d) (d_size d) (d_lock d) (d_buf d), @Panic dret).
    cbv beta iota. cbn [d_read d_write d_len d_size d_lock d_buf].
    replace (u64 (u64 (Z.of_nat n) + 1)) with (u64 (Z.of_nat (S n))).
    + rewrite IH. rewrite Nat.add_succ_r. reflexivity.
    + unfold u64. rewrite Nat2Z.inj_succ, <- Z.add_1_r. symmetry. apply Z.add_mod_idemp_l. lia.
  - change (z0_step fuel ?d ONext) with (d, Ret (DNext None)). cbv beta iota. rewrite IH. reflexivity.
Qed.
Print Assumptions decoupler_zero.
Example decoupler_zero_case : (ideal_run (z0_step 3) dec_zero [OWrite [1]; ONext; OWrite []; OWrite [2]]).1 = [Panic; Ret (DNext None); Panic; Panic].
Proof. reflexivity. Qed.
