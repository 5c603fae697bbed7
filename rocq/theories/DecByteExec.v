(** The byte-wise decoupler as a function, for examples: bytes are copied in order, a new
    array is as large as the message, and callbacks do not write. *)
From Verif Require Import Base Conc DecModel DecProofs3 DecByteModel.
Local Open Scope Z.

Section exec.
Context (msg : nat -> list Z).
Definition bexec (s : bdec) (m : dmove) : option (dlab * bdec) :=
  let d := b_d s in let mm := b_m s in let w := b_w s in let r := b_r s in
  match m with
  | MW t =>
    let to l d mm p := Some (l, BD d mm (tset w t p) r) in
    match w t with
    | BW WIdle => if decide (msg t = []) then to (LDrop t) d mm (BW WDropped) else to (LWrite t) d mm (BW WAdd)
    | BW WAdd => to (LAdd t) (Dec (d_read d) (u64 (d_write d + 1)) (d_len d) (d_size d) (d_lock d) (d_buf d)) mm (BW (WLoad (u64 (d_write d + 1))))
    | BW (WLoad ts) => if decide (d_lock d (slot d ts) = lock_empty) then to LDTau d mm (BW (WCas ts)) else
        if decide (d_lock d (slot d ts) = lock_busy) then to LDTau d mm (BW WAdd) else to LDTau d mm (BW WCheck)
    | BW (WCas ts) => if decide (d_lock d (slot d ts) = lock_empty) then to LDTau (with_lock d (slot d ts) lock_busy) mm (BW (WCopy ts)) else to LDTau d mm (BW WAdd)
    | BW (WCopy ts) => to LDTau d mm (BCap ts (b_ptr mm (slot d ts)))
    | BCap ts a => if decide (length (msg t) <= b_cap mm (slot d ts))%nat then to LDTau d mm (BBytes ts a (b_cap mm (slot d ts)) []) else to LDTau d (alloc mm (length (msg t))) (BBytes ts (b_next mm) (length (msg t)) [])
    | BBytes ts a c done => if decide (done = rev (seq 0 (length (msg t)))) then to LDTau d mm (BHead ts a c) else
        if decide (length done < length (msg t))%nat then to LDTau d (set_byte mm a (length done) (nth (length done) (msg t) 0)) (BBytes ts a c (length done :: done)) else None
    | BHead ts a c => to LDTau d (set_ptr mm (slot d ts) a) (BHead1 ts a c)
    | BHead1 ts a c => to LDTau d (set_hlen mm (slot d ts) (length (msg t))) (BHead2 ts a c)
    | BHead2 ts a c => to LDTau d (set_cap mm (slot d ts) c) (BW (WStore ts))
    | BW (WStore ts) => to (LPublish t) (with_lock d (slot d ts) ts) mm (BW WLen)
    | BW WLen => to (LStored t) (Dec (d_read d) (d_write d) (u64 (d_len d + 1)) (d_size d) (d_lock d) (d_buf d)) mm (BW WStored)
    | BW WCheck => if decide (d_len d = d_size d) then to (LDrop t) d mm (BW WDropped) else to LDTau d mm (BW WAdd)
    | BW _ => None
    end
  | MR =>
    let to l d r := Some (l, BD d mm w r) in
    match r with
    | BR RIdle => if decide (d_len d = 0) then to (LNext false) d (BR RIdle) else to LDTau d (BR RWait)
    | BR RWait => if decide (d_lock d (slot d (d_read d)) = lock_empty \/ d_lock d (slot d (d_read d)) = lock_busy) then None else to LDTau d (BR RView)
    | BR RView => to LDTau d (BLen (b_ptr mm (slot d (d_read d))))
    | BLen a => to LDTau d (BLook a (b_hlen mm (slot d (d_read d))) [])
    | BLook a n got => if decide (length got = n) then to (LView got) d (BUse a n) else if decide (length got < n)%nat then to LDTau d (BLook a n (got ++ [b_mem mm a (length got)])) else None
    | BUse a n => to LDTau (with_lock d (slot d (d_read d)) lock_empty) (BR RDec)
    | BR RDec => to (LNext true) (Dec (u64 (d_read d + 1)) (d_write d) (u64 (d_len d + (2^64 - 1))) (d_size d) (d_lock d) (d_buf d)) (BR RIdle)
    | BR _ => None
    end
  end.
Lemma bexec_step s m l s' : bexec s m = Some (l, s') -> b_step msg s l s'.
Proof.
  destruct s as [d mm w r]. destruct m as [t|]; cbn [bexec b_d b_m b_w b_r].
  - destruct (w t) as [[| |ts|ts|ts|ts| | | |]|ts a|ts a c done|ts a c|ts a c|ts a c] eqn:W; repeat case_decide; intros [= <- <-]; try (econstructor; eassumption).
    + eapply bs_grow; [exact W|lia].
    + eapply bs_copied; [exact W|]. subst done. intros j Hj. rewrite <- elem_of_list_In || idtac. apply elem_of_list_In. rewrite <- in_rev. apply in_seq. lia.
  - destruct r as [[]|a|a n got|a n]; repeat case_decide; intros [= <- <-]; try (econstructor; eassumption); try (econstructor; tauto).
Qed.
Fixpoint bexecs (s : bdec) (ms : list dmove) : option (list dlab * bdec) :=
  match ms with [] => Some ([], s) | m :: ms =>
    match bexec s m with Some (l, s) => match bexecs s ms with Some (tr, s) => Some (l :: tr, s) | None => None end | None => None end end.
Lemma bexecs_steps ms : forall s tr s', bexecs s ms = Some (tr, s') -> steps (b_step msg) s tr s'.
Proof.
  induction ms as [|m ms IH]; cbn; intros s tr s' H; [injection H as <- <-; constructor|].
  destruct (bexec s m) as [[l s1]|] eqn:E; [|discriminate]. destruct (bexecs s1 ms) as [[tr1 s2]|] eqn:E2; [|discriminate].
  injection H as <- <-. eapply steps_cons; [eapply bexec_step; exact E|apply IH; exact E2].
Qed.
End exec.
