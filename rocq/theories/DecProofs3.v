From Verif Require Import Base Conc DecModel DecProofs DecProofs2.
Local Open Scope Z.

Section conc.
Context (msg : nat -> list Z).
(** *** each call *)
Definition publishers (tr : list dlab) : list nat := omap (fun l => match l with LPublish t => Some t | _ => None end) tr.
Definition droppers (tr : list dlab) : list nat := omap (fun l => match l with LDrop t => Some t | _ => None end) tr.
Lemma published_publishers tr : published msg tr = map msg (publishers tr).
Proof. unfold published, publishers. induction tr as [|l tr IH]; [reflexivity|]. destruct l; cbn; rewrite IH; reflexivity. Qed.
Record finv (tr : list dlab) (s : cdec) : Prop := {
  f_pub : forall t, t ∈ publishers tr <-> c_w s t = WLen \/ c_w s t = WStored;
  f_sto : forall t, t ∈ storers tr <-> c_w s t = WStored;
  f_drop : forall t, t ∈ droppers tr <-> c_w s t = WDropped;
  f_nodup : NoDup (publishers tr);
  f_nodup_drop : NoDup (droppers tr) }.
Ltac ts := repeat match goal with
  | |- context [tset _ ?t _ ?u] => destruct (decide (u = t)) as [->|]; [rewrite ?tset_eq in *|rewrite ?tset_ne in * by assumption]
  end.
Lemma finv_steps size tr s : steps (d_step msg) (d_init size) tr s -> finv tr s.
Proof.
  revert tr s. apply steps_trace_invariant.
  { constructor; cbn; try constructor; try (intros H; inversion H); intros; try (destruct H; discriminate); try discriminate; intuition congruence. }
  intros tr s l s' _ [F1 F2 F3 F4 F5] H.
  assert (N : forall (l : list nat) u, u ∉ l -> NoDup l -> NoDup (l ++ [u])).
  { intros k u Hu Hk. apply NoDup_app. split; [exact Hk|]. split; [|apply NoDup_singleton]. intros v Hv Hv'. apply elem_of_list_singleton in Hv' as ->. tauto. }
  destruct H; cbn [c_w c_d c_r] in *; (constructor; unfold publishers, storers, droppers in *; rewrite ?omap_app; cbn [omap list_omap c_w]; rewrite ?app_nil_r);
    first [assumption
      | intros u; rewrite ?elem_of_app, ?elem_of_list_singleton; first [rewrite F1|rewrite F2|rewrite F3]; ts; intuition congruence
      | apply N; [first [rewrite F1|rewrite F3]; intuition congruence|assumption]].
Qed.

(** *** schedules that can be computed *)
Inductive dmove := MW (t : nat) | MR.
Definition dexec (s : cdec) (m : dmove) : option (dlab * cdec) :=
  let d := c_d s in let w := c_w s in let r := c_r s in
  match m with
  | MW t =>
      match w t with
      | WIdle => match msg t with [] => Some (LDrop t, CD d (tset w t WDropped) r) | _ => Some (LWrite t, CD d (tset w t WAdd) r) end
      | WAdd => Some (LAdd t, CD (Dec (d_read d) (u64 (d_write d + 1)) (d_len d) (d_size d) (d_lock d) (d_buf d)) (tset w t (WLoad (u64 (d_write d + 1)))) r)
      | WLoad ts => if d_lock d (slot d ts) =? lock_empty then Some (LDTau, CD d (tset w t (WCas ts)) r)
                    else if d_lock d (slot d ts) =? lock_busy then Some (LDTau, CD d (tset w t WAdd) r) else Some (LDTau, CD d (tset w t WCheck) r)
      | WCas ts => if d_lock d (slot d ts) =? lock_empty then Some (LDTau, CD (with_lock d (slot d ts) lock_busy) (tset w t (WCopy ts)) r)
                   else Some (LDTau, CD d (tset w t WAdd) r)
      | WCopy ts => Some (LDTau, CD (Dec (d_read d) (d_write d) (d_len d) (d_size d) (d_lock d) (zset (d_buf d) (slot d ts) (msg t))) (tset w t (WStore ts)) r)
      | WStore ts => Some (LPublish t, CD (with_lock d (slot d ts) ts) (tset w t WLen) r)
      | WLen => Some (LStored t, CD (Dec (d_read d) (d_write d) (u64 (d_len d + 1)) (d_size d) (d_lock d) (d_buf d)) (tset w t WStored) r)
      | WCheck => if d_len d =? d_size d then Some (LDrop t, CD d (tset w t WDropped) r) else Some (LDTau, CD d (tset w t WAdd) r)
      | _ => None
      end
  | MR =>
      match r with
      | RIdle => if d_len d =? 0 then Some (LNext false, CD d w RIdle) else Some (LDTau, CD d w RWait)
      | RWait => if d_lock d (slot d (d_read d)) =? lock_empty then None else if d_lock d (slot d (d_read d)) =? lock_busy then None else Some (LDTau, CD d w RView)
      | RView => Some (LView (d_buf d (slot d (d_read d))), CD d w REmpty)
      | REmpty => Some (LDTau, CD (with_lock d (slot d (d_read d)) lock_empty) w RDec)
      | RDec => Some (LNext true, CD (Dec (u64 (d_read d + 1)) (d_write d) (u64 (d_len d + (2^64 - 1))) (d_size d) (d_lock d) (d_buf d)) w RIdle)
      end
  end.
Lemma dexec_step s m l s' : dexec s m = Some (l, s') -> d_step msg s l s'.
Proof.
  destruct s as [d w r]. destruct m as [t|]; cbn [dexec c_d c_w c_r].
  - destruct (w t) eqn:W; try discriminate.
    + destruct (msg t) eqn:M; intros [= <- <-]; [apply ds_write_empty|apply ds_write]; congruence.
    + intros [= <- <-]. apply ds_add. exact W.
    + destruct (Z.eqb_spec (d_lock d (slot d ts)) lock_empty); [intros [= <- <-]; eapply ds_load_empty; eassumption|].
      destruct (Z.eqb_spec (d_lock d (slot d ts)) lock_busy); intros [= <- <-]; [eapply ds_load_busy|eapply ds_load_full]; eassumption.
    + destruct (Z.eqb_spec (d_lock d (slot d ts)) lock_empty); intros [= <- <-]; [apply ds_cas|eapply ds_cas_fail]; eassumption.
    + intros [= <- <-]. apply ds_copy. exact W.
    + intros [= <- <-]. apply ds_store. exact W.
    + intros [= <- <-]. apply ds_len. exact W.
    + destruct (Z.eqb_spec (d_len d) (d_size d)); intros [= <- <-]; [apply ds_drop|apply ds_retry]; assumption.
  - destruct r.
    + destruct (Z.eqb_spec (d_len d) 0); intros [= <- <-]; [apply ds_next_none|apply ds_next]; assumption.
    + destruct (Z.eqb_spec (d_lock d (slot d (d_read d))) lock_empty); [discriminate|]. destruct (Z.eqb_spec (d_lock d (slot d (d_read d))) lock_busy); [discriminate|].
      intros [= <- <-]. apply ds_found; assumption.
    + intros [= <- <-]. apply ds_view.
    + intros [= <- <-]. apply ds_empty.
    + intros [= <- <-]. apply ds_dec.
Qed.
Fixpoint dexecs (s : cdec) (ms : list dmove) : option (list dlab * cdec) :=
  match ms with [] => Some ([], s) | m :: ms =>
    match dexec s m with Some (l, s) => match dexecs s ms with Some (tr, s) => Some (l :: tr, s) | None => None end | None => None end end.
Lemma dexecs_steps ms : forall s tr s', dexecs s ms = Some (tr, s') -> steps (d_step msg) s tr s'.
Proof.
  induction ms as [|m ms IH]; cbn; intros s tr s' H; [injection H as <- <-; constructor|].
  destruct (dexec s m) as [[l s1]|] eqn:E; [|discriminate]. destruct (dexecs s1 ms) as [[tr1 s2]|] eqn:E2; [|discriminate].
  injection H as <- <-. eapply steps_cons; [eapply dexec_step; exact E|apply IH; exact E2].
Qed.
End conc.
(** *** ping-pong, for the wrap of the counter *)
Definition pingpong (b : list Z) (n : nat) : list dop := concat (repeat [OWrite b; ONext] n).
Lemma pingpong_writes b n : b <> [] -> writes (pingpong b n) = Z.of_nat n.
Proof. intros H. induction n as [|n IH]; [reflexivity|]. change (pingpong b (S n)) with (OWrite b :: ONext :: pingpong b n). rewrite !writes_cons, IH. destruct b; [congruence|]. lia. Qed.
Lemma pingpong_good size b n : 0 < size -> b <> [] -> good_history (dq_step size) (dq_fits size) [] (pingpong b n) /\ ideal_state (dq_step size) [] (pingpong b n) = [].
Proof.
  intros Hs H. induction n as [|n [IH1 IH2]]; [split; [exact I|reflexivity]|].
  change (pingpong b (S n)) with (OWrite b :: ONext :: pingpong b n). destruct b as [|x b]; [congruence|].
  assert (E : dq_step size [] (OWrite (x :: b)) = ([x :: b], DStored (Z.of_nat (length (x :: b))))) by (cbn [dq_step length]; destruct (Z.ltb_spec (Z.of_nat 0) size); [reflexivity|lia]).
  split.
  - cbn [good_history]. rewrite E. cbn [fst dq_step]. split; [cbn; lia|]. split; [exact I|]. exact IH1.
  - unfold ideal_state in *. cbn [ideal_run]. rewrite E. cbn [dq_step]. destruct (ideal_run _ [] (pingpong (x :: b) n)) as [rs q]. cbn in *. exact IH2.
Qed.
Lemma pingpong_hangs size b f : 0 < size < 2^64 -> b <> [] ->
  exists rs, run (dec_step (S f)) (new_decoupler size) (pingpong b (Z.to_nat (2^64 - 2)) ++ [OWrite b; ONext]) = (rs, Spin).
Proof.
  intros Hs Hb. remember (Z.to_nat (2^64 - 2)) as n eqn:En. assert (Zn : Z.of_nat n = 2^64 - 2) by (rewrite En; rewrite Z2Nat.id; lia). clear En.
  destruct (pingpong_good size b n ltac:(lia) Hb) as [G1 G2].
  destruct (seq_fifo f (pingpong b n) (new_decoupler size) [] 0 (drel_new size Hs)) as (d & R & E1 & E2 & E3 & E4);
    [rewrite pingpong_writes by exact Hb; cbn [length]; lia|exact G1|].
  cbn [new_decoupler d_size] in *. rewrite G2 in *. rewrite pingpong_writes in E4 by exact Hb. cbn [length] in E4.
  destruct (wrap_hangs f d b R E2 ltac:(lia) Hb) as (rs & E5 & _).
  rewrite run_app, E1, E5. eexists. reflexivity.
Qed.
