From Verif Require Import Base Conc DecModel DecProofs DecProofs2 DecProofs3 DecByteModel.
Local Open Scope Z.

Section proofs.
Context (msg : nat -> list Z).
Definition absw (p : bwpc) : wpc := match p with BW p => p | BCap ts _ | BBytes ts _ _ _ | BHead ts _ _ | BHead1 ts _ _ | BHead2 ts _ _ => WCopy ts end.
Definition absr (p : brpc) : rpc := match p with BR p => p | BLen _ | BLook _ _ _ => RView | BUse _ _ => REmpty end.
Definition dirty (p : bwpc) : option Z := match p with BBytes ts _ _ _ | BHead ts _ _ | BHead1 ts _ _ | BHead2 ts _ _ => Some ts | _ => None end.
Definition bytes (m : bmem) (a n : nat) : list Z := map (b_mem m a) (seq 0 n).
Definition content (m : bmem) (i : Z) : list Z := bytes m (b_ptr m i) (b_hlen m i).
Definition filled (s : bdec) (i : Z) : Prop :=
  (exists t ts, b_w s t = BW (WStore ts) /\ slot (b_d s) ts = i) \/
  (d_lock (b_d s) i <> lock_empty /\ d_lock (b_d s) i <> lock_busy /\ forall a n, b_r s = BUse a n -> i <> slot (b_d s) (d_read (b_d s))).
Definition rview (s : bdec) : Prop :=
  match b_r s with
  | BLen a => a = b_ptr (b_m s) (slot (b_d s) (d_read (b_d s)))
  | BLook a n got => a = b_ptr (b_m s) (slot (b_d s) (d_read (b_d s))) /\ n = b_hlen (b_m s) (slot (b_d s) (d_read (b_d s))) /\ (length got <= n)%nat /\ got = bytes (b_m s) a (length got)
  | BUse a n => a = b_ptr (b_m s) (slot (b_d s) (d_read (b_d s))) /\ n = b_hlen (b_m s) (slot (b_d s) (d_read (b_d s)))
  | BR p => p <> REmpty
  end.
Record minv (s : bdec) (buf : Z -> list Z) (own : Z -> option nat) : Prop := {
  m_inj : forall i j a, own i = Some a -> own j = Some a -> i = j;
  m_lt : forall i a, own i = Some a -> (a < b_next (b_m s))%nat;
  m_hdr : forall i, (forall t ts, dirty (b_w s t) = Some ts -> slot (b_d s) ts <> i) ->
    (b_hlen (b_m s) i <= b_cap (b_m s) i)%nat /\ ((0 < b_cap (b_m s) i)%nat -> own i = Some (b_ptr (b_m s) i) /\ b_cap (b_m s) i = b_size (b_m s) (b_ptr (b_m s) i));
  m_cap : forall t ts a, b_w s t = BCap ts a -> a = b_ptr (b_m s) (slot (b_d s) ts);
  m_bytes : forall t ts a c done, b_w s t = BBytes ts a c done -> own (slot (b_d s) ts) = Some a /\ ((length (msg t) <= c)%nat /\ c = b_size (b_m s) a) /\
    forall j, j ∈ done -> b_mem (b_m s) a j = nth j (msg t) 0;
  m_head : forall t ts a c, b_w s t = BHead ts a c \/ b_w s t = BHead1 ts a c \/ b_w s t = BHead2 ts a c -> own (slot (b_d s) ts) = Some a /\ ((length (msg t) <= c)%nat /\ c = b_size (b_m s) a) /\
    bytes (b_m s) a (length (msg t)) = msg t;
  m_head1 : forall t ts a c, b_w s t = BHead1 ts a c \/ b_w s t = BHead2 ts a c -> b_ptr (b_m s) (slot (b_d s) ts) = a;
  m_head2 : forall t ts a c, b_w s t = BHead2 ts a c -> b_hlen (b_m s) (slot (b_d s) ts) = length (msg t);
  m_some : forall t, b_w s t <> BW WIdle -> b_w s t <> BW WDropped -> msg t <> [];
  m_full : forall i, filled s i -> content (b_m s) i = buf i;
  m_view : rview s }.
Definition with_buf (d : dec) (buf : Z -> list Z) : dec := Dec (d_read d) (d_write d) (d_len d) (d_size d) (d_lock d) buf.
Definition sim (c : cdec) (s : bdec) : Prop :=
  exists buf own, c_d c = with_buf (b_d s) buf /\ (forall t, c_w c t = absw (b_w s t)) /\ c_r c = absr (b_r s) /\ minv s buf own.

Lemma bytes_ext m m' a a' n : (forall j, (j < n)%nat -> b_mem m a j = b_mem m' a' j) -> bytes m a n = bytes m' a' n.
Proof. intros H. unfold bytes. apply map_ext_in. intros j Hj. apply in_seq in Hj. apply H. lia. Qed.
Lemma bytes_nth (l : list Z) m a : (forall j, (j < length l)%nat -> b_mem m a j = nth j l 0) -> bytes m a (length l) = l.
Proof.
  intros H. apply (nth_ext _ _ 0 0); [unfold bytes; rewrite map_length, seq_length; reflexivity|]. intros j Hj. unfold bytes in *. rewrite map_length, seq_length in Hj.
  rewrite (nth_indep _ 0 (b_mem m a 0)) by (rewrite map_length, seq_length; exact Hj). rewrite map_nth, seq_nth by exact Hj. apply H. exact Hj.
Qed.
Lemma bytes_snoc m a n : bytes m a n ++ [b_mem m a n] = bytes m a (S n).
Proof. unfold bytes. rewrite seq_S, map_app. reflexivity. Qed.

(** steps that leave the memory alone *)
Lemma minv_frame s s' buf own : minv s buf own -> b_m s' = b_m s -> d_size (b_d s') = d_size (b_d s) ->
  (forall t, b_w s' t = b_w s t \/ ((exists p, b_w s' t = BW p) /\ exists p, b_w s t = BW p)) ->
  (forall t, b_w s' t <> BW WIdle -> b_w s' t <> BW WDropped -> msg t <> []) ->
  (forall i, filled s' i -> filled s i) -> rview s' -> minv s' buf own.
Proof.
  intros [M1 M2 M3 M4 M5 M6 M7 M8 M9 M10 M11] EM ES EW HN HF HV. assert (SL : forall ts, slot (b_d s') ts = slot (b_d s) ts) by (intros; unfold slot; rewrite ES; reflexivity).
  assert (EW' : forall t p, b_w s' t = p -> (forall q, p <> BW q) -> b_w s t = p) by (intros t p H N; destruct (EW t) as [E|[[q E] _]]; [congruence|exfalso; apply (N q); congruence]).
  assert (ED : forall t, dirty (b_w s' t) = dirty (b_w s t)) by (intros t; destruct (EW t) as [->|[[q ->] [q' ->]]]; reflexivity).
  constructor; rewrite ?EM; try assumption.
  - intros i H. apply M3. intros t ts H1. rewrite <- SL. apply (H t). rewrite ED. exact H1.
  - intros t ts a H. rewrite SL. apply (M4 t). apply EW'; [exact H|discriminate].
  - intros t ts a c done H. rewrite SL. apply M5. apply EW'; [exact H|discriminate].
  - intros t ts a c H. rewrite SL. apply M6. destruct H as [H|[H|H]]; apply EW' in H; try discriminate; tauto.
  - intros t ts a c H. rewrite SL. apply (M7 t ts a c). destruct H as [H|H]; apply EW' in H; try discriminate; tauto.
  - intros t ts a c H. rewrite SL. apply (M8 t ts a c). apply EW'; [exact H|discriminate].
  - intros i H. apply M10, HF, H.
Qed.
Ltac ts := repeat match goal with
  | |- context [tset _ ?t _ ?u] => destruct (decide (u = t)) as [->|]; [rewrite ?tset_eq in *|rewrite ?tset_ne in * by assumption]
  | H : context [tset _ ?t _ ?u] |- _ => destruct (decide (u = t)) as [->|]; [rewrite ?tset_eq in *|rewrite ?tset_ne in * by assumption]
  end.
Lemma zset_eq {A} (f : Z -> A) i a : zset f i a i = a.
Proof. unfold zset. rewrite Z.eqb_refl. reflexivity. Qed.
Lemma zset_ne {A} (f : Z -> A) i a j : j <> i -> zset f i a j = f j.
Proof. intros H. unfold zset. apply Z.eqb_neq in H. rewrite H. reflexivity. Qed.

(** what [DecProofs2.cinv] says about who uses which slot *)
Definition excl (s : bdec) : Prop :=
  (forall t t' ts ts', holder (absw (b_w s t)) = Some ts -> holder (absw (b_w s t')) = Some ts' -> slot (b_d s) ts = slot (b_d s) ts' -> t = t') /\
  (forall t ts, holder (absw (b_w s t)) = Some ts -> d_lock (b_d s) (slot (b_d s) ts) = lock_busy) /\
  (absr (b_r s) = RView \/ absr (b_r s) = REmpty -> d_lock (b_d s) (slot (b_d s) (d_read (b_d s))) <> lock_empty /\ d_lock (b_d s) (slot (b_d s) (d_read (b_d s))) <> lock_busy).
Lemma sim_excl size tr c s : cinv msg size tr c -> sim c s -> excl s.
Proof.
  intros I (buf & own & E1 & E2 & E3 & _). destruct c as [dc wc rc]. cbn [c_d c_w c_r] in *. subst dc rc. split; [|split].
  - intros t t' ts ts'. rewrite <- !E2. exact (v_one _ _ _ _ I t t' ts ts').
  - intros t ts. rewrite <- !E2. exact (v_busy _ _ _ _ I t ts).
  - exact (v_view _ _ _ _ I).
Qed.
Lemma dirty_holder p ts : dirty p = Some ts -> holder (absw p) = Some ts.
Proof. destruct p; cbn; congruence. Qed.
(** the slot that a writer is copying to is not filled, and nobody else dirties it *)
Lemma not_filled s t ts i : excl s -> holder (absw (b_w s t)) = Some ts -> b_w s t <> BW (WStore ts) -> filled s i -> slot (b_d s) ts <> i.
Proof.
  intros (X1 & X2 & X3) H N F <-. destruct F as [(t' & ts' & H' & E)|(F1 & F2 & _)].
  - assert (t' = t) by (apply (X1 t' t ts' ts); [rewrite H'; reflexivity|exact H|exact E]). subst t'. rewrite H' in H, N. cbn in H. congruence.
  - exact (F2 (X2 _ _ H)).
Qed.
Lemma clean s i t0 ts0 : excl s -> holder (absw (b_w s t0)) = Some ts0 -> dirty (b_w s t0) = None -> slot (b_d s) ts0 = i ->
  forall t ts, dirty (b_w s t) = Some ts -> slot (b_d s) ts <> i.
Proof. intros (X1 & _) H D <- t ts H' E. assert (t = t0) by (eapply X1; [apply dirty_holder; exact H'|exact H|exact E]). subst. congruence. Qed.
Lemma filled_clean s i : excl s -> filled s i -> forall t ts, dirty (b_w s t) = Some ts -> slot (b_d s) ts <> i.
Proof. intros X F t ts D. eapply not_filled; [exact X|apply dirty_holder; exact D| |exact F]. intros E. rewrite E in D. discriminate. Qed.
Lemma view_clean s : excl s -> absr (b_r s) = RView \/ absr (b_r s) = REmpty -> forall t ts, dirty (b_w s t) = Some ts -> slot (b_d s) ts <> slot (b_d s) (d_read (b_d s)).
Proof. intros (X1 & X2 & X3) H t ts D E. destruct (X3 H) as [_ B]. apply B. rewrite <- E. apply (X2 t). apply dirty_holder, D. Qed.
(** the bytes of a clean slot's slice do not change when another array's do *)
Lemma bytes_frame s buf own i a j v n k : minv s buf own -> (forall t ts, dirty (b_w s t) = Some ts -> slot (b_d s) ts <> i) -> own k = Some a -> k <> i -> (n <= b_hlen (b_m s) i)%nat ->
  bytes (set_byte (b_m s) a j v) (b_ptr (b_m s) i) n = bytes (b_m s) (b_ptr (b_m s) i) n.
Proof.
  intros M C O N L. apply bytes_ext. intros q Hq. cbn [set_byte b_mem]. destruct (decide (b_ptr (b_m s) i = a /\ q = j)) as [[E _]|]; [|reflexivity]. exfalso. apply N.
  destruct (m_hdr _ _ _ M i C) as [H1 H2]. apply (m_inj _ _ _ M k i a O). rewrite <- E. apply H2. lia.
Qed.
End proofs.
