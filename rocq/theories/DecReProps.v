(** C113, C114: callbacks that use their decoupler. *)
From Verif Require Import Base DecModel DecProofs DecReModel DecReProofs.
Local Open Scope Z.

(** C113.  Whatever the callbacks do, as long as no view calls Next and the queue is not
    written to at fewer than size - 1 messages after a drop, the decoupler is the
    ideal queue: same messages in the same order, same drops, same results, and the
    slice a view was given reads the same when the view returns. *)
Theorem decoupler_callbacks_partial drop size fuel p s n : 0 < size < 2^64 ->
  ideal_exec drop size fuel false ideal_new p = Some (s, n) -> i_writes s * size <= 2^64 - 2 ->
  exists d f0, forall f, (f0 <= f)%nat -> exec drop f (new_decoupler size) [] p = Ret (d, i_tr s, n).
Proof.
  intros Hs H B. destruct (exec_ideal drop size fuel false _ p s n _ 0 0 H (irel_new size Hs) B) as (d & T & R & _ & _ & f0 & F).
  exists d, f0. exact F.
Qed.
Print Assumptions decoupler_callbacks_partial.
(** a view that answers the message it is given *)
Definition echo (k : dprog) : dprog := PWrite [1] (fun _ => PNext (fun b => PWrite (b ++ [7]) (fun _ => PRet 0)) (fun _ => k)).
Example echo_ex : option_map (fun r => i_tr r.1) (ideal_exec (fun _ => PRet 0) 2 10 false ideal_new (echo (PNext (fun _ => PRet 0) (fun _ => PRet 0)))) =
  Some [EStored [1]; EView [1]; EStored [1; 7]; EViewed [1]; ENext true; EView [1; 7]; EViewed [1; 7]; ENext true].
Proof. reflexivity. Qed.

(** It is not true that a view may call Next: it is shown the same message again, and the
    next call of Next never returns. *)
Definition next_in_view (k : dprog) : dprog :=
  PWrite [1] (fun _ => PNext (fun _ => PNext (fun _ => PRet 0) (fun _ => PRet 0)) (fun _ => k)).
Lemma exec_hang drop f d tr v k : d_len d <> 0 -> d_size d <> 0 -> d_lock d (d_read d mod d_size d) = lock_empty -> exec drop f d tr (PNext v k) = Spin.
Proof.
  intros H1 H2 H3. destruct f as [|f]; [reflexivity|]. cbn [exec]. apply Z.eqb_neq in H1, H2. rewrite H1, H2. cbv zeta.
  rewrite wait_empty by exact H3. reflexivity.
Qed.
Theorem decoupler_next_in_view_refuted :
  (exists d, forall f, exec (fun _ => PRet 0) (6 + f) (new_decoupler 1) [] (next_in_view (PRet 0)) =
     Ret (d, [EStored [1]; EView [1]; EView [1]; EViewed [1]; ENext true; EViewed [1]; ENext true], 0)) /\
  forall f, exec (fun _ => PRet 0) f (new_decoupler 1) [] (next_in_view (PNext (fun _ => PRet 0) (fun _ => PRet 0))) = Spin.
Proof.
  set (d3 := Dec 2 0 (2^64 - 1) 1 (zset (zset (zset (fun _ => lock_empty) 0 0) 0 lock_empty) 0 lock_empty) (zset (fun _ => []) 0 [1])).
  assert (E : forall f k, exec (fun _ => PRet 0) (5 + f) (new_decoupler 1) [] (next_in_view k) =
    exec (fun _ => PRet 0) (3 + f) d3 [EStored [1]; EView [1]; EView [1]; EViewed [1]; ENext true; EViewed [1]; ENext true] k).
  { intros f k. reflexivity. }
  split.
  - exists d3. intros f. rewrite (E (S f)). reflexivity.
  - intros f. do 5 (destruct f as [|f]; [reflexivity|]). rewrite (E f). apply exec_hang; [discriminate|discriminate|reflexivity].
Qed.
Print Assumptions decoupler_next_in_view_refuted.

(** It is not true that drop may write the message again: on a full decoupler that never
    returns. *)
Theorem decoupler_drop_retry_refuted d b tr k f : b <> [] -> 0 < d_size d -> d_len d = d_size d ->
  (forall i, 0 <= i < d_size d -> d_lock d i <> lock_empty /\ d_lock d i <> lock_busy) ->
  exec (fun b => PWrite b (fun n => PRet n)) f d tr (PWrite b k) = Spin.
Proof.
  intros Hb Hs Hl F. revert d tr k Hs Hl F. induction f as [|f IH]; intros d tr k Hs Hl F; [reflexivity|]. cbn [exec].
  destruct f as [|f]; [destruct b; [congruence|reflexivity]|].
  assert (E : exists d', dec_write (S f) d b = Ret (d', DDropped b) /\ d_lock d' = d_lock d /\ d_len d' = d_len d /\ d_size d' = d_size d).
  { unfold dec_write. destruct b as [|x b]; [congruence|]. cbn [write_loop d_size d_read d_write d_len d_lock d_buf].
    destruct (Z.eqb_spec (d_size d) 0); [lia|]. destruct (F (u64 (d_write d + 1) mod d_size d)) as [F1 F2]; [apply Z.mod_pos_bound; lia|].
    apply Z.eqb_neq in F1, F2. rewrite F1, F2, Hl, Z.eqb_refl. cbn [negb andb]. eexists. repeat split. }
  destruct E as (d' & E & E1 & E2 & E3). rewrite E. cbn [rbind]. rewrite IH by (rewrite ?E1, ?E2, ?E3; assumption). reflexivity.
Qed.
Print Assumptions decoupler_drop_retry_refuted.
Example full_ex : let d := Dec 0 0 1 1 (zset (fun _ => lock_empty) 0 0) (zset (fun _ => []) 0 [1]) in
  dec_write 1 (new_decoupler 1) [1] = Ret (d, DStored 1) /\ d_len d = d_size d /\
  forall i, 0 <= i < d_size d -> d_lock d i <> lock_empty /\ d_lock d i <> lock_busy.
Proof.
  split; [reflexivity|]. split; [reflexivity|]. intros i Hi. cbn [d_size] in Hi. assert (i = 0) as -> by lia. split; discriminate.
Qed.

(** C114.  A drop function that throws away the oldest message and writes the new one
    again makes the decoupler a bounded queue that keeps the newest messages, for
    ever in order (compare C66, where a drop spoils the order of what follows). *)
Definition drop_oldest (b : list Z) : dprog := PNext (fun _ => PRet 0) (fun _ => PWrite b (fun n => PRet n)).
(** what a history of calls should show: q are the messages waiting *)
Fixpoint newest (size : Z) (q : list (list Z)) (os : list dop) : list devent :=
  match os with
  | [] => []
  | OWrite b :: os =>
      if decide (Z.of_nat (length q) < size) then EStored b :: newest size (q ++ [b]) os
      else match q with
           | [] => []
           | m :: q => [EDrop b; EView m; EViewed m; ENext true; EStored b] ++ newest size (q ++ [b]) os
           end
  | ONext :: os =>
      match q with
      | [] => ENext false :: newest size q os
      | m :: q => [EView m; EViewed m; ENext true] ++ newest size q os
      end
  end.
Fixpoint calls (os : list dop) : dprog :=
  match os with
  | [] => PRet 0
  | OWrite b :: os => PWrite b (fun _ => calls os)
  | ONext :: os => PNext (fun _ => PRet 0) (fun _ => calls os)
  end.
Lemma newest_ideal size os : 0 < size -> forall q w tr, (forall b, OWrite b ∈ os -> b <> []) -> Z.of_nat (length q) <= size ->
  exists fuel s, ideal_exec drop_oldest size fuel false (Id q true w tr) (calls os) = Some (s, 0) /\ i_tr s = tr ++ newest size q os /\
    i_writes s <= w + 2 * writes os.
Proof.
  intros Hs. induction os as [|o os IH]; intros q w tr Hn Hq.
  - exists 1%nat, (Id q true w tr). split; [reflexivity|]. cbn. rewrite app_nil_r. split; [reflexivity|]. unfold writes. cbn. lia.
  - assert (Hn' : forall b, OWrite b ∈ os -> b <> []) by (intros b Hb; apply Hn; right; exact Hb).
    rewrite writes_cons. destruct o as [b|].
    + assert (Hb : b <> []) by (apply Hn; left). replace (match b with [] => 0 | _ :: _ => 1 end) with 1 by (destruct b; [congruence|reflexivity]).
      cbn [newest calls]. destruct (decide (Z.of_nat (length q) < size)) as [L|L].
      * destruct (IH (q ++ [b]) (w + 1) (tr ++ [EStored b]) Hn') as (f & s & E1 & E2 & E3); [rewrite app_length; cbn [length]; lia|].
        exists (S f), s. split; [|split; [rewrite E2, <- (assoc_L (++)); reflexivity|lia]].
        cbn [ideal_exec i_q i_al i_writes i_tr]. rewrite (decide_False (P := b = [])) by exact Hb. rewrite decide_False by lia. cbn [orb mbind option_bind fst snd]. exact E1.
      * destruct q as [|m q]; [cbn in L; lia|]. cbn [length] in *.
        destruct (IH (q ++ [b]) (w + 1 + 1) (tr ++ [EDrop b; EView m; EViewed m; ENext true; EStored b]) Hn') as (f & s & E1 & E2 & E3);
          [rewrite app_length; cbn [length]; lia|].
        exists (S (Nat.max 4 f)), s. split; [|split; [rewrite E2, <- (assoc_L (++)); reflexivity|lia]].
        cbn [ideal_exec]. apply bind_Some. rewrite (decide_False (P := b = [])) by exact Hb. rewrite decide_True by (cbn [i_q length]; lia).
        eexists. split.
        -- apply (ideal_fuel _ _ 4); [|lia]. unfold drop_oldest. cbn [ideal_exec i_q i_al i_writes i_tr emit]. cbn [mbind option_bind fst snd i_q i_al i_writes i_tr tail].
           rewrite (decide_False (P := b = [])) by exact Hb. cbn [emit i_q i_al i_writes i_tr tail]. rewrite decide_False by lia. rewrite bool_decide_eq_true_2 by lia. cbn [orb mbind option_bind fst snd]. reflexivity.
        -- cbn [fst snd]. apply (ideal_fuel _ _ f); [|lia]. rewrite <- !(assoc_L (++)). cbn [app]. rewrite <- ?(assoc_L (++)). exact E1.
    + cbn [newest calls]. destruct q as [|m q].
      * destruct (IH [] w (tr ++ [ENext false]) Hn' Hq) as (f & s & E1 & E2 & E3).
        exists (S f), s. split; [exact E1|]. split; [rewrite E2, <- (assoc_L (++)); reflexivity|lia].
      * destruct (IH q w (tr ++ [EView m; EViewed m; ENext true]) Hn') as (f & s & E1 & E2 & E3); [cbn [length] in Hq; lia|].
        exists (S (Nat.max 1 f)), s. split; [|split; [rewrite E2, <- (assoc_L (++)); reflexivity|lia]].
        cbn [ideal_exec i_q]. apply bind_Some. eexists. split; [apply (ideal_fuel _ _ 1); [reflexivity|lia]|].
        cbn [fst snd emit i_q i_al i_writes i_tr tail]. apply (ideal_fuel _ _ f); [|lia]. rewrite <- !(assoc_L (++)). cbn [app]. exact E1.
Qed.
Theorem decoupler_drop_oldest size os : 0 < size < 2^64 -> (forall b, OWrite b ∈ os -> b <> []) -> 2 * writes os * size <= 2^64 - 2 ->
  exists d f0, forall f, (f0 <= f)%nat -> exec drop_oldest f (new_decoupler size) [] (calls os) = Ret (d, newest size [] os, 0).
Proof.
  intros Hs Hn B. destruct (newest_ideal size os ltac:(lia) [] 0 [] Hn ltac:(cbn; lia)) as (fuel & s & E & T & W).
  destruct (decoupler_callbacks_partial _ size fuel _ s 0 Hs E ltac:(nia)) as (d & f0 & F).
  exists d, f0. intros f Hf. rewrite F by exact Hf. rewrite T. reflexivity.
Qed.
Print Assumptions decoupler_drop_oldest.
Example drop_oldest_ex : newest 2 [] [OWrite [1]; OWrite [2]; OWrite [3]; ONext; OWrite [4]; OWrite [5]; ONext; ONext; ONext] =
  [EStored [1]; EStored [2]; EDrop [3]; EView [1]; EViewed [1]; ENext true; EStored [3]; EView [2]; EViewed [2]; ENext true; EStored [4];
   EDrop [5]; EView [3]; EViewed [3]; ENext true; EStored [5]; EView [4]; EViewed [4]; ENext true; EView [5]; EViewed [5]; ENext true; ENext false].
Proof. reflexivity. Qed.
