(** Properties of optionx, resultx (C41) and optionalx (C43). *)
From Verif Require Import Base FuncModel.

(** C41: exactly one branch, with exactly the stored value: whatever the two
    functions do, Match does what the right one does, panics included. *)
Theorem option_match :
  forall (S T E : Type) (zeroT x : T) (f : T -> proc S (T * E)) (g : proc S (T * E)) (s : S),
    o_match (o_some x) f g s = f x s /\ o_match (o_none zeroT) f g s = g s.
Proof. intros. split; reflexivity. Qed.
Print Assumptions option_match.
Theorem result_match :
  forall (S T E : Type) (zeroT x : T) (zeroE e : E) (f : T -> proc S (T * E)) (g : E -> proc S (T * E)) (s : S),
    r_match (r_mk_ok zeroE x) f g s = f x s /\ r_match (r_mk_err zeroT e) f g s = g e s.
Proof. intros. split; reflexivity. Qed.
Print Assumptions result_match.
(** the calls actually made, recorded by the callbacks *)
Example match_calls :
  let f (x : nat) (log : list nat) := Ret (log ++ [x], (x + 1, false)) in
  let g (log : list nat) := Ret (log ++ [100], (0, true)) in
  let g' (e : bool) (log : list nat) := Ret (log ++ [200], (0, e)) in
  o_match (o_some 5) f g [] = Ret ([5], (6, false)) /\ o_match (o_none 0) f g [] = Ret ([100], (0, true)) /\
  r_match (r_mk_ok false 5) f g' [] = Ret ([5], (6, false)) /\ r_match (r_mk_err 0 true) f g' [] = Ret ([200], (0, true)).
Proof. repeat split. Qed.

(** C43: with total functions, Parameter composes them left to right from nil. *)
Theorem parameter_composes :
  forall (P R : Type) (c : option P -> R) (fs : list (option P -> option P)),
    parameter (S:=unit) (fun p s => Ret (s, c p)) (map (fun f p s => Ret (s, f p)) fs) tt
    = Ret (tt, c (fold_left (fun p f => f p) fs None)).
Proof.
  intros P R c fs. unfold parameter. generalize (@None P). induction fs as [|f fs IH]; intros p; [reflexivity|]. exact (IH (f p)).
Qed.
Print Assumptions parameter_composes.
(** every option is called exactly once and in order, with the previous result,
    and then the constructor, whatever the functions return *)
Theorem parameter_calls_once_in_order :
  forall (P R : Type) (c : option P -> R) (fs : list (option P -> option P)),
    parameter (S:=list nat) (fun p log => Ret (log ++ [length fs], c p))
      (imap (fun i f p log => Ret (log ++ [i], f p)) fs) []
    = Ret (seq 0 (S (length fs)), c (fold_left (fun p f => f p) fs None)).
Proof.
  intros P R c fs. unfold parameter.
  assert (G : forall p k log, parameter_loop p (imap (fun i f p log => Ret (log ++ [k + i], f p)) fs) log
              = Ret (log ++ seq k (length fs), fold_left (fun p f => f p) fs p)).
  { clear c. induction fs as [|f fs IH]; intros p k log; cbn [imap parameter_loop length seq fold_left]; [rewrite app_nil_r; reflexivity|].
    cbn [rbind]. rewrite Nat.add_0_r. rewrite (imap_ext _ (fun i f p log => Ret (log ++ [S k + i], f p))).
    - rewrite (IH (f p) (S k) (log ++ [k])), <- app_assoc. reflexivity.
    - intros i g _. cbn. rewrite Nat.add_succ_r. reflexivity. }
  pose proof (G None 0 []) as G0. cbn [Nat.add] in G0. rewrite G0. cbn [rbind app]. rewrite seq_S. reflexivity.
Qed.
Print Assumptions parameter_calls_once_in_order.
(** a panicking option stops everything: no later option, no constructor *)
Theorem parameter_panic :
  forall (P R S : Type) (c : option P -> proc S R) fs1 f fs2 s s1 p1,
    parameter_loop None fs1 s = Ret (s1, p1) -> f p1 s1 = Panic ->
    parameter c (fs1 ++ f :: fs2) s = Panic.
Proof.
  intros P R S c fs1 f fs2 s s1 p1. unfold parameter. generalize (@None P). revert s.
  induction fs1 as [|g fs1 IH]; intros s p H1 H2; cbn [app parameter_loop] in *.
  - injection H1 as -> ->. rewrite H2. reflexivity.
  - destruct (g p s) as [[s' p']| |]; cbn [rbind] in *; [eauto|discriminate|discriminate].
Qed.
Print Assumptions parameter_panic.
Example parameter_case :
  parameter (S:=unit) (fun p s => Ret (s, (default 0 p) * 100)) [fun p s => Ret (s, Some (default 7 p)); fun p s => Ret (s, option_map S p)] tt
  = Ret (tt, 800).
Proof. reflexivity. Qed.
