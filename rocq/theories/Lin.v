(** Linearizability.  A history is a list of invocations and responses by
    threads.  It is linearizable if linearization points can be inserted, one
    between the invocation and the response of every completed call (and possibly
    one after the invocation of a pending call), such that the calls, executed
    one at a time at these points, return what they returned. *)
From Verif Require Import Base.

Inductive lev (O R : Type) := Inv (t : nat) (o : O) | Lin (t : nat) (o : O) (r : R) | Rsp (t : nat) (o : O) (r : R).
Arguments Inv {O R} t o.
Arguments Lin {O R} t o r.
Arguments Rsp {O R} t o r.

Section Lin.
Context {S O R : Type} (spec : S -> O -> R -> S -> Prop).

Definition lev_thread (e : lev O R) : nat := match e with Inv t _ | Lin t _ _ | Rsp t _ _ => t end.
Definition is_lin (e : lev O R) : bool := match e with Lin _ _ _ => true | _ => false end.
(** the observable history *)
Definition erase (tr : list (lev O R)) : list (lev O R) := filter (fun e => is_lin e = false) tr.
Definition proj (t : nat) (tr : list (lev O R)) : list (lev O R) := filter (fun e => lev_thread e = t) tr.

(** one thread's events: invocation, its linearization point, the response with
    the result determined there, and again *)
Inductive tstate := TIdle | TCalled (o : O) | TDone (o : O) (r : R).
Inductive tseq (t : nat) : list (lev O R) -> tstate -> Prop :=
| tseq_nil : tseq t [] TIdle
| tseq_inv l o : tseq t l TIdle -> tseq t (l ++ [Inv t o]) (TCalled o)
| tseq_lin l o r : tseq t l (TCalled o) -> tseq t (l ++ [Lin t o r]) (TDone o r)
| tseq_rsp l o r : tseq t l (TDone o r) -> tseq t (l ++ [Rsp t o r]) TIdle.
(** the calls executed one at a time at their linearization points *)
Inductive legal (s0 : S) : list (lev O R) -> S -> Prop :=
| legal_nil : legal s0 [] s0
| legal_inv tr s t o : legal s0 tr s -> legal s0 (tr ++ [Inv t o]) s
| legal_lin tr s t o r s' : legal s0 tr s -> spec s o r s' -> legal s0 (tr ++ [Lin t o r]) s'
| legal_rsp tr s t o r : legal s0 tr s -> legal s0 (tr ++ [Rsp t o r]) s.

Definition linearizable (s0 : S) (h : list (lev O R)) : Prop :=
  exists tr, erase tr = h /\ (forall t, exists st, tseq t (proj t tr) st) /\ exists s, legal s0 tr s.

Lemma proj_snoc t tr e : proj t (tr ++ [e]) = if decide (lev_thread e = t) then proj t tr ++ [e] else proj t tr.
Proof.
  unfold proj. rewrite filter_app, filter_cons, filter_nil. destruct (decide (lev_thread e = t)); [reflexivity|apply app_nil_r].
Qed.
End Lin.
Arguments tstate : clear implicits.
