(** Concurrent programs: labelled transition systems under every interleaving. *)
From Verif Require Import Base.

(** [steps step s ls s']: the labels [ls] lead from [s] to [s']. *)
Inductive steps {S L} (step : S -> L -> S -> Prop) : S -> list L -> S -> Prop :=
| steps_nil s : steps step s [] s
| steps_snoc s ls s1 l s2 : steps step s ls s1 -> step s1 l s2 -> steps step s (ls ++ [l]) s2.

(** states that some schedule leads to *)
Definition reach {S L} (init : S) (step : S -> L -> S -> Prop) (s : S) : Prop := exists ls, steps step init ls s.

Lemma reach_refl {S L} (init : S) (step : S -> L -> S -> Prop) : reach init step init.
Proof. exists []. constructor. Qed.
Lemma reach_snoc {S L} (init : S) (step : S -> L -> S -> Prop) s l s' :
  reach init step s -> step s l s' -> reach init step s'.
Proof. intros [ls H] H'. exists (ls ++ [l]). econstructor; eauto. Qed.
Lemma steps_invariant {S L} (init : S) (step : S -> L -> S -> Prop) (I : S -> Prop) :
  I init -> (forall s l s', I s -> step s l s' -> I s') -> forall ls s, steps step init ls s -> I s.
Proof. intros H0 HS ls s H. remember init as s0 eqn:E. revert E. induction H; intros ->; eauto. Qed.
Lemma reach_invariant {S L} (init : S) (step : S -> L -> S -> Prop) (I : S -> Prop) :
  I init -> (forall s l s', I s -> step s l s' -> I s') -> forall s, reach init step s -> I s.
Proof. intros H0 HS s [ls H]. eapply steps_invariant; eauto. Qed.
(** invariants that mention the whole trace *)
Lemma steps_trace_invariant {S L} (init : S) (step : S -> L -> S -> Prop) (I : list L -> S -> Prop) :
  I [] init -> (forall ls s l s', steps step init ls s -> I ls s -> step s l s' -> I (ls ++ [l]) s') ->
  forall ls s, steps step init ls s -> I ls s.
Proof. intros H0 HS ls s H. remember init as s0 eqn:E. revert E. induction H; intros ->; eauto. Qed.
Lemma steps_app {S L} (step : S -> L -> S -> Prop) s l1 s1 l2 s2 :
  steps step s l1 s1 -> steps step s1 l2 s2 -> steps step s (l1 ++ l2) s2.
Proof.
  intros H1 H2. induction H2 as [|? ? ? ? ? H2 IH H3]; [rewrite app_nil_r; exact H1|].
  rewrite app_assoc. econstructor; eauto.
Qed.
Lemma steps_cons {S L} (step : S -> L -> S -> Prop) s l s1 ls s2 :
  step s l s1 -> steps step s1 ls s2 -> steps step s (l :: ls) s2.
Proof. intros H1 H2. apply (steps_app step s [l] s1 ls s2); [|exact H2]. apply (steps_snoc step s [] s l s1); [constructor|exact H1]. Qed.

(** *** Threads: a table from thread numbers to what each is doing *)
Definition tset {P} (f : nat -> P) (t : nat) (p : P) : nat -> P := fun u => if decide (u = t) then p else f u.
Lemma tset_eq {P} (f : nat -> P) t p : tset f t p t = p.
Proof. unfold tset. rewrite decide_True by reflexivity. reflexivity. Qed.
Lemma tset_ne {P} (f : nat -> P) t p u : u <> t -> tset f t p u = f u.
Proof. intros H. unfold tset. rewrite decide_False by exact H. reflexivity. Qed.
Lemma tset_cases {P} (f : nat -> P) t p u : (u = t /\ tset f t p u = p) \/ (u <> t /\ tset f t p u = f u).
Proof. unfold tset. destruct (decide (u = t)); auto. Qed.
