(** Going through a sequence that changes on the way: the position moves with the element
    it is at. *)
From Verif Require Import Base SeqSpec LinkedListSpec LinkedIterModel.

(** at element i; or: the element has been removed, and element i is next *)
Inductive cursor := CAt (i : nat) | CGap (i : nat).
Definition next_at (c : cursor) : nat := match c with CAt i => S i | CGap i => i end.

Section spec.
Context {A : Type}.
Implicit Types (xs : list A).
Definition cursor_step (c : cursor) (o : lop A) : cursor :=
  match c, o with
  | CAt i, Insert j _ => CAt (if (j <=? Z.of_nat i)%Z then S i else i)
  | CAt i, Remove j => if (j =? Z.of_nat i)%Z then CGap i else CAt (if (j <? Z.of_nat i)%Z then i - 1 else i)
  | CGap i, Insert j _ => CGap (if (j <? Z.of_nat i)%Z then S i else i)
  | CGap i, Remove j => CGap (if (j <? Z.of_nat i)%Z then i - 1 else i)
  | _, _ => c
  end.
(** a callback does not touch the last position, and does not change the list any more after
    it has removed the element it was called on *)
Definition calm xs (c : cursor) (o : lop A) : Prop :=
  safe_list_op xs o /\
  match c, o with
  | CGap _, (Append _ | Insert _ _ | Remove _) => False
  | _, _ => True
  end.
Fixpoint run_ideal {R} (p : lprog A R) xs (c : cursor) : list A * cursor * R :=
  match p with
  | LPRet r => (xs, c, r)
  | LPCall o k => let '(xs', r) := seq_step xs o.2 in run_ideal (k r) xs' (cursor_step c o.2)
  end.
Fixpoint calm_prog {R} (p : lprog A R) xs (c : cursor) : Prop :=
  match p with
  | LPRet _ => True
  | LPCall o k => calm xs c o.2 /\ calm_prog (k (seq_step xs o.2).2) (seq_step xs o.2).1 (cursor_step c o.2)
  end.
(** the callback is shown the element at i, and then the one that is next when it has
    returned, until there is none or it says so; at most fuel times *)
Fixpoint iter_live {B} (fuel : nat) (f : B -> A -> lprog A (B * bool)) (i : nat) xs (b : B) : res (list A * B) :=
  match xs !! i with
  | None => Ret (xs, b)
  | Some x =>
      match fuel with
      | O => Spin
      | S fu =>
          let '(xs', c, (b', go)) := run_ideal (f b x) xs (CAt i) in
          if go : bool then iter_live fu f (next_at c) xs' b' else Ret (xs', b')
      end
  end.
Fixpoint calm_iter {B} (fuel : nat) (f : B -> A -> lprog A (B * bool)) (i : nat) xs (b : B) : Prop :=
  match xs !! i with
  | None => True
  | Some x =>
      match fuel with
      | O => True
      | S fu =>
          calm_prog (f b x) xs (CAt i) /\
          let '(xs', c, (b', go)) := run_ideal (f b x) xs (CAt i) in
          if go : bool then calm_iter fu f (next_at c) xs' b' else True
      end
  end.
End spec.
