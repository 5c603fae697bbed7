(** Model of dsx/linkedx/stackx/stackx.go *)
From Verif Require Import Base LinkedHeap SeqSpec.

Section Stack.
Context {A : Type} (zero : A).

(** stackx.go:16-20 type Stack *)
Record stack := Stack {
  s_heap : list (node A);
  s_pool : list nat;
  s_head : option nat;
  s_length : Z }.

(** stackx.go:22-30 New *)
Definition s_new : stack := Stack [] [] None 0.

(** stackx.go:32-39 Push *)
Definition s_push (c : nat) (s : stack) (x : A) : res (stack * bool) :=
  let len := (s_length s + 1)%Z in
  let '(n, pool, h) := pool_get (Node zero None) c (s_pool s) (s_heap s) in
  let h := <[n := Node x (s_head s)]> h in          (* n.data = data; n.next = s.head *)
  Ret (Stack h pool (Some n) len, true).

(** stackx.go:41-49 Pop *)
Definition s_pop (s : stack) : res (stack * answer A) :=
  match s_head s with
  | None => Ret (s, None)
  | Some hd =>
      let len := (s_length s - 1)%Z in
      let! nd := deref (s_heap s !! hd) in
      let s' := Stack (s_heap s) (s_pool s ++ [hd]) (nnext nd) len in
      let! hd' := deref (s_head s') in              (* s.head.data *)
      let! nd' := deref (s_heap s' !! hd') in
      Ret (s', Some (ndata nd'))
  end.

(** stackx.go:51-56 Peek *)
Definition s_peek (s : stack) : res (stack * answer A) :=
  match s_head s with
  | None => Ret (s, None)
  | Some hd => let! nd := deref (s_heap s !! hd) in Ret (s, Some (ndata nd))
  end.

(** stackx.go:58-60 Len *)
Definition s_len (s : stack) : Z := s_length s.

(** the methods, stackx.go 32-60, as one step function *)
Definition s_step (s : stack) (o : nat * sop A) : res (stack * ret A) :=
  match o.2 with
  | Push x => let! (s', b) := s_push o.1 s x in Ret (s', RBool b)
  | Pop => let! (s', v) := s_pop s in Ret (s', RVal v)
  | STop => let! (s', v) := s_peek s in Ret (s', RVal v)
  | SLen => Ret (s, RInt (s_len s))
  end.
End Stack.
Arguments stack A : clear implicits.
