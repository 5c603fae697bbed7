(** Range of dsx/mapx/ordmapx with a callback that uses the map: the callback is
    a program that may call the methods of the map, look at what they return and
    decide what to do next, and finally tells Range whether to stop. *)
From Verif Require Import Base SplitMixModel SklSpec SklModel OrdMapSpec OrdMapModel.

(** [PRet a stop]: return [stop] to Range, keeping [a]; [PCall c o p]: call the
    method [o] ([c] is the seed a Clear draws) and go on with what it returns.
    The callback of ordmapx.go 65-76. *)
Inductive cprog (K V A : Type) :=
| PRet (a : A) (stop : bool)
| PCall (c : Z) (o : oop K V) (p : mret K V -> cprog K V A).
Arguments PRet {K V A} a stop.
Arguments PCall {K V A} c o p.

Section M.
Context {K V A : Type} (zeroK : K) (zeroV : V) (ltb eqb : K -> K -> bool).

(** running the callback on the map; the calls of ordmapx.go 20-63 *)
Fixpoint exec (p : cprog K V A) (om : ordmap K V) : res (A * ordmap K V * bool) :=
  match p with
  | PRet a stop => Ret (a, om, stop)
  | PCall c o q => let! (om', r) := o_step zeroK zeroV ltb eqb om (c, o) in exec (q r) om'
  end.
(** ordmapx.go:65-76 Range, with such a callback *)
Definition ord_range_prog (fuel : nat) (f : A -> K -> V -> cprog K V A) (a : A) (om : ordmap K V) :=
  ord_range zeroV eqb fuel (fun a om k v => exec (f a k v) om) a om.

(** *** What a user expects: the callback sees the live map *)
(** running the callback on the ideal map; not code; what ordmapx.go 20-63 should do *)
Fixpoint ideal_exec (p : cprog K V A) (m : list (K * V)) : A * list (K * V) * bool :=
  match p with
  | PRet a stop => (a, m, stop)
  | PCall _ o q => let '(m', r) := ord_step ltb eqb m o in ideal_exec (q r) m'
  end.
(** the next visit is the smallest key of the map as it is then above the key
    visited last, with the value it has then; not code; what ordmapx.go 65-76 should do *)
Fixpoint live_range (fuel : nat) (f : A -> K -> V -> cprog K V A) (a : A) (m : list (K * V)) (cur : cursor K)
  : list (K * V) * res (A * list (K * V)) :=
  match cursor_next ltb m cur with
  | None => ([], Ret (a, m))
  | Some (k, v) =>
      let '(a', m', stop) := ideal_exec (f a k v) m in
      if stop then ([(k, v)], Ret (a', m'))
      else match fuel with
           | O => ([(k, v)], Spin)
           | S fuel' => let '(vs, r) := live_range fuel' f a' m' (On k) in ((k, v) :: vs, r)
           end
  end.

(** What the callback visiting [k] must not do: Clear the map, or, after having
    deleted [k] itself, change the map any further. The calls are those of ordmapx.go 20-63. *)
Definition reads (o : oop K V) : bool :=
  match o with OGet _ | OLen | OKeys | OValues => true | _ => false end.
(** not code: the restriction on callbacks of ordmapx.go 65-76 *)
Fixpoint gentle (k : K) (deleted : bool) (p : cprog K V A) : Prop :=
  match p with
  | PRet _ _ => True
  | PCall _ o q =>
      o <> OClear /\ (deleted = true -> reads o = true) /\
      forall r, gentle k (match o with ODel k' => deleted || eqb k k' | _ => deleted end) (q r)
  end.
(** ... sets no key above the one it visits; not code; callbacks of ordmapx.go 65-76 *)
Fixpoint no_set_above (k : K) (p : cprog K V A) : Prop :=
  match p with
  | PRet _ _ => True
  | PCall _ o q => match o with OSet k' _ => ltb k k' = false | _ => True end /\
                   forall r, no_set_above k (q r)
  end.
End M.
