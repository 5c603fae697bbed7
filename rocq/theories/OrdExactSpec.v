(** What programs that range over an OrdMap (dsx/mapx/ordmapx) do, exactly.  They call its
    methods and range over it, with callbacks that are such programs themselves: Ranges may
    be nested to any depth, and every callback may Set, Del and Clear. *)
From Verif Require Import Base SklSpec OrdMapSpec SklExactSpec.

(** [NRet a stop]: done, with state [a]; a callback also says whether to stop.
    [NCall c o p]: call the method [o] ([c] is the seed a Clear draws).
    [NRange f a p]: Range with the callback [f], whose state is [a] at first; go on with its
    last state. *)
Inductive nprog (K V A : Type) :=
| NRet (a : A) (stop : bool)
| NCall (c : Z) (o : oop K V) (p : mret K V -> nprog K V A)
| NRange (f : A -> K -> V -> nprog K V A) (a : A) (p : A -> nprog K V A).
Arguments NRet {K V A} a stop.
Arguments NCall {K V A} c o p.
Arguments NRange {K V A} f a p.

(** programs that never call Clear, nor do their callbacks *)
Inductive no_clear {K V A : Type} : nprog K V A -> Prop :=
| nc_ret a stop : no_clear (NRet a stop)
| nc_call c o p : o <> OClear -> (forall r, no_clear (p r)) -> no_clear (NCall c o p)
| nc_range f a p : (forall a k v, no_clear (f a k v)) -> (forall a, no_clear (p a)) -> no_clear (NRange f a p).

Section M.
Context {K V A : Type} (zeroK : K) (zeroV : V) (ltb eqb : K -> K -> bool).
(** the map, and where every Range under way stands, the innermost one first. *)
Definition ostate : Type := list (K * V) * list (place K unit).
Definition keys_only (m : list (K * V)) : list (K * unit) := map (fun e => (e.1, tt)) m.
Definition range_after (m : list (K * V)) (o : oop K V) (c : place K unit) : place K unit :=
  match o with
  | ODel k => place_after ltb eqb (keys_only m) (MDel k) c
  | OClear => place_after ltb eqb (keys_only m) MClear c
  | _ => c
  end.
(** Range from place [c], at most [fuel] + 1 visits: each visit is of what [place_next] gives,
    with the key's value at the time (the zero value if it has none); the callback's calls
    move the place of this Range and of the enclosing ones.  The first component lists the
    calls of callbacks in the order of their beginnings. *)
Section Spec.
Context (f : A -> K -> V -> ostate -> list (K * V) * res (A * ostate * bool)).
Fixpoint srange (fuel : nat) (a : A) (m : list (K * V)) (c : place K unit) (cs : list (place K unit)) : list (K * V) * res (A * ostate) :=
  match place_next zeroK tt ltb (keys_only m) c with
  | Ret (_, None) => ([], Ret (a, (m, cs)))
  | Ret (c', Some (k, _)) =>
      let v := default zeroV (map_get eqb m k) in
      let '(t, r) := f a k v (m, c' :: cs) in
      match r with
      | Ret (a', (m', c2 :: cs'), stop) =>
          if stop then ((k, v) :: t, Ret (a', (m', cs')))
          else match fuel with
               | O => ((k, v) :: t, Spin)
               | S fuel' => let '(t', r') := srange fuel' a' m' c2 cs' in ((k, v) :: t ++ t', r')
               end
      | Ret (_, (_, []), _) => ([], Spin)
      | Panic => ((k, v) :: t, Panic)
      | Spin => ((k, v) :: t, Spin)
      end
  | Panic => ([], Panic)
  | Spin => ([], Spin)
  end.
End Spec.
Fixpoint sexec (n : nat) (p : nprog K V A) (st : ostate) : list (K * V) * res (A * ostate * bool) :=
  match p with
  | NRet a stop => ([], Ret (a, st, stop))
  | NCall _ o q => let '(m', r) := ord_step ltb eqb st.1 o in sexec n (q r) (m', map (range_after st.1 o) st.2)
  | NRange f a q =>
      let '(t, r) := srange (fun a k v st => sexec n (f a k v) st) n a st.1 PStart st.2 in
      match r with
      | Ret (a', st') => let '(t', r') := sexec n (q a') st' in (t ++ t', r')
      | Panic => (t, Panic)
      | Spin => (t, Spin)
      end
  end.
End M.
