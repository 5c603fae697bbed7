(** What a user expects of dsx/mapx/ordmapx: the finite map of SklSpec, where
    Del answers nothing, and a Range that visits in ascending key order. *)
From Verif Require Import Base SklSpec.

Inductive oop (K V : Type) :=
| OSet (k : K) (v : V) | ODel (k : K) | OGet (k : K) | OLen | OClear | OKeys | OValues.
Arguments OSet {K V} k v.
Arguments ODel {K V} k.
Arguments OGet {K V} k.
Arguments OLen {K V}.
Arguments OClear {K V}.
Arguments OKeys {K V}.
Arguments OValues {K V}.

Section Spec.
Context {K V A : Type} (ltb eqb : K -> K -> bool).
Definition ord_step (m : list (K * V)) (o : oop K V) : list (K * V) * mret K V :=
  match o with
  | OSet k v => (map_set eqb m k v, MUnit)
  | ODel k => (map_del eqb m k, MUnit)
  | OGet k => (m, MVal (map_get eqb m k))
  | OLen => (m, MInt (Z.of_nat (length m)))
  | OClear => ([], MUnit)
  | OKeys => (m, MKeyList (sorted_entries ltb m).*1)
  | OValues => (m, MValList (sorted_entries ltb m).*2)
  end.

(** What a callback of Range does: its own state, whether it deletes the key it
    is called with, whether it asks to stop. *)
Definition callback := A -> K -> V -> A * bool * bool.

(** the visits, the callback's state and the map at the end *)
Fixpoint ideal_range (f : callback) (a : A) (m : list (K * V)) (es : list (K * V))
  : list (K * V) * (A * list (K * V)) :=
  match es with
  | [] => ([], (a, m))
  | (k, v) :: es' =>
      let '(a', del, stop) := f a k v in
      let m' := if del then map_del eqb m k else m in
      if stop then ([(k, v)], (a', m'))
      else let '(vs, r) := ideal_range f a' m' es' in ((k, v) :: vs, r)
  end.
End Spec.
