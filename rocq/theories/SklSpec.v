(** What a user expects of an ordered map (dsx/mapx/sklmapx, and the index of
    dsx/mapx/ordmapx): a finite map, enumerated in ascending key order. *)
From Verif Require Import Base.

(** Calls and results. *)
Inductive mop (K V : Type) :=
| MSet (k : K) (v : V) | MDel (k : K) | MGet (k : K) | MLen | MClear
| MKeys | MValues | MString | MToMap.
Arguments MSet {K V} k v.
Arguments MDel {K V} k.
Arguments MGet {K V} k.
Arguments MLen {K V}.
Arguments MClear {K V}.
Arguments MKeys {K V}.
Arguments MValues {K V}.
Arguments MString {K V}.
Arguments MToMap {K V}.

Inductive mret (K V : Type) :=
| MUnit | MBool (b : bool) | MVal (v : option V) | MInt (z : Z)
| MKeyList (l : list K) | MValList (l : list V) | MStr (s : list Z) | MMap (m : list (K * V)).
Arguments MUnit {K V}.
Arguments MBool {K V} b.
Arguments MVal {K V} v.
Arguments MInt {K V} z.
Arguments MKeyList {K V} l.
Arguments MValList {K V} l.
Arguments MStr {K V} s.
Arguments MMap {K V} m.

(** The order a Go key type must have: < is a strict order, == is "neither is
    smaller", and it is total (true of integers, strings, and floats other than
    NaN; -0.0 == 0.0 is allowed, keys need not be identical to be equal). *)
Record strict_weak_order {K} (ltb eqb : K -> K -> bool) : Prop := {
  lt_irrefl : forall x, ltb x x = false;
  lt_trans : forall x y z, ltb x y = true -> ltb y z = true -> ltb x z = true;
  lt_cover : forall x y z, ltb x z = true -> ltb x y = true \/ ltb y z = true;
  eq_spec : forall x y, eqb x y = negb (ltb x y) && negb (ltb y x) }.

Section Spec.
Context {K V : Type} (ltb eqb : K -> K -> bool).
Context (showK : K -> list Z) (showV : V -> list Z).

(** The ideal map: its entries in no particular order (here: oldest first). *)
Notation imap := (list (K * V)).

Definition map_get (m : imap) (k : K) : option V :=
  snd <$> head (filter (fun e => eqb e.1 k = true) m).
Definition map_has (m : imap) (k : K) : bool := existsb (fun e => eqb e.1 k) m.
Definition map_del (m : imap) (k : K) : imap := filter (fun e => eqb e.1 k = false) m.
(** an existing entry keeps its key and its place, and gets the new value *)
Definition map_set (m : imap) (k : K) (v : V) : imap :=
  if map_has m k then (fun e => if eqb e.1 k then (e.1, v) else e) <$> m
  else m ++ [(k, v)].

(** the entries in ascending key order *)
Fixpoint place (e : K * V) (l : list (K * V)) : list (K * V) :=
  match l with
  | [] => [e]
  | e' :: l' => if ltb e.1 e'.1 then e :: e' :: l' else e' :: place e l'
  end.
Fixpoint sorted_entries (m : imap) : list (K * V) :=
  match m with [] => [] | e :: m' => place e (sorted_entries m') end.

(** "sklmapx[k1:v1 k2:v2 ...]" *)
Definition show_entry (e : K * V) : list Z := showK e.1 ++ 58%Z :: showV e.2.
Fixpoint join_space (l : list (list Z)) : list Z :=
  match l with
  | [] => []
  | [x] => x
  | x :: l' => x ++ 32%Z :: join_space l'
  end.
Definition show_map (m : imap) : list Z :=
  [115; 107; 108; 109; 97; 112; 120; 91]%Z ++ join_space (show_entry <$> sorted_entries m) ++ [93%Z].

Definition map_step (m : imap) (o : mop K V) : imap * mret K V :=
  match o with
  | MSet k v => (map_set m k v, MUnit)
  | MDel k => (map_del m k, MBool (map_has m k))
  | MGet k => (m, MVal (map_get m k))
  | MLen => (m, MInt (Z.of_nat (length m)))
  | MClear => ([], MUnit)
  | MKeys => (m, MKeyList ((sorted_entries m).*1))
  | MValues => (m, MValList ((sorted_entries m).*2))
  | MString => (m, MStr (show_map m))
  | MToMap => (m, MMap (sorted_entries m)) (* up to the order of a Go map *)
  end.
End Spec.

(** *** Reading a history directly *)
Section Hist.
Context {K V : Type} (ltb eqb : K -> K -> bool).

(** the value of the last Set of [k] that no Del of [k] and no Clear follows;
    the history is given most recent call first *)
Fixpoint last_write (k : K) (rev_hist : list (mop K V)) : option V :=
  match rev_hist with
  | [] => None
  | MSet k' v :: r => if eqb k' k then Some v else last_write k r
  | MDel k' :: r => if eqb k' k then None else last_write k r
  | MClear :: _ => None
  | _ :: r => last_write k r
  end.
Definition present (hist : list (mop K V)) (k : K) : Prop := is_Some (last_write k (rev hist)).

(** strictly ascending *)
Fixpoint ascending (l : list K) : Prop :=
  match l with
  | x :: ((y :: _) as l') => ltb x y = true /\ ascending l'
  | _ => True
  end.
End Hist.

(** *** Iterators: a map and one iterator on it, used together *)
Inductive iop (K V : Type) := IMap (o : mop K V) | INext | ISeek (k : K) | IRewind.
Arguments IMap {K V} o.
Arguments INext {K V}.
Arguments ISeek {K V} k.
Arguments IRewind {K V}.
Inductive iret (K V : Type) := IRet (r : mret K V) | IAns (a : option (K * V)) | IDone.
Arguments IRet {K V} r.
Arguments IAns {K V} a.
Arguments IDone {K V}.

(** the calls on the map among the calls of a history *)
Fixpoint map_calls {K V} (l : list (iop K V)) : list (mop K V) :=
  match l with
  | [] => []
  | IMap o :: l' => o :: map_calls l'
  | _ :: l' => map_calls l'
  end.
(** the answers of Next (and Seek) among the results *)
Fixpoint iter_answers {K V} (l : list (iret K V)) : list (option (K * V)) :=
  match l with
  | [] => []
  | IAns a :: l' => a :: iter_answers l'
  | _ :: l' => iter_answers l'
  end.

(** The ideal iterator: it remembers the key it stands on, and Next goes to the
    smallest present key above it. *)
Inductive cursor (K : Type) := Start | On (k : K) | End.
Arguments Start {K}.
Arguments On {K} k.
Arguments End {K}.
Section Cursor.
Context {K V : Type} (ltb eqb : K -> K -> bool) (showK : K -> list Z) (showV : V -> list Z).
Definition cursor_next (m : list (K * V)) (c : cursor K) : option (K * V) :=
  match c with
  | Start => head (sorted_entries ltb m)
  | On k => head (filter (fun e => ltb k e.1 = true) (sorted_entries ltb m))
  | End => None
  end.
Definition cursor_step (st : list (K * V) * cursor K) (o : iop K V) : (list (K * V) * cursor K) * iret K V :=
  let '(m, c) := st in
  match o with
  | IMap p => let '(m', r) := map_step ltb eqb showK showV m p in ((m', c), IRet r)
  | INext => let a := cursor_next m c in
             ((m, match a with Some e => On e.1 | None => End end), IAns a)
  | ISeek k => let a := head (filter (fun e => eqb e.1 k = true) m) in
               ((m, match a with Some e => On e.1 | None => Start end), IAns a)
  | IRewind => ((m, Start), IDone)
  end.
(** calls that do not pull the key from under the iterator, and do not go on
    after the end *)
Definition cursor_safe (st : list (K * V) * cursor K) (o : iop K V) : Prop :=
  match o, st.2 with
  | INext, End => False
  | IMap (MDel k'), On k => eqb k k' = false
  | IMap MClear, On _ => False
  | _, _ => True
  end.
End Cursor.
