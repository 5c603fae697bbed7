(** A SkipListMap, an Iterator and an OrdMap declared with var.  The fields head and
    tail of the map are nil, or the pointer to the map is: [None]; the call panics
    where it follows it. *)
From Verif Require Import Base SplitMixModel SklSpec SklModel OrdMapSpec OrdMapModel RecModel.

Section Zero.
Context {K V : Type} (zeroK : K) (zeroV : V) (ltb eqb : K -> K -> bool).
Context (showK : K -> list Z) (showV : V -> list Z).

(** sklmapx.go: 40-42 (search: x := l.head; x.next[i]), 215 (Next: head.next[0]);
    Len (171-173) and Clear (188-191) do not follow it.  A panicking call has not
    written anything. *)
Definition zk_step (st : option (skl K V)) (o : Z * mop K V) : option (skl K V) * res (mret K V) :=
  match o.2 with
  | MLen => (st, Ret (MInt (match st with Some s => sk_len s | None => 0%Z end)))
  | MClear => (Some (sk_clear zeroK zeroV (match st with Some s => s | None => Skl [] 0 0 0 0 end) o.1), Ret MUnit)
  | _ => recovered st (let! s := deref st in let! (s', r) := m_step zeroK zeroV ltb eqb showK showV s o in Ret (Some s', r))
  end.
(** the map and one iterator on it; 199-207 Seek, 209-211 Rewind, 213-225 Next *)
Definition zi_step (st : option (skl K V) * iter) (o : Z * iop K V) : (option (skl K V) * iter) * res (iret K V) :=
  let '(ms, it) := st in
  match o.2 with
  | IMap m => let '(ms', r) := zk_step ms (o.1, m) in ((ms', it), let! r := r in Ret (IRet r))
  | IRewind => ((ms, it_rewind it), Ret IDone)
  | _ => recovered st (let! s := deref ms in
           let! (st', r) := i_step zeroK zeroV ltb eqb showK showV (s, it) o in Ret ((Some st'.1, st'.2), r))
  end.

(** ordmapx.go: m.m is a nil map, which can be read (24-27, 30, 37); m.skl is a nil
    pointer, which no method of SkipListMap accepts (21, 31, 45, 49, 54; Range 66-69).
    Clear makes the map first (44), which is not observable. *)
Record zord := ZOrd { z_m : option (list (K * V)); z_skl : option (skl K unit) }.
(** ordmapx.go 8-11: the zero OrdMap *)
Definition zord_zero : zord := ZOrd None None.
(** ordmapx.go 20-76 on it: one call *)
Definition zo_step (st : zord) (o : Z * oop K V) : zord * res (mret K V) :=
  let m := default [] (z_m st) in
  let go (r : res (ordmap K V * mret K V)) : zord * res (mret K V) :=
    recovered st (let! (m', a) := r in Ret (ZOrd (Some (o_m m')) (Some (o_skl m')), a)) in
  match o.2 with
  | OGet k => (st, Ret (MVal (gm_get eqb m k)))
  | ODel k => match gm_get eqb m k with
              | None => (st, Ret MUnit)
              | Some _ => go (let! s := deref (z_skl st) in o_step zeroK zeroV ltb eqb (OrdMap m s) o)
              end
  | OClear => match z_skl st with
              | None => (ZOrd (Some []) None, Panic)
              | Some s => go (o_step zeroK zeroV ltb eqb (OrdMap m s) o)
              end
  | _ => go (let! s := deref (z_skl st) in o_step zeroK zeroV ltb eqb (OrdMap m s) o)
  end.
(** 65-76 Range: the calls of the callback, and how it ends *)
Definition zo_range {A} (fuel : nat) (f : A -> ordmap K V -> K -> V -> res (A * ordmap K V * bool)) (a : A) (st : zord)
  : list (K * V) * res (A * ordmap K V) :=
  match z_skl st with
  | None => ([], Panic)
  | Some s => ord_range zeroV eqb fuel f a (OrdMap (default [] (z_m st)) s)
  end.
End Zero.
Arguments zord K V : clear implicits.
