(** Model of dsx/mapx/ordmapx/ordmapx.go: a Go map and a skip list of its keys
    (over the model of sklmapx). The built-in Go map is an association list; the
    order of its entries is never observed. *)
From Verif Require Import Base SplitMixModel SklSpec SklModel OrdMapSpec.

Section Ord.
Context {K V : Type} (zeroK : K) (zeroV : V) (ltb eqb : K -> K -> bool).

(** m[key], with the comma-ok form; ordmapx.go 25, 30, 37, 60, 72 *)
Fixpoint gm_get (m : list (K * V)) (k : K) : answer V :=
  match m with
  | [] => None
  | (k', v) :: m' => if eqb k' k then Some v else gm_get m' k
  end.
(** delete(m, key) ordmapx.go 39 *)
Fixpoint gm_del (m : list (K * V)) (k : K) : list (K * V) :=
  match m with
  | [] => []
  | (k', v) :: m' => if eqb k' k then gm_del m' k else (k', v) :: gm_del m' k
  end.

(** ordmapx.go:8-11 OrdMap *)
Record ordmap := OrdMap { o_m : list (K * V); o_skl : skl K unit }.

(** ordmapx.go:13-18 New *)
Definition ord_new (seed : Z) : ordmap := OrdMap [] (skl_new zeroK tt seed).

(** ordmapx.go:29-34 Set *)
Definition ord_set (m : ordmap) (k : K) (v : V) : res ordmap :=
  let! s := match gm_get (o_m m) k with
            | None => sk_insert ltb eqb (o_skl m) k tt
            | Some _ => Ret (o_skl m)
            end in
  Ret (OrdMap (gomap_set eqb (o_m m) k v) s).

(** ordmapx.go:36-41 Del *)
Definition ord_del (m : ordmap) (k : K) : res ordmap :=
  match gm_get (o_m m) k with
  | Some _ => let! (s, _) := sk_delete ltb eqb (o_skl m) k in
              Ret (OrdMap (gm_del (o_m m) k) s)
  | None => Ret m
  end.

(** ordmapx.go:43-46 Clear *)
Definition ord_clear (m : ordmap) (seed : Z) : ordmap := OrdMap [] (sk_clear zeroK tt (o_skl m) seed).

(** ordmapx.go:52-63 Values *)
Fixpoint ord_values_loop (fuel : nat) (m : ordmap) (it : iter) : res (list V) :=
  let! (it, a) := it_next (o_skl m) it in
  match a with
  | None => Ret []
  | Some (k, _) => match fuel with
                   | O => Spin
                   | S f => let! r := ord_values_loop f m it in
                            Ret (default zeroV (gm_get (o_m m) k) :: r)
                   end
  end.
(** ordmapx.go 52-63: Values *)
Definition ord_values (m : ordmap) : res (list V) := ord_values_loop (length (s_heap (o_skl m))) m it_new.

(** ordmapx.go:20-22 Len, 24-27 Get, 48-50 Keys and the rest; the number is the
    seed drawn by Clear *)
Definition o_step (m : ordmap) (o : Z * oop K V) : res (ordmap * mret K V) :=
  match o.2 with
  | OSet k v => let! m' := ord_set m k v in Ret (m', MUnit)
  | ODel k => let! m' := ord_del m k in Ret (m', MUnit)
  | OGet k => Ret (m, MVal (gm_get (o_m m) k))
  | OLen => Ret (m, MInt (sk_len (o_skl m)))
  | OClear => Ret (ord_clear m o.1, MUnit)
  | OKeys => let! l := sk_keys (o_skl m) in Ret (m, MKeyList l)
  | OValues => let! l := ord_values m in Ret (m, MValList l)
  end.

(** ordmapx.go:65-76 Range.  The callback may change the map; the result is the
    list of the arguments it was called with, and how the loop ended. *)
Fixpoint range_loop {A} (fuel : nat) (f : A -> ordmap -> K -> V -> res (A * ordmap * bool))
  (a : A) (m : ordmap) (it : iter) : list (K * V) * res (A * ordmap) :=
  match it_next (o_skl m) it with
  | Ret (_, None) => ([], Ret (a, m))
  | Ret (it', Some (k, _)) =>
      let v := default zeroV (gm_get (o_m m) k) in
      match f a m k v with
      | Ret (a', m', stop) =>
          if stop then ([(k, v)], Ret (a', m'))
          else match fuel with
               | O => ([(k, v)], Spin)
               | S fuel' => let '(vs, r) := range_loop fuel' f a' m' it' in ((k, v) :: vs, r)
               end
      | Panic => ([(k, v)], Panic)
      | Spin => ([(k, v)], Spin)
      end
  | Panic => ([], Panic)
  | Spin => ([], Spin)
  end.
(** ordmapx.go 65-76: Range *)
Definition ord_range {A} (fuel : nat) (f : A -> ordmap -> K -> V -> res (A * ordmap * bool)) (a : A) (m : ordmap) :=
  range_loop fuel f a m it_new.

(** A callback with its own state that may Del the key it is called with.
    A caller of ordmapx.go 65-76. *)
Definition deleting_callback {A} (f : A -> K -> V -> A * bool * bool)
  (a : A) (m : ordmap) (k : K) (v : V) : res (A * ordmap * bool) :=
  let '(a', del, stop) := f a k v in
  if del then let! m' := ord_del m k in Ret (a', m', stop) else Ret (a', m, stop).

(** A callback that Clears the map (drawing the seeds [seeds a]) and goes on.
    A caller of ordmapx.go 65-76. *)
Definition clearing_callback (seeds : nat -> Z) (a : nat) (m : ordmap) (k : K) (v : V)
  : res (nat * ordmap * bool) := Ret (S a, ord_clear m (seeds a), false).
End Ord.
Arguments ordmap K V : clear implicits.
