(** What a map of dsx/mapx/sklmapx and any number of iterators on it do, exactly. *)
From Verif Require Import Base Conc SklSpec.

(** Where an iterator on a deleted entry will come out: on the entry that holds key k, at
    the end, or in the list that Clear has thrown away, whose end sentinel is no longer
    recognized *)
Inductive target (K : Type) := TKey (k : K) | TEnd | TOld.
Arguments TKey {K} k.
Arguments TEnd {K}.
Arguments TOld {K}.
(** Where an iterator stands: before everything; on the entry of key k; on a deleted entry,
    with the deleted entries it will go through before it comes out; at the end *)
Inductive place (K V : Type) := PStart | POn (k : K) | POff (ds : list (K * V)) (t : target K) | PDone.
Arguments PStart {K V}.
Arguments POn {K V} k.
Arguments POff {K V} ds t.
Arguments PDone {K V}.

(** Calls on the map, and on the i-th iterator *)
Inductive xop (K V : Type) := XMap (o : mop K V) | XNext (i : nat) | XSeek (i : nat) (k : K) | XRewind (i : nat).
Arguments XMap {K V} o.
Arguments XNext {K V} i.
Arguments XSeek {K V} i k.
Arguments XRewind {K V} i.

Section Spec.
Context {K V : Type} (zeroK : K) (zeroV : V) (ltb eqb : K -> K -> bool) (showK : K -> list Z) (showV : V -> list Z).
Notation imap := (list (K * V)).
(** the entries above k, and from k on, in order *)
Definition above (m : imap) (k : K) : list (K * V) := filter (fun e => ltb k e.1 = true) (sorted_entries ltb m).
Definition from (m : imap) (k : K) : list (K * V) := filter (fun e => ltb e.1 k = false) (sorted_entries ltb m).
Definition target_of (l : list (K * V)) : target K := match l with [] => TEnd | e :: _ => TKey e.1 end.

(** what a call on the map m does to an iterator *)
Definition place_after (m : imap) (o : mop K V) (c : place K V) : place K V :=
  match o, c with
  | MDel k', POn k => if eqb k k' then POff [] (target_of (above m k)) else c
  | MDel k', POff ds (TKey k) => if eqb k k' then POff (ds ++ take 1 (from m k)) (target_of (above m k)) else c
  | MClear, POn k => POff (above m k) TOld
  | MClear, POff ds (TKey k) => POff (ds ++ from m k) TOld
  | MClear, POff ds TEnd => POff ds TOld
  | _, _ => c
  end.
Definition on_first (l : list (K * V)) : place K V * option (K * V) :=
  match l with [] => (PDone, None) | e :: _ => (POn e.1, Some e) end.
Definition place_next (m : imap) (c : place K V) : res (place K V * option (K * V)) :=
  match c with
  | PStart => Ret (on_first (sorted_entries ltb m))
  | POn k => Ret (on_first (above m k))
  | POff (d :: ds) t => Ret (POff ds t, Some d)
  | POff [] (TKey k) => Ret (on_first (from m k))
  | POff [] TEnd => Ret (PDone, None)
  | POff [] TOld => Ret (PDone, Some (zeroK, zeroV))
  | PDone => Panic
  end.
Definition exact_step (st : imap * (nat -> place K V)) (o : xop K V) : res ((imap * (nat -> place K V)) * iret K V) :=
  let '(m, cs) := st in
  match o with
  | XMap p => let '(m', r) := map_step ltb eqb showK showV m p in Ret ((m', fun i => place_after m p (cs i)), IRet r)
  | XNext i => let! (c, a) := place_next m (cs i) in Ret ((m, tset cs i c), IAns a)
  | XSeek i k => let a := head (filter (fun e => eqb e.1 k = true) m) in
                 Ret ((m, tset cs i (match a with Some e => POn e.1 | None => PStart end)), IAns a)
  | XRewind i => Ret ((m, tset cs i PStart), IDone)
  end.
End Spec.
