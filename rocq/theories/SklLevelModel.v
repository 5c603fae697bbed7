(** The levels of a skip list of dsx/mapx/sklmapx/sklmapx.go, and the comparisons
    of keys that a search makes. *)
From Verif Require Import Base SplitMixModel SklSpec SklModel.

Section Level.
Context {K V : Type} (ltb eqb : K -> K -> bool).
Notation skl := (skl K V).

(** the keys met by following next[i] (sklmapx.go:32) from x up to the tail *)
Fixpoint level_walk (fuel : nat) (s : skl) (x i : nat) : res (list K) :=
  let! n := get_next (s_heap s) x i in
  match n with
  | None => Panic
  | Some y =>
      if (y =? s_tail s)%nat then Ret []
      else let! nd := deref (s_heap s !! y) in
           match fuel with
           | O => Spin
           | S f => let! r := level_walk f s y i in Ret (sk_key nd :: r)
           end
  end.
(** sklmapx.go 28-33: the keys that the pointers next[i] lead to *)
Definition level_keys (s : skl) (i : nat) : res (list K) := level_walk (length (s_heap s)) s (s_head s) i.

(** sklmapx.go:42-44 as in [sk_walk], counting the evaluations of x.next[i].key < key *)
Fixpoint walk_c (fuel : nat) (s : skl) (x i : nat) (key : K) (c : nat) : res (nat * nat) :=
  let! nx := get_next (s_heap s) x i in
  match nx with
  | Some y =>
      if (y =? s_tail s)%nat then Ret (x, c)
      else
        let! nd := deref (s_heap s !! y) in
        if ltb (sk_key nd) key
        then match fuel with O => Spin | S f => walk_c f s y i key (S c) end
        else Ret (x, S c)
  | None => Panic
  end.
(** sklmapx.go:41-46 *)
Fixpoint levels_c (fuel : nat) (s : skl) (x i : nat) (key : K) (c : nat) : res (nat * nat) :=
  match i with
  | O => Ret (x, c)
  | S i' => let! (x, c) := walk_c fuel s x i' key c in levels_c fuel s x i' key c
  end.
(** sklmapx.go:39-52: the number of < comparisons of a search *)
Definition search_cost (s : skl) (key : K) : res nat :=
  let! (_, c) := levels_c (length (s_heap s)) s (s_head s) MAX_HEIGHT key 0 in Ret c.

(** What to expect: the keys with their heights. A key gets its height when it
    enters the map, by [draw] from the seed; Clear starts again with the seed c.
    sklmapx.go 54-85 *)
Definition towers : Type := Z * list (K * nat).
(** sklmapx.go 54-85: what a call should do to the heights *)
Definition tower_step (draw : Z -> Z * nat) (t : towers) (o : Z * mop K V) : towers :=
  match o.2 with
  | MSet k _ => if map_has eqb t.2 k then t
                else ((draw t.1).1, t.2 ++ [(k, (draw t.1).2)])
  | MDel k => (t.1, map_del eqb t.2 k)
  | MClear => (o.1, [])
  | _ => t
  end.
(** sklmapx.go 54-85: the heights after a history *)
Definition towers_after (draw : Z -> Z * nat) (seed : Z) (hist : list (Z * mop K V)) : towers :=
  fold_left (tower_step draw) hist (seed, []).

(** how many heights have no greater height after them;
    not code: for the comparisons of sklmapx.go 39-52 *)
Fixpoint records (hs : list nat) : nat :=
  match hs with
  | [] => 0
  | h :: t => (if forallb (fun x => x <=? h) t then 1 else 0) + records t
  end.
End Level.
