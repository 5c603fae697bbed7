(** Model of dsx/mapx/sklmapx/sklmapx.go.

    The heap is the list of all nodes ever allocated (head and tail sentinels
    included), a pointer is an index in it, nil is [None].  Comparison of keys is
    given by two boolean functions [ltb] and [eqb] (Go's < and == on the key type;
    != is the negation of ==), so that NaN-like keys can be expressed.
    Simplifications: [len uint] is a [Z] (it counts live nodes, it cannot wrap in
    a memory of less than 2^64 bytes); the height is a [nat] (uint16 in the code,
    always 1..16); the formatting verbs %v of String are two functions. *)
From Verif Require Import Base SplitMixModel SklSpec.

Section Skl.
Context {K V : Type} (zeroK : K) (zeroV : V) (ltb eqb : K -> K -> bool).
Context (showK : K -> list Z) (showV : V -> list Z).

(** sklmapx.go:28-33 sknode *)
Record sknode := SkNode {
  sk_key : K; sk_value : V; sk_next : list (option nat); sk_height : nat }.

(** sklmapx.go:21-26 skl, with the heap it lives in *)
Record skl := Skl {
  s_heap : list sknode; s_head : nat; s_tail : nat; s_seed : Z; s_len : Z }.

(** x.next[i] for 0 <= i < 16: the outer [res] is the nil check of x *)
Definition get_next (h : list sknode) (x i : nat) : res (option nat) :=
  let! nd := deref (h !! x) in deref (sk_next nd !! i).
(** x.next[i] = v; sklmapx.go 65-66, 80 *)
Definition set_next (h : list sknode) (x i : nat) (v : option nat) : res (list sknode) :=
  let! nd := deref (h !! x) in
  Ret (<[x := SkNode (sk_key nd) (sk_value nd) (<[i := v]> (sk_next nd)) (sk_height nd)]> h).

(** sklmapx.go:42-44 the inner loop of search at level i *)
Fixpoint sk_walk (fuel : nat) (h : list sknode) (tail x i : nat) (key : K) : res nat :=
  let! nx := get_next h x i in
  match nx with
  | Some y =>
      if (y =? tail)%nat then Ret x
      else
        let! nd := deref (h !! y) in
        if ltb (sk_key nd) key
        then match fuel with O => Spin | S f => sk_walk f h tail y i key end
        else Ret x
  | None => Panic        (* nil != tail, then nil.key *)
  end.

(** sklmapx.go:41-46 the outer loop: levels i-1, i-2, ..., 0 *)
Fixpoint sk_search_levels (fuel : nat) (h : list sknode) (tail x i : nat) (key : K) (ctx : list nat)
  : res (nat * list nat) :=
  match i with
  | O => Ret (x, ctx)
  | S i' =>
      let! x := sk_walk fuel h tail x i' key in
      sk_search_levels fuel h tail x i' key (<[i' := x]> ctx)
  end.

(** sklmapx.go:39-52 search: the node found, if any, and ctx. The walk budget is
    the number of allocated nodes. *)
Definition sk_search (s : skl) (key : K) : res (option nat * list nat) :=
  let h := s_heap s in
  let! (x, ctx) := sk_search_levels (length h) h (s_tail s) (s_head s) MAX_HEIGHT key
                                  (replicate MAX_HEIGHT 0) in
  let! nx := get_next h x 0 in
  match nx with
  | None => Panic
  | Some y =>
      if (y =? s_tail s)%nat then Ret (None, ctx)
      else let! nd := deref (h !! y) in
           if negb (eqb (sk_key nd) key) then Ret (None, ctx) else Ret (Some y, ctx)
  end.

(** sklmapx.go:64-67: for i := 0; i < level; i++ *)
Fixpoint sk_link_levels (h : list sknode) (node : nat) (ctx : list nat) (n i : nat) : res (list sknode) :=
  match n with
  | O => Ret h
  | S n' =>
      let! c := deref (ctx !! i) in
      let! v := get_next h c i in
      let! h := set_next h node i v in
      let! h := set_next h c i (Some node) in
      sk_link_levels h node ctx n' (S i)
  end.

(** sklmapx.go:54-71 insert *)
Definition sk_insert (s : skl) (key : K) (value : V) : res skl :=
  let! (x, ctx) := sk_search s key in
  match x with
  | Some x =>
      let! nd := deref (s_heap s !! x) in
      Ret (Skl (<[x := SkNode (sk_key nd) value (sk_next nd) (sk_height nd)]> (s_heap s))
               (s_head s) (s_tail s) (s_seed s) (s_len s))
  | None =>
      let '(seed, level) := rand_height (s_seed s) in
      let node := length (s_heap s) in
      let h := s_heap s ++ [SkNode key value (replicate MAX_HEIGHT None) level] in
      let! h := sk_link_levels h node ctx level 0 in
      Ret (Skl h (s_head s) (s_tail s) seed (s_len s + 1)%Z)
  end.

(** sklmapx.go:79-81: for i := 0; i < x.Height(); i++ *)
Fixpoint sk_unlink_levels (h : list sknode) (x : nat) (ctx : list nat) (n i : nat) : res (list sknode) :=
  match n with
  | O => Ret h
  | S n' =>
      let! c := deref (ctx !! i) in
      let! v := get_next h x i in
      let! h := set_next h c i v in
      sk_unlink_levels h x ctx n' (S i)
  end.

(** sklmapx.go:73-85 delete *)
Definition sk_delete (s : skl) (key : K) : res (skl * bool) :=
  let! (x, ctx) := sk_search s key in
  match x with
  | None => Ret (s, false)
  | Some x =>
      let! nd := deref (s_heap s !! x) in
      let! h := sk_unlink_levels (s_heap s) x ctx (sk_height nd) 0 in
      Ret (Skl h (s_head s) (s_tail s) (s_seed s) (s_len s - 1)%Z, true)
  end.

(** sklmapx.go:111-119 New, on a heap [h], with the seed drawn by root_next *)
Definition new_on (h : list sknode) (seed : Z) : skl :=
  let head := length h in
  let tail := S head in
  Skl (h ++ [SkNode zeroK zeroV (replicate MAX_HEIGHT (Some tail)) 0;
             SkNode zeroK zeroV (replicate MAX_HEIGHT None) 0])
      head tail seed 0.
(** sklmapx.go 111-119: New *)
Definition skl_new (seed : Z) : skl := new_on [] seed.

(** sklmapx.go:188-191 Clear: the nodes of the old list stay in memory *)
Definition sk_clear (s : skl) (seed : Z) : skl := new_on (s_heap s) seed.

(** sklmapx.go:101-109 Get *)
Definition sk_get (s : skl) (key : K) : res (answer V) :=
  let! (x, _) := sk_search s key in
  match x with
  | None => Ret None
  | Some x => let! nd := deref (s_heap s !! x) in Ret (Some (sk_value nd))
  end.

(** *** Iterators, sklmapx.go:193-197.  The ctx field is written by Seek and
    never read: only [node] is kept. *)
Definition iter := option nat.

(** sklmapx.go:121-123 Iterator *)
Definition it_new : iter := None.

(** sklmapx.go:199-207 Seek *)
Definition it_seek (s : skl) (key : K) : res (iter * answer (K * V)) :=
  let! (x, _) := sk_search s key in
  match x with
  | None => Ret (None, None)
  | Some x => let! nd := deref (s_heap s !! x) in Ret (Some x, Some (sk_key nd, sk_value nd))
  end.

(** sklmapx.go:209-211 Rewind *)
Definition it_rewind (it : iter) : iter := None.

(** sklmapx.go:213-225 Next: the new position and the answer. A position on nil
    (the tail sentinel's next) panics at the i.node.key read. *)
Definition it_next (s : skl) (it : iter) : res (iter * answer (K * V)) :=
  let! n := match it with
            | None => get_next (s_heap s) (s_head s) 0
            | Some x => get_next (s_heap s) x 0
            end in
  match n with
  | None => Panic
  | Some y =>
      if (y =? s_tail s)%nat then Ret (Some y, None)
      else let! nd := deref (s_heap s !! y) in
           Ret (Some y, Some (sk_key nd, sk_value nd))
  end.

(** The loop shared by String, Keys, Values, ToMap (sklmapx.go:130-140, 148-154,
    161-167, 178-184): the entries seen until ok is false. *)
Fixpoint sk_enum (fuel : nat) (s : skl) (it : iter) : res (list (K * V)) :=
  let! (it, a) := it_next s it in
  match a with
  | None => Ret []
  | Some e => match fuel with
              | O => Spin
              | S f => let! r := sk_enum f s it in Ret (e :: r)
              end
  end.
(** sklmapx.go 121-123, 213-225: the pairs that an iterator gives *)
Definition sk_entries (s : skl) : res (list (K * V)) := sk_enum (length (s_heap s)) s it_new.

(** sklmapx.go:145-156 Keys, 158-169 Values *)
Definition sk_keys (s : skl) : res (list K) := let! es := sk_entries s in Ret (es.*1).
(** sklmapx.go 158-169: Values *)
Definition sk_values (s : skl) : res (list V) := let! es := sk_entries s in Ret (es.*2).

(** sklmapx.go:125-143 String, as a list of bytes; "sklmapx[" ... ' ' ... ']' *)
Fixpoint sk_render (first : bool) (es : list (K * V)) : list Z :=
  match es with
  | [] => []
  | (k, v) :: es' =>
      (if first then [] else [32%Z]) ++ showK k ++ [58%Z] ++ showV v ++ sk_render false es'
  end.
(** sklmapx.go 125-143: String *)
Definition sk_to_string (s : skl) : res (list Z) :=
  let! es := sk_entries s in
  Ret ([115; 107; 108; 109; 97; 112; 120; 91]%Z ++ sk_render true es ++ [93%Z]).

(** sklmapx.go:175-186 ToMap.  A Go map is an association list without
    duplicates, in an unspecified order; assignment replaces. *)
Fixpoint gomap_set (m : list (K * V)) (k : K) (v : V) : list (K * V) :=
  match m with
  | [] => [(k, v)]
  | (k', v') :: m' => if eqb k' k then (k', v) :: m' else (k', v') :: gomap_set m' k v
  end.
(** sklmapx.go 175-186: ToMap *)
Definition sk_to_map (s : skl) : res (list (K * V)) :=
  let! es := sk_entries s in Ret (fold_left (fun m e => gomap_set m e.1 e.2) es []).

(** sklmapx.go:171-173 Len *)
Definition sk_len (s : skl) : Z := s_len s.

(** One call. The number is the seed drawn by the call if it is a Clear. sklmapx.go 91-191 *)
Definition m_step (s : skl) (o : Z * mop K V) : res (skl * mret K V) :=
  match o.2 with
  | MSet k v => let! s' := sk_insert s k v in Ret (s', MUnit)
  | MDel k => let! (s', b) := sk_delete s k in Ret (s', MBool b)
  | MGet k => let! v := sk_get s k in Ret (s, MVal v)
  | MLen => Ret (s, MInt (sk_len s))
  | MClear => Ret (sk_clear s o.1, MUnit)
  | MKeys => let! l := sk_keys s in Ret (s, MKeyList l)
  | MValues => let! l := sk_values s in Ret (s, MValList l)
  | MString => let! l := sk_to_string s in Ret (s, MStr l)
  | MToMap => let! l := sk_to_map s in Ret (s, MMap l)
  end.

(** A map and one iterator on it. sklmapx.go 91-225 *)
Definition i_step (st : skl * iter) (o : Z * iop K V) : res ((skl * iter) * iret K V) :=
  let '(s, it) := st in
  match o.2 with
  | IMap m => let! (s', r) := m_step s (o.1, m) in Ret ((s', it), IRet r)
  | INext => let! (it', a) := it_next s it in Ret ((s, it'), IAns a)
  | ISeek k => let! (it', a) := it_seek s k in Ret ((s, it'), IAns a)
  | IRewind => Ret ((s, it_rewind it), IDone)
  end.
End Skl.
Arguments skl K V : clear implicits.
Arguments sknode K V : clear implicits.
