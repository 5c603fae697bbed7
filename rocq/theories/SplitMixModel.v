(** Model of dsx/mapx/sklmapx/splitmix64.go and of rand_height
    (dsx/mapx/sklmapx/sklmapx.go:9-19). uint64 values are [Z] in [0, 2^64),
    every operation that can overflow is wrapped with [u64]. *)
From Verif Require Import Base.
Local Open Scope Z_scope.

(** splitmix64.go:22 incrementConstant *)
Definition incrementConstant : Z := 0x9e3779b97f4a7c15.

(** splitmix64.go:24-28 next *)
Definition mix (x0 : Z) : Z :=
  let x0 := u64 (Z.lxor x0 (Z.shiftr x0 30) * 0xbf58476d1ce4e5b9) in
  let x0 := u64 (Z.lxor x0 (Z.shiftr x0 27) * 0x94d049bb133111eb) in
  Z.lxor x0 (Z.shiftr x0 31).

(** splitmix64.go:30-34 splitmix64: new state and value *)
Definition splitmix64 (state : Z) : Z * Z :=
  let state := u64 (state + incrementConstant) in (state, mix state).

(** splitmix64.go:38-44 initialisation of root_seed from the Int63 of the
    process-start random source (quantified) *)
Definition root_init (s : Z) : Z := mix (u64 (s + incrementConstant)).

(** splitmix64.go:46-49 root_next: the atomic add and the value returned *)
Definition root_next (root : Z) : Z * Z :=
  let root := u64 (root + incrementConstant) in (root, mix root).

(** sklmapx.go:9 MAX_HEIGHT *)
Definition MAX_HEIGHT : nat := 16.

(** sklmapx.go:11-19 rand_height: the new seed and the height.  [n] is the
    number of iterations left before h reaches MAX_HEIGHT. *)
Fixpoint rand_height_loop (n h : nat) (seed : Z) : Z * nat :=
  match n with
  | O => (seed, h)
  | S n' =>
      let '(seed, v) := splitmix64 seed in
      if Z.land v 1 =? 1 then (seed, h) else rand_height_loop n' (S h) seed
  end.
(** sklmapx.go 11-19: rand_height *)
Definition rand_height (seed : Z) : Z * nat := rand_height_loop (MAX_HEIGHT - 1) 1 seed.
