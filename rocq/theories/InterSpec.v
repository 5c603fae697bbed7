(** Intervals offset +- band, for the agreement algorithm of timex/intersectionx. *)
From Verif Require Import Base.
Local Open Scope Z.

Record interval := IV { iv_off : Z; iv_band : Z }.
Definition lo (i : interval) : Z := iv_off i - iv_band i.
Definition hi (i : interval) : Z := iv_off i + iv_band i.
(** the ends are representable *)
Definition fits (i : interval) : Prop := is_i64 (lo i) /\ is_i64 (hi i).
Definition covers (i : interval) (x : Z) : bool := (lo i <=? x) && (x <=? hi i).
(** how many elements satisfy a test *)
Definition count {A} (p : A -> bool) (l : list A) : Z := foldr (fun x n => (if p x then 1 else 0) + n) 0 l.
