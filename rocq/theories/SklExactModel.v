(** A map of dsx/mapx/sklmapx/sklmapx.go with any number of iterators on it; the methods are
    those of SklModel.v.  Iterator() (121-123) gives an iterator in the state [it_new]. *)
From Verif Require Import Base Conc SklSpec SklModel SklExactSpec.

Section Model.
Context {K V : Type} (zeroK : K) (zeroV : V) (ltb eqb : K -> K -> bool) (showK : K -> list Z) (showV : V -> list Z).
(** sklmapx.go 91-225: one call, of the map or of an iterator *)
Definition x_step (st : skl K V * (nat -> iter)) (o : Z * xop K V) : res ((skl K V * (nat -> iter)) * iret K V) :=
  let '(s, its) := st in
  match o.2 with
  | XMap m => let! (s', r) := m_step zeroK zeroV ltb eqb showK showV s (o.1, m) in Ret ((s', its), IRet r)
  | XNext i => let! (it, a) := it_next s (its i) in Ret ((s, tset its i it), IAns a)
  | XSeek i k => let! (it, a) := it_seek ltb eqb s k in Ret ((s, tset its i it), IAns a)
  | XRewind i => Ret ((s, tset its i (it_rewind (its i))), IDone)
  end.
End Model.
