(** Running programs over an OrdMap, see OrdExactSpec.v. *)
From Verif Require Import Base SplitMixModel SklSpec SklModel OrdMapSpec OrdMapModel SklExactSpec OrdExactSpec.

Section M.
Context {K V A : Type} (zeroK : K) (zeroV : V) (ltb eqb : K -> K -> bool).
Section Loop.
(** ordmapx.go:65-76 Range: like [range_loop], with the calls of callbacks in the order of
    their beginnings *)
Context (f : A -> K -> V -> ordmap K V -> list (K * V) * res (A * ordmap K V * bool)).
(** ordmapx.go 65-76: Range, its callback a program *)
Fixpoint nrange (fuel : nat) (a : A) (om : ordmap K V) (it : iter) : list (K * V) * res (A * ordmap K V) :=
  match it_next (o_skl om) it with
  | Ret (_, None) => ([], Ret (a, om))
  | Ret (it', Some (k, _)) =>
      let v := default zeroV (gm_get eqb (o_m om) k) in
      let '(t, r) := f a k v om in
      match r with
      | Ret (a', om', stop) =>
          if stop then ((k, v) :: t, Ret (a', om'))
          else match fuel with
               | O => ((k, v) :: t, Spin)
               | S fuel' => let '(t', r') := nrange fuel' a' om' it' in ((k, v) :: t ++ t', r')
               end
      | Panic => ((k, v) :: t, Panic)
      | Spin => ((k, v) :: t, Spin)
      end
  | Panic => ([], Panic)
  | Spin => ([], Spin)
  end.
End Loop.
(** running a program; a Range with more than [n] + 1 visits counts as endless;
    ordmapx.go 20-76: the calls *)
Fixpoint nexec (n : nat) (p : nprog K V A) (om : ordmap K V) : list (K * V) * res (A * ordmap K V * bool) :=
  match p with
  | NRet a stop => ([], Ret (a, om, stop))
  | NCall c o q => match o_step zeroK zeroV ltb eqb om (c, o) with
                   | Ret (om', r) => nexec n (q r) om'
                   | Panic => ([], Panic)
                   | Spin => ([], Spin)
                   end
  | NRange f a q =>
      let '(t, r) := nrange (fun a k v om => nexec n (f a k v) om) n a om it_new in
      match r with
      | Ret (a', om') => let '(t', r') := nexec n (q a') om' in (t ++ t', r')
      | Panic => (t, Panic)
      | Spin => (t, Spin)
      end
  end.

End M.
