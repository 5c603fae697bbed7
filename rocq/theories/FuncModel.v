(** Model of functionalx/optionx/optionx.go, functionalx/resultx/resultx.go and
    configx/optionalx/optionalx.go.  A caller's function may have effects: it
    acts on a caller's state [S] and may panic (or not return). *)
From Verif Require Import Base.

Section Model.
Context {S T E : Type} (zeroT : T) (zeroE : E).
(** the functions given to optionx.go, resultx.go and optionalx.go 3-9 *)
Definition proc (R : Type) := S -> res (S * R).

(** optionx.go 3-6: Option.  The zero value of the struct is a None. *)
Record option_t := Opt { o_data : T; o_exist : bool }.
(** optionx.go 8-10: Some *)
Definition o_some (data : T) : option_t := Opt data true.
(** optionx.go 12-14: None *)
Definition o_none : option_t := Opt zeroT false.
(** optionx.go 16-21: Match; the result is the pair (T, error) *)
Definition o_match (t : option_t) (f : T -> proc (T * E)) (g : proc (T * E)) : proc (T * E) :=
  if o_exist t then f (o_data t) else g.

(** resultx.go 3-7: Result *)
Record result_t := Res { r_data : T; r_error : E; r_ok : bool }.
(** resultx.go 9-11: Ok *)
Definition r_mk_ok (data : T) : result_t := Res data zeroE true.
(** resultx.go 13-15: Err *)
Definition r_mk_err (e : E) : result_t := Res zeroT e false.
(** resultx.go 17-22: Match *)
Definition r_match (t : result_t) (f : T -> proc (T * E)) (g : E -> proc (T * E)) : proc (T * E) :=
  if r_ok t then f (r_data t) else g (r_error t).
End Model.
Arguments proc : clear implicits.

(** optionalx.go 3-9: Parameter.  [option ptr] is a possibly nil pointer.  The
    caller's functions get the pointer and act on the state. *)
Fixpoint parameter_loop {S P} (p : option P) (funcs : list (option P -> proc S (option P))) (s : S) : res (S * option P) :=
  match funcs with
  | [] => Ret (s, p)
  | f :: fs => let! (s', p') := f p s in parameter_loop p' fs s'
  end.
(** optionalx.go 3-9: Parameter *)
Definition parameter {S P R} (constructor : option P -> proc S R) (funcs : list (option P -> proc S (option P))) : proc S R :=
  fun s => let! (s', p) := parameter_loop None funcs s in constructor p s'.
