(** iox/managerx/closex/manager.go: CloseManagers that are closers of other CloseManagers
    (manager.go 8: a CloseManager is an io.Closer), in one goroutine. Simplified: the other
    closers do not use the managers (one that does: CloseConcModel), so that the lists do not
    change while Close runs. *)
From Verif Require Import Base CloseModel.

(** what is appended; manager.go 19: a manager, or any other io.Closer *)
Inductive citem := ILeaf (c : nat) | IMgr (m : nat).
(** how a call of Close ends; manager.go 25-40: returns, panics as a closer did, or waits for
    ever at manager.go 26 *)
Inductive mout := MORet (e : err) | MOPan (p : nat) | MOHang.

Section Model.
(** manager.go 14-17: the list of each manager *)
Context (ls : nat -> list citem).
(** the calls of the other closers so far and what they returned; manager.go 33 *)
Notation clog := (list (nat * option err)).
(** what a closer does; manager.go 33 *)
Context (oc : clog -> nat -> cout).
(** manager.go 25-40: Close of manager m in a goroutine that has the mutexes of held; 26: a
    sync.Mutex is not re-entrant *)
Inductive mclose : list nat -> nat -> clog -> clog -> mout -> Prop :=
| mc_hang held m log : m ∈ held -> mclose held m log log MOHang
| mc_run held m log log' o : m ∉ held -> mloop (m :: held) (ls m) [] log log' o -> mclose held m log log' o
(** manager.go 32-39: the loop and the return *)
with mloop : list nat -> list citem -> list err -> clog -> clog -> mout -> Prop :=
| ml_nil held errs log : mloop held [] errs log log (MORet (EList errs))
| ml_leaf held c its errs log log' o e : oc log c = CRet e ->
    mloop held its (errs ++ option_list e) (log ++ [(c, e)]) log' o -> mloop held (ILeaf c :: its) errs log log' o
| ml_leaf_pan held c its errs log p : oc log c = CPan p -> mloop held (ILeaf c :: its) errs log (log ++ [(c, None)]) (MOPan p)
| ml_mgr held m its errs log log1 log' o e : mclose held m log log1 (MORet e) ->
    mloop held its (errs ++ [e]) log1 log' o -> mloop held (IMgr m :: its) errs log log' o
| ml_mgr_pan held m its errs log log1 p : mclose held m log log1 (MOPan p) -> mloop held (IMgr m :: its) errs log log1 (MOPan p)
| ml_mgr_hang held m its errs log log1 : mclose held m log log1 MOHang -> mloop held (IMgr m :: its) errs log log1 MOHang.
(** iox/usingx/using.go 7-23: the closers may be managers too; the body returns. None: nil *)
Definition uclose (its : list citem) (log log' : clog) (r : option (list err)) : Prop :=
  exists errs, mloop [] its [] log log' (MORet (EList errs)) /\ r = (if decide (errs = []) then None else Some errs).
End Model.
