(** iox/managerx/closex/manager.go: CloseManagers that are closers of other CloseManagers, used
    by any number of goroutines. Simplified: the other closers return or panic and do not use
    the managers; Append is one step once the mutex is free, and so are Lock and the begin of
    the loop, as nobody can tell; errors are left out (C198). *)
From Verif Require Import Base Conc CloseTreeModel.

(** what a goroutine does; the calls are those of manager.go 19-40 *)
Inductive wcode := WEnd | WAppend (m : nat) (i : citem) (k : wcode) | WClose (m : nat) (k : wcode).
(** a goroutine is in its code, what is left of it after the calls it is in, or it unwinds a
    panic; manager.go 25-40 *)
Inductive wpc := WGo (k : wcode) | WUnw.
(** its calls of Close, innermost first: the manager, and what is left of the loop at
    manager.go 32 *)
Record wthr := WT { w_pc : wpc; w_in : list (nat * list citem) }.
(** manager.go 14-17 for each manager, and the goroutines *)
Record wstate := WS { w_list : nat -> list citem; w_mu : nat -> option nat; w_th : nat -> wthr }.
(** manager.go 10-12; goroutine t is about to execute main t *)
Definition w_init (main : nat -> wcode) : wstate := WS (fun _ => []) (fun _ => None) (fun t => WT (WGo (main t)) []).
(** the steps of manager.go 19-40; labelled with the goroutine *)
Inductive w_step : wstate -> nat -> wstate -> Prop :=
(** 20-22: Append *)
| ws_append l mu th t m i k : th t = WT (WGo (WAppend m i k)) [] -> mu m = None ->
    w_step (WS l mu th) t (WS (tset l m (l m ++ [i])) mu (tset th t (WT (WGo k) [])))
(** 26-32: Close *)
| ws_close l mu th t m k : th t = WT (WGo (WClose m k)) [] -> mu m = None ->
    w_step (WS l mu th) t (WS l (tset mu m (Some t)) (tset th t (WT (WGo k) [(m, l m)])))
(** 33: a closer that is no manager returns, or panics *)
| ws_leaf l mu th t m c r k st : th t = WT (WGo k) ((m, ILeaf c :: r) :: st) ->
    w_step (WS l mu th) t (WS l mu (tset th t (WT (WGo k) ((m, r) :: st))))
| ws_leaf_pan l mu th t m c r k st : th t = WT (WGo k) ((m, ILeaf c :: r) :: st) ->
    w_step (WS l mu th) t (WS l mu (tset th t (WT WUnw ((m, r) :: st))))
(** 33, and 26-32 in the manager inside *)
| ws_mgr l mu th t m a r k st : th t = WT (WGo k) ((m, IMgr a :: r) :: st) -> mu a = None ->
    w_step (WS l mu th) t (WS l (tset mu a (Some t)) (tset th t (WT (WGo k) ((a, l a) :: (m, r) :: st))))
(** 27, 39: the loop is over *)
| ws_rel l mu th t m k st : th t = WT (WGo k) ((m, []) :: st) ->
    w_step (WS l mu th) t (WS l (tset mu m None) (tset th t (WT (WGo k) st)))
(** 27: the panic goes on *)
| ws_unw l mu th t m r st : th t = WT WUnw ((m, r) :: st) ->
    w_step (WS l mu th) t (WS l (tset mu m None) (tset th t (WT WUnw st))).
