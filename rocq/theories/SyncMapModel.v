(** Model of dsx/mapx/syncmapx/syncmapx.go: any number of goroutines, the
    RWMutex, and the Go map it protects.  A map write is two steps, between which
    the map is "torn": the runtime aborts the program ([Crash]) when another
    goroutine touches a torn map.  An iteration takes one step per element, in an
    arbitrary order; if the map changed since it started it yields anything. *)
From stdpp Require Import gmap.
From Verif Require Import Base Conc Lin.

Section Model.
Context {K V : Type} `{Countable K} (zero : V).
Notation gomap := (gmap K V).

(** the methods of syncmapx.go 17-74 *)
Inductive mop := MGet (k : K) | MHas (k : K) | MSize | MKeys | MValues | MSet (k : K) (v : V) | MDelete (k : K) | MClear.
(** the results of syncmapx.go 17-74 *)
Inductive mret := RetV (v : V) | RetB (b : bool) | RetN (n : nat) | RetK (l : list K) | RetVs (l : list V) | RetU.

(** *** what the calls should do, one at a time; syncmapx.go 17-74 *)
Definition map_spec (m : gomap) (o : mop) (r : mret) (m' : gomap) : Prop :=
  match o with
  | MGet k => r = RetV (default zero (m !! k)) /\ m' = m
  | MHas k => r = RetB (bool_decide (is_Some (m !! k))) /\ m' = m
  | MSize => r = RetN (size m) /\ m' = m
  | MKeys => (exists ks, r = RetK ks /\ ks ≡ₚ (map_to_list m).*1) /\ m' = m
  | MValues => (exists vs, r = RetVs vs /\ vs ≡ₚ (map_to_list m).*2) /\ m' = m
  | MSet k v => r = RetU /\ m' = <[k := v]> m
  | MDelete k => r = RetU /\ m' = delete k m
  | MClear => r = RetU /\ m' = ∅
  end.

(** *** the code; syncmapx.go 58-74: the methods that take Lock *)
Definition is_write (o : mop) : bool := match o with MSet _ _ | MDelete _ | MClear => true | _ => false end.
(** where a goroutine is in syncmapx.go 17-74 *)
Inductive mpc :=
| MIdle
| MWant (o : mop)                                              (* RLock / Lock *)
| MHold (o : mop)                                              (* holds the lock, before touching the map *)
| MIter (o : mop) (m0 : gomap) (rest done : list (K * V))      (* inside for ... range of m0 *)
| MWriting (o : mop)                                           (* in the middle of a map write *)
| MRel (o : mop) (r : mret)                                    (* RUnlock / Unlock *)
| MRet (o : mop) (r : mret).                                   (* return *)
(** syncmapx.go 6-9, and where the goroutines are *)
Record mstate := MS { m_map : gomap; m_torn : bool; m_crash : bool; m_writer : option nat; m_readers : list nat; m_th : nat -> mpc }.
(** syncmapx.go 11-15: New *)
Definition m_new : mstate := MS ∅ false false None [] (fun _ => MIdle).

(** the single map access of Get 17-22, Has 24-29, Size 31-36 *)
Definition read_result (o : mop) (m : gomap) : option mret :=
  match o with
  | MGet k => Some (RetV (default zero (m !! k)))
  | MHas k => Some (RetB (bool_decide (is_Some (m !! k))))
  | MSize => Some (RetN (size m))
  | _ => None
  end.
(** Keys 38-46, Values 48-56: what has been collected *)
Definition iter_result (o : mop) (done : list (K * V)) : option mret :=
  match o with MKeys => Some (RetK done.*1) | MValues => Some (RetVs done.*2) | _ => None end.
(** Set 58-62, Delete 64-68, Clear 70-74 *)
Definition write_result (o : mop) (m : gomap) : option gomap :=
  match o with MSet k v => Some (<[k := v]> m) | MDelete k => Some (delete k m) | MClear => Some ∅ | _ => None end.

Notation ev := (option (lev mop mret)).
(** the steps of syncmapx.go 17-74 *)
Inductive m_step : mstate -> ev -> mstate -> Prop :=
| ms_call m tn c w rs th t o : th t = MIdle ->
    m_step (MS m tn c w rs th) (Some (Inv t o)) (MS m tn c w rs (tset th t (MWant o)))
| ms_rlock m tn c rs th t o : th t = MWant o -> is_write o = false ->
    m_step (MS m tn c None rs th) None (MS m tn c None (t :: rs) (tset th t (MHold o)))
| ms_lock m tn c th t o : th t = MWant o -> is_write o = true ->
    m_step (MS m tn c None [] th) None (MS m tn c (Some t) [] (tset th t (MHold o)))
| ms_read m c w rs th t o r : th t = MHold o -> read_result o m = Some r ->
    m_step (MS m false c w rs th) (Some (Lin t o r)) (MS m false c w rs (tset th t (MRel o r)))
| ms_range m c w rs th t o l : th t = MHold o -> iter_result o [] <> None -> l ≡ₚ map_to_list m ->
    m_step (MS m false c w rs th) None (MS m false c w rs (tset th t (MIter o m l [])))
| ms_next m c w rs th t o p rest dn : th t = MIter o m (p :: rest) dn ->
    m_step (MS m false c w rs th) None (MS m false c w rs (tset th t (MIter o m rest (dn ++ [p]))))
| ms_next_stale m m0 c w rs th t o rest rest' dn p : m <> m0 -> th t = MIter o m0 rest dn ->
    m_step (MS m false c w rs th) None (MS m false c w rs (tset th t (MIter o m0 rest' (dn ++ [p]))))
| ms_range_end m tn c w rs th t o m0 dn r : th t = MIter o m0 [] dn -> iter_result o dn = Some r ->
    m_step (MS m tn c w rs th) (Some (Lin t o r)) (MS m tn c w rs (tset th t (MRel o r)))
| ms_write_begin m c w rs th t o : th t = MHold o -> is_write o = true ->
    m_step (MS m false c w rs th) None (MS m true c w rs (tset th t (MWriting o)))
| ms_write_end m tn c w rs th t o m' : th t = MWriting o -> write_result o m = Some m' ->
    m_step (MS m tn c w rs th) (Some (Lin t o RetU)) (MS m' false c w rs (tset th t (MRel o RetU)))
| ms_race m c w rs th t o : (th t = MHold o \/ exists m0 p rest dn, th t = MIter o m0 (p :: rest) dn) ->
    m_step (MS m true c w rs th) None (MS m true true w rs th)
| ms_runlock m tn c w rs th t o r : th t = MRel o r -> is_write o = false ->
    m_step (MS m tn c w rs th) None (MS m tn c w (list_difference rs [t]) (tset th t (MRet o r)))
| ms_unlock m tn c w rs th t o r : th t = MRel o r -> is_write o = true ->
    m_step (MS m tn c w rs th) None (MS m tn c None rs (tset th t (MRet o r)))
| ms_return m tn c w rs th t o r : th t = MRet o r ->
    m_step (MS m tn c w rs th) (Some (Rsp t o r)) (MS m tn c w rs (tset th t MIdle)).
End Model.
Arguments mop : clear implicits.
Arguments mret : clear implicits.
Arguments mpc K V {_ _}.
Arguments mstate K V {_ _}.
