(** Model of dsx/mapx/syncmapx/syncmapx.go for every comparable key type, floating point
    keys included.  In SyncMapModel keys are equal in Go exactly when they are the same;
    here [eqb] is Go's == on keys: a NaN is not == to itself, +0 and -0 are different and
    ==.  The goroutines, the RWMutex and the torn writes are as in SyncMapModel. *)
From Verif Require Import Base Conc Lin SyncMapModel.

Section Model.
Context {K V : Type} (eqb : K -> K -> bool) (zero : V).
(** a Go map: its entries, in no order that matters *)
Notation gomap := (list (K * V)).

(** *** what the calls should do, one at a time, to a map that is a bag of entries;
    syncmapx.go 11-74 *)
Definition eq_spec (m : gomap) (o : mop K V) (r : mret K V) (m' : gomap) : Prop :=
  match o with
  | MGet k => ((exists k' v, (k', v) ∈ m /\ eqb k k' = true /\ r = RetV v) \/ ((forall k' v, (k', v) ∈ m -> eqb k k' = false) /\ r = RetV zero)) /\ m' = m
  | MHas k => (exists b, r = RetB b /\ (b = true <-> exists k' v, (k', v) ∈ m /\ eqb k k' = true)) /\ m' = m
  | MSize => r = RetN (length m) /\ m' = m
  | MKeys => (exists ks, r = RetK ks /\ ks ≡ₚ m.*1) /\ m' = m
  | MValues => (exists vs, r = RetVs vs /\ vs ≡ₚ m.*2) /\ m' = m
  | MSet k v => r = RetU /\ m' ≡ₚ (k, v) :: filter (fun p => eqb k p.1 = false) m
  | MDelete k => r = RetU /\ m' ≡ₚ filter (fun p => eqb k p.1 = false) m
  | MClear => r = RetU /\ m' = []
  end.

(** *** the Go map (runtime/map.go) *)
(** mapaccess1, mapaccess2: the entry whose key is == to k; syncmapx.go 19, 26 *)
Fixpoint gm_get (k : K) (m : gomap) : option V :=
  match m with [] => None | (k', v) :: m' => if eqb k k' then Some v else gm_get k m' end.
(** mapassign: the entry whose key is == to k gets the value, and the key too (needkeyupdate);
    a new entry if there is none; syncmapx.go 60 *)
Fixpoint gm_set (k : K) (v : V) (m : gomap) : gomap :=
  match m with [] => [(k, v)] | (k', v') :: m' => if eqb k k' then (k, v) :: m' else (k', v') :: gm_set k v m' end.
(** mapdelete: the entry whose key is == to k goes; syncmapx.go 66 *)
Fixpoint gm_delete (k : K) (m : gomap) : gomap :=
  match m with [] => [] | (k', v') :: m' => if eqb k k' then m' else (k', v') :: gm_delete k m' end.

(** *** the code; where a goroutine is in syncmapx.go 17-74 *)
Inductive qpc :=
| QIdle
| QWant (o : mop K V)                                              (* RLock / Lock *)
| QHold (o : mop K V)                                              (* holds the lock, before touching the map *)
| QIter (o : mop K V) (m0 : gomap) (rest done : list (K * V))      (* inside for ... range of m0 *)
| QWriting (o : mop K V)                                           (* in the middle of a map write *)
| QRel (o : mop K V) (r : mret K V)                                    (* RUnlock / Unlock *)
| QRet (o : mop K V) (r : mret K V).                                   (* return *)
(** syncmapx.go 6-9, and where the goroutines are *)
Record qstate := QS { q_map : gomap; q_torn : bool; q_crash : bool; q_writer : option nat; q_readers : list nat; q_th : nat -> qpc }.
(** syncmapx.go 11-15: New *)
Definition q_new : qstate := QS [] false false None [] (fun _ => QIdle).

(** the single map access of Get 17-22, Has 24-29, Size 31-36 *)
Definition q_read (o : mop K V) (m : gomap) : option (mret K V) :=
  match o with
  | MGet k => Some (RetV (default zero (gm_get k m)))
  | MHas k => Some (RetB (match gm_get k m with Some _ => true | None => false end))
  | MSize => Some (RetN (length m))
  | _ => None
  end.
(** Set 58-62, Delete 64-68, Clear 70-74 *)
Definition q_write (o : mop K V) (m : gomap) : option gomap :=
  match o with MSet k v => Some (gm_set k v m) | MDelete k => Some (gm_delete k m) | MClear => Some [] | _ => None end.

Notation ev := (option (lev (mop K V) (mret K V))).
(** the steps of syncmapx.go 17-74 *)
Inductive q_step : qstate -> ev -> qstate -> Prop :=
| qs_call m tn c w rs th t o : th t = QIdle ->
    q_step (QS m tn c w rs th) (Some (Inv t o)) (QS m tn c w rs (tset th t (QWant o)))
| qs_rlock m tn c rs th t o : th t = QWant o -> is_write o = false ->
    q_step (QS m tn c None rs th) None (QS m tn c None (t :: rs) (tset th t (QHold o)))
| qs_lock m tn c th t o : th t = QWant o -> is_write o = true ->
    q_step (QS m tn c None [] th) None (QS m tn c (Some t) [] (tset th t (QHold o)))
| qs_read m c w rs th t o r : th t = QHold o -> q_read o m = Some r ->
    q_step (QS m false c w rs th) (Some (Lin t o r)) (QS m false c w rs (tset th t (QRel o r)))
| qs_range m c w rs th t o l : th t = QHold o -> iter_result o [] <> None -> l ≡ₚ m ->
    q_step (QS m false c w rs th) None (QS m false c w rs (tset th t (QIter o m l [])))
| qs_next m c w rs th t o p rest dn : th t = QIter o m (p :: rest) dn ->
    q_step (QS m false c w rs th) None (QS m false c w rs (tset th t (QIter o m rest (dn ++ [p]))))
| qs_next_stale m m0 c w rs th t o rest rest' dn p : m <> m0 -> th t = QIter o m0 rest dn ->
    q_step (QS m false c w rs th) None (QS m false c w rs (tset th t (QIter o m0 rest' (dn ++ [p]))))
| qs_range_end m tn c w rs th t o m0 dn r : th t = QIter o m0 [] dn -> iter_result o dn = Some r ->
    q_step (QS m tn c w rs th) (Some (Lin t o r)) (QS m tn c w rs (tset th t (QRel o r)))
| qs_write_begin m c w rs th t o : th t = QHold o -> is_write o = true ->
    q_step (QS m false c w rs th) None (QS m true c w rs (tset th t (QWriting o)))
| qs_write_end m tn c w rs th t o m' : th t = QWriting o -> q_write o m = Some m' ->
    q_step (QS m tn c w rs th) (Some (Lin t o RetU)) (QS m' false c w rs (tset th t (QRel o RetU)))
| qs_race m c w rs th t o : (th t = QHold o \/ exists m0 p rest dn, th t = QIter o m0 (p :: rest) dn) ->
    q_step (QS m true c w rs th) None (QS m true true w rs th)
| qs_runlock m tn c w rs th t o r : th t = QRel o r -> is_write o = false ->
    q_step (QS m tn c w rs th) None (QS m tn c w (list_difference rs [t]) (tset th t (QRet o r)))
| qs_unlock m tn c w rs th t o r : th t = QRel o r -> is_write o = true ->
    q_step (QS m tn c w rs th) None (QS m tn c None rs (tset th t (QRet o r)))
| qs_return m tn c w rs th t o r : th t = QRet o r ->
    q_step (QS m tn c w rs th) (Some (Rsp t o r)) (QS m tn c w rs (tset th t QIdle)).
End Model.
Arguments qpc : clear implicits.
Arguments qstate : clear implicits.
