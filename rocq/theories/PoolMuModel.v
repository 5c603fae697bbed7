(** Model of poolx/gopoolx/timedpool.go with the mutex written out: what PoolModel does in one
    step between mu.Lock and mu.Unlock is here one step per access, and every goroutine may move
    in between.  The memory is PoolModel's state; a goroutine that is inside a critical section
    has its place there in [f_run], [f_gor], [f_col] or [f_wk], and PoolModel's place stays at the
    Lock until the Unlock.  [p_own] is not used.  The channel that the constructor of the
    sync.Pool makes (47-49) is replaced in line 162 before anyone sees it and is left out. *)
From Verif Require Import Base Conc PoolModel.
Local Open Scope Z.

(** Run, 146-170 *)
Inductive rpos :=
| ROut
| RChk                            (* 148: pool.maxWorkers == -1 *)
| RLen                            (* 154: len(pool.dobby) > 0 *)
| RTake                           (* 155 *)
| RShrink (w : nat)               (* 156 *)
| RCap                            (* 159: pool.workers < pool.maxWorkers *)
| RInc                            (* 160 *)
| RGet                            (* 161 *)
| RMake (w : nat)                 (* 162 *)
| RGo (w : nat)                   (* 163 *)
| RSend (w : nat)                 (* 169: Unlock *)
| RFalse.                         (* 149 and 165: Unlock and return false *)
(** free, 133-141, and the end of tworker, 40-42 *)
Inductive gpos :=
| GOut
| FChk                            (* 134 *)
| FDec                            (* 135 *)
| FStop                           (* 136: Unlock *)
| FApp                            (* 139 *)
| FKeep                           (* 140: Unlock *)
| XDec                            (* 41 *)
| XUnl.                           (* 42 *)
(** the collector, 71-101 and 113-125 *)
Inductive cpos :=
| COut
| CTick                           (* 71: the ticker fired; 72: Lock *)
| CChk                            (* 73 *)
| CNow                            (* 83 *)
| CProbe (now : Z) (l r : nat)    (* 86-95, dobby[m].tt read once per round *)
| CBuf (l : nat)                  (* 97 *)
| CCopy (l : nat) (buf : list nat) (* 98 *)
| CTrunc (l : nat) (buf : list nat) (* 99 *)
| CUnl (buf : list nat)           (* 101: Unlock *)
| CSMax                           (* 115 *)
| CAll (ws : list nat).           (* 75-79 and 116-125: close the channels one by one, Unlock, return *)
(** Workers, 215-220 *)
Inductive wpos := WOut | WLock | WRead | WUnl (n : Z).
(** who holds pool.mu: timedpool.go 146, 40 and 133, 72 and 114, 216 *)
Inductive holder := HRun (t : nat) | HGor (g : nat) | HCol | HWork (u : nat).

(** timedpool.go 13-30, pool.mu, and the places inside the critical sections *)
Record fstate := FS { f_s : pstate; f_mu : option holder; f_run : nat -> rpos; f_gor : nat -> gpos; f_col : cpos; f_wk : nat -> wpos }.
(** what the steps show to the outside; FWorkers is timedpool.go 219 *)
Inductive flab := FL (l : plab) | FWorkers (u : nat) (n : Z).

(** the steps outside the critical sections: those of PoolModel;
    timedpool.go 32-39, 103-111, 132, 171, 207-213 *)
Inductive o_step : pstate -> plab -> pstate -> Prop :=
| os_clock s x : p_clock s <= x -> o_step s LPTau (set_clock x s)
| os_call s t : p_job s t = JIdle -> o_step s (LCall t) (set_job (tset (p_job s) t JLock) s)
| os_send s t w c : p_job s t = JSend w -> p_obj s w = Some c -> p_closed s c = false -> p_buf s c = None ->
    o_step s (LRet t true) (set_buf (tset (p_buf s) c (Some t)) (set_job (tset (p_job s) t (JRet true)) s))
| os_send_closed s t w c : p_job s t = JSend w -> p_obj s w = Some c -> p_closed s c = true ->
    o_step s LPTau (set_job (tset (p_job s) t JPanic) s)
| os_start s g w c : p_gor s g = GStart w -> p_obj s w = Some c -> o_step s LPTau (set_gor (tset (p_gor s) g (GRecv w c)) s)
| os_start_nil s g w : p_gor s g = GStart w -> p_obj s w = None -> o_step s LPTau (set_gor (tset (p_gor s) g (GNil w)) s)
| os_recv s g w c t : p_gor s g = GRecv w c -> p_buf s c = Some t ->
    o_step s (LBegin t) (set_buf (tset (p_buf s) c None) (set_gor (tset (p_gor s) g (GHandle w c t)) (set_started (tset (p_started s) t (S (p_started s t))) s)))
| os_range_end s g w c : p_gor s g = GRecv w c -> p_buf s c = None -> p_closed s c = true ->
    o_step s LPTau (set_gor (tset (p_gor s) g GExit) s)
| os_handled s g w c t : p_gor s g = GHandle w c t -> o_step s (LEnd t) (set_gor (tset (p_gor s) g (GFree w c)) s)
| os_tt s g w c : p_gor s g = GFree w c ->
    o_step s LPTau (set_gor (tset (p_gor s) g (GLock w c)) (set_tt (tset (p_tt s) w (p_clock s)) s))
| os_stop_call s u : p_st s u = SIdle -> o_step s (LStop u) (set_st (tset (p_st s) u (if p_stop s then SAgain else SDone)) s)
| os_stop_again s u : p_st s u = SAgain -> o_step s LPTau (set_st (tset (p_st s) u (if p_stop s then SSend else SStuck)) s)
| os_stop_nil s u : p_st s u = SNil -> o_step s (LStopped u) (set_stop false (set_st (tset (p_st s) u SDone) s)).
(** and those of the collector, 104-111 and 113 *)
Inductive oc_step : pstate -> plab -> pstate -> Prop :=
| oc_close s w ws c : p_col s = CDrain (w :: ws) -> p_obj s w = Some c -> p_closed s c = false ->
    oc_step s LPTau (set_closed (tset (p_closed s) c true) (set_col (CNil w ws) s))
| oc_close_panic s w ws : p_col s = CDrain (w :: ws) -> (forall c, p_obj s w = Some c -> p_closed s c = true) ->
    oc_step s LPTau (set_col CPanic s)
| oc_nil s w ws : p_col s = CNil w ws ->
    oc_step s LPTau (set_tt (tset (p_tt s) w 0) (set_obj (tset (p_obj s) w None) (set_col (CPut w ws) s)))
| oc_put s w ws : p_col s = CPut w ws -> oc_step s LPTau (set_pool (w :: p_pool s) (set_col (CDrain ws) s))
| oc_drained s : p_col s = CDrain [] -> oc_step s LPTau (set_col CWait s)
| oc_meet s u : p_col s = CWait -> p_st s u = SSend -> oc_step s LPTau (set_col CStop (set_st (tset (p_st s) u SNil) s)).

Section step.
Context (idle : Z).   (* idleTimeout *)
Notation tau := (FL LPTau).
(** a step of the holder of the mutex inside a critical section; timedpool.go 146-169: Run *)
Inductive r_step (t : nat) : pstate -> rpos -> pstate -> rpos -> Prop :=
| rs_stop s : p_max s = -1 -> r_step t s RChk s RFalse
| rs_chk s : p_max s <> -1 -> r_step t s RChk s RLen
| rs_some s : p_dobby s <> [] -> r_step t s RLen s RTake
| rs_none s : p_dobby s = [] -> r_step t s RLen s RCap
| rs_take s d w : p_dobby s = d ++ [w] -> r_step t s RTake s (RShrink w)
| rs_shrink s d w w' : p_dobby s = d ++ [w'] -> r_step t s (RShrink w) (set_dobby d s) (RSend w)
| rs_cap s : p_workers s < p_max s -> r_step t s RCap s RInc
| rs_full s : p_max s <= p_workers s -> r_step t s RCap s RFalse
| rs_inc s : r_step t s RInc (set_workers (p_workers s + 1) s) RGet
| rs_new s : r_step t s RGet (set_nobj (S (p_nobj s)) s) (RMake (p_nobj s))
| rs_recycled s p1 w p2 : p_pool s = p1 ++ w :: p2 -> r_step t s RGet (set_pool (p1 ++ p2) s) (RMake w)
| rs_make s w : r_step t s (RMake w) (set_obj (tset (p_obj s) w (Some (p_nch s))) (set_nch (S (p_nch s)) s)) (RGo w)
| rs_go s w : r_step t s (RGo w) (set_gor (tset (p_gor s) (p_ng s) (GStart w)) (set_ng (S (p_ng s)) s)) (RSend w).
(** the same for timedpool.go 40-42 and 133-141: the end of tworker, and free *)
Inductive g_step (g : nat) : pstate -> gpos -> pstate -> gpos -> Prop :=
| gs_stop s : p_max s = -1 -> g_step g s FChk s FDec
| gs_chk s : p_max s <> -1 -> g_step g s FChk s FApp
| gs_dec s : g_step g s FDec (set_workers (p_workers s - 1) s) FStop
| gs_app s w c : p_gor s g = GLock w c -> g_step g s FApp (set_dobby (p_dobby s ++ [w]) s) FKeep
| gs_exit s : g_step g s XDec (set_workers (p_workers s - 1) s) XUnl.
(** the same for timedpool.go 72-101 and 114-124: the collector *)
Inductive c_step : pstate -> cpos -> pstate -> cpos -> Prop :=
| cs_stopped s : p_max s = -1 -> c_step s CChk s (CAll (p_dobby s))
| cs_chk s : p_max s <> -1 -> c_step s CChk s CNow
| cs_now s : c_step s CNow s (if decide (p_dobby s = []) then CUnl [] else CProbe (p_clock s - idle) 0 (length (p_dobby s)))
| cs_probe s now l r m : (l < r)%nat -> m = Nat.div (l + r) 2 ->
    c_step s (CProbe now l r) s (if nth m (map (p_tt s) (p_dobby s)) 0 <? now then CProbe now (S m) r else CProbe now l m)
| cs_probed s now l r : ~ (l < r)%nat -> c_step s (CProbe now l r) s (CBuf l)
| cs_buf s l : c_step s (CBuf l) s (CCopy l (take l (p_dobby s)))
| cs_copy s l buf : c_step s (CCopy l buf) (set_dobby (drop l (p_dobby s) ++ drop (length (p_dobby s) - l) (p_dobby s)) s) (CTrunc l buf)
| cs_trunc s l buf : c_step s (CTrunc l buf) (set_dobby (take (length (p_dobby s) - l) (p_dobby s)) s) (CUnl buf)
| cs_max s : c_step s CSMax (set_max (-1) s) (CAll (p_dobby s))
| cs_close s w ws c : p_obj s w = Some c -> p_closed s c = false -> c_step s (CAll (w :: ws)) (set_closed (tset (p_closed s) c true) s) (CAll ws)
| cs_panic s w ws : (forall c, p_obj s w = Some c -> p_closed s c = true) -> c_step s (CAll (w :: ws)) (set_col CPanic s) COut.

(** the steps of timedpool.go 32-220 *)
Inductive f_step : fstate -> flab -> fstate -> Prop :=
| fs_out s mu fr fg fc fw l s' : o_step s l s' -> f_step (FS s mu fr fg fc fw) (FL l) (FS s' mu fr fg fc fw)
| fs_out_col s mu fr fg fw l s' : oc_step s l s' -> f_step (FS s mu fr fg COut fw) (FL l) (FS s' mu fr fg COut fw)
(* Run *)
| fs_run_lock s fr fg fc fw t : p_job s t = JLock -> fr t = ROut ->
    f_step (FS s None fr fg fc fw) tau (FS s (Some (HRun t)) (tset fr t RChk) fg fc fw)
| fs_run s mu fr fg fc fw t s' q : r_step t s (fr t) s' q -> f_step (FS s mu fr fg fc fw) tau (FS s' mu (tset fr t q) fg fc fw)
| fs_run_send s mu fr fg fc fw t w : fr t = RSend w ->
    f_step (FS s mu fr fg fc fw) tau (FS (set_job (tset (p_job s) t (JSend w)) s) None (tset fr t ROut) fg fc fw)
| fs_run_false s mu fr fg fc fw t : fr t = RFalse ->
    f_step (FS s mu fr fg fc fw) (FL (LRet t false)) (FS (set_job (tset (p_job s) t (JRet false)) s) None (tset fr t ROut) fg fc fw)
(* free and the end of tworker *)
| fs_free_lock s fr fg fc fw g w c : p_gor s g = GLock w c -> fg g = GOut ->
    f_step (FS s None fr fg fc fw) tau (FS s (Some (HGor g)) fr (tset fg g FChk) fc fw)
| fs_exit_lock s fr fg fc fw g : p_gor s g = GExit -> fg g = GOut ->
    f_step (FS s None fr fg fc fw) tau (FS s (Some (HGor g)) fr (tset fg g XDec) fc fw)
| fs_gor s mu fr fg fc fw g s' q : g_step g s (fg g) s' q -> f_step (FS s mu fr fg fc fw) tau (FS s' mu fr (tset fg g q) fc fw)
| fs_free_keep s mu fr fg fc fw g w c : fg g = FKeep -> p_gor s g = GLock w c ->
    f_step (FS s mu fr fg fc fw) tau (FS (set_gor (tset (p_gor s) g (GRecv w c)) s) None fr (tset fg g GOut) fc fw)
| fs_gor_end s mu fr fg fc fw g : fg g = FStop \/ fg g = XUnl ->
    f_step (FS s mu fr fg fc fw) tau (FS (set_gor (tset (p_gor s) g GDone) s) None fr (tset fg g GOut) fc fw)
(* the collector *)
| fs_tick s mu fr fg fw : p_col s = CWait -> f_step (FS s mu fr fg COut fw) tau (FS s mu fr fg CTick fw)
| fs_tick_lock s fr fg fw : f_step (FS s None fr fg CTick fw) tau (FS s (Some HCol) fr fg CChk fw)
| fs_stop_lock s fr fg fw : p_col s = CStop -> f_step (FS s None fr fg COut fw) tau (FS s (Some HCol) fr fg CSMax fw)
| fs_col s mu fr fg fc fw s' q : c_step s fc s' q -> f_step (FS s mu fr fg fc fw) tau (FS s' mu fr fg q fw)
| fs_col_unlock s mu fr fg fw buf : f_step (FS s mu fr fg (CUnl buf) fw) tau (FS (set_col (CDrain buf) s) None fr fg COut fw)
| fs_col_end s mu fr fg fw : f_step (FS s mu fr fg (CAll []) fw) tau (FS (set_col CDead s) None fr fg COut fw)
(* Workers *)
| fs_wk_call s mu fr fg fc fw u : fw u = WOut -> f_step (FS s mu fr fg fc fw) tau (FS s mu fr fg fc (tset fw u WLock))
| fs_wk_lock s fr fg fc fw u : fw u = WLock -> f_step (FS s None fr fg fc fw) tau (FS s (Some (HWork u)) fr fg fc (tset fw u WRead))
| fs_wk_read s mu fr fg fc fw u : fw u = WRead -> f_step (FS s mu fr fg fc fw) tau (FS s mu fr fg fc (tset fw u (WUnl (p_workers s))))
| fs_wk_ret s mu fr fg fc fw u n : fw u = WUnl n -> f_step (FS s mu fr fg fc fw) (FWorkers u n) (FS s None fr fg fc (tset fw u WOut)).
End step.
(** timedpool.go 45-129: start *)
Definition f_init (maxw : Z) (n : nat) (tts : nat -> Z) (clock : Z) : fstate :=
  FS (p_init maxw n tts clock) None (fun _ => ROut) (fun _ => GOut) COut (fun _ => WOut).
