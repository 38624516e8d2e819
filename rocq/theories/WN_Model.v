(** * Model of when_all and when_any

    Source: include/boost/thread/future.hpp:5510-5895 (the shared states of when_all and when_any and the functions themselves), 362-411 (run_if_is_deferred,
    run_if_is_deferred_or_ready, wait), 1018-1118 (execute), 905-956 (the destructor of the asynchronous state).

    One call of when_all or when_any, together with the thread it may start, among any number of other threads ([LSet], [LTake], [LFin]) that complete the futures
    or, when a future is shared, execute its deferred function.  Futures are numbered; every one is valid (an invalid one is undefined behaviour by the
    documentation).  Simplifications: a critical section on one future's mutex is one step; a deferred function is two steps, its beginning and its end
    (so that other threads run in between) and has a fixed outcome; wait_for_any (its registration, locking and waiting are the subject of WA_Props.v)
    is one step, taken when one of the futures is ready; allocation does not fail; the thread that is started cannot be interrupted (it is detached). *)
From Coq Require Export List Arith Lia Bool.
Import ListNotations.
Set Implicit Arguments.

Inductive res := RVal (v : nat) | RExc (e : nat).
(** who executes a deferred function: the thread that called when_all/when_any, the thread the call has started, another one *)
Inductive who := ByCall | ByWork | ByOther.
(** a shared state: deferred and not started; its deferred function is being executed; not ready; ready *)
Inductive fut := Deferred (o : res) | Busy (w : who) (o : res) | Pending | Ready (o : res).

Inductive kind := KAll | KAny.
(** the overload that takes a range (its futures are kept in a vector) and the one that takes the futures one by one (kept in a tuple) *)
Inductive form := Vec | Tup.

(** run(): wait_for_all from the remaining futures on; within it, the execution of a deferred function by wait(); wait_for_any *)
Inductive wloop := LAll (todo : list nat) | LAllExec (i : nat) (todo : list nat) | LAny.
Inductive callpc :=
| CStart
| CScan (todo : list nat) (r : bool)            (* run_deferred, with the remaining futures and the result so far *)
| CExec (i : nat) (todo : list nat) (r : bool)  (* a deferred function executes within run_deferred *)
| CSpawn                                        (* about to start the thread *)
| CInl (w : wloop)                              (* run() on the calling thread *)
| CRet                                          (* has returned the future *)
| CDtor                                         (* the thread could not be started: the state is being destroyed as the exception propagates *)
| CThrow.                                       (* has thrown *)
Inductive workpc := WNone | WRun (w : wloop) | WEnd.

Inductive ev := EExec (w : who) (i : nat).

(** [out]: the value of the returned future: the futures it holds *)
Record wn := MkWn { fu : nat -> fut; cpc : callpc; wpc : workpc; out : option (list nat); hist : list ev }.
Definition wn0 (f0 : nat -> fut) : wn := MkWn f0 CStart WNone None [].

Definition fset (g : nat -> fut) (i : nat) (x : fut) : nat -> fut := fun j => if j =? i then x else g j.
Definition is_ready (f : fut) : bool := match f with Ready _ => true | _ => false end.

Inductive label :=
| LCall | LFail | LWork
| LSet (i : nat) (o : res) | LTake (i : nat) | LFin (i : nat).

Section Call.
(** [waits]: BOOST_THREAD_ASYNC_FUTURE_WAITS (config.hpp:349, BOOST_THREAD_VERSION below 5) *)
Variables (kd : kind) (fm : form) (waits : bool) (inp : list nat).

(** 5540-5549 and 5611-5620 go from the first to the last; 5682-5695 and 5754-5768 recurse from the last to the first *)
Definition scan_order : list nat := match fm with Vec => inp | Tup => rev inp end.

(** the beginning of run(): 5531-5539, 5601-5610, 5704-5715, 5776-5788 *)
Definition run_start : wloop := match kd with KAll => LAll inp | KAny => LAny end.

(** run_deferred has returned [r] (5550-5562, 5621-5634, 5729-5741, 5799-5812): when_all continues on the calling thread if the result is false, when_any if it is true *)
Definition scanned (r : bool) : callpc :=
  match kd, r with
  | KAll, false | KAny, true => CInl run_start
  | _, _ => CSpawn
  end.

(** after run_if_is_deferred (for when_all) or run_if_is_deferred_or_ready (for when_any) has returned [b] for one of the futures *)
Definition scan_next (b : bool) (todo : list nat) (r : bool) : callpc :=
  match kd, fm with
  | KAll, Vec => CScan todo (if b then r else true)     (* 5542-5547 *)
  | KAll, Tup => if b then CScan todo r else scanned true  (* 5686: (! run_if_is_deferred()) || rest *)
  | KAny, _ => if b then scanned true else CScan todo r   (* 5612-5618, 5758-5759 *)
  end.

Inductive loopres := LNext (f : nat -> fut) (w : wloop) (h : list ev) | LDone.
(** one step of run() by thread [me]; [None]: it blocks *)
Definition loop_step (me : who) (f : nat -> fut) (w : wloop) : option loopres :=
  match w with
  | LAll [] => Some LDone
  | LAll (i :: todo) =>    (* current->wait(): wait_for_all.hpp:19-22, future.hpp:387-400 with rethrow = false *)
      match f i with
      | Deferred o => Some (LNext (fset f i (Busy me o)) (LAllExec i todo) [EExec me i])
      | Ready _ => Some (LNext f (LAll todo) [])
      | _ => None
      end
  | LAllExec i todo =>
      match f i with
      | Busy _ o => Some (LNext (fset f i (Ready o)) (LAll todo) [])
      | _ => None
      end
  | LAny => if existsb (fun i => is_ready (f i)) inp then Some LDone else None
  end.

Definition call_step (c : wn) : option wn :=
  match cpc c with
  | CStart =>    (* 5838, 5845, 5871, 5880: no futures at all *)
      match inp with
      | [] => Some (MkWn (fu c) CRet (wpc c) (Some []) (hist c))
      | _ => Some (MkWn (fu c) (CScan scan_order false) (wpc c) (out c) (hist c))
      end
  | CScan [] r => Some (MkWn (fu c) (scanned r) (wpc c) (out c) (hist c))
  | CScan (i :: todo) r =>
      match fu c i with
      | Deferred o => Some (MkWn (fset (fu c) i (Busy ByCall o)) (CExec i todo r) (wpc c) (out c) (EExec ByCall i :: hist c))
      | Ready _ => Some (MkWn (fu c) (scan_next (match kd with KAll => false | KAny => true end) todo r) (wpc c) (out c) (hist c))
      | _ => Some (MkWn (fu c) (scan_next false todo r) (wpc c) (out c) (hist c))
      end
  | CExec i todo r =>
      match fu c i with
      | Busy _ o => Some (MkWn (fset (fu c) i (Ready o)) (scan_next true todo r) (wpc c) (out c) (hist c))
      | _ => None
      end
  | CSpawn => Some (MkWn (fu c) CRet (WRun run_start) (out c) (hist c))
  | CInl w =>
      match loop_step ByCall (fu c) w with
      | Some (LNext f w' h) => Some (MkWn f (CInl w') (wpc c) (out c) (h ++ hist c))
      | Some LDone => Some (MkWn (fu c) CRet (wpc c) (Some inp) (hist c))   (* mark_finished_with_result(move(vec_)), then the call returns *)
      | None => None
      end
  | CDtor => if waits then match out c with Some _ => Some (MkWn (fu c) CThrow (wpc c) (out c) (hist c)) | None => None end
             else Some (MkWn (fu c) CThrow (wpc c) (out c) (hist c))     (* 938-947 *)
  | CRet | CThrow => None
  end.

(** boost::thread's constructor throws thread_resource_error *)
Definition fail_step (c : wn) : option wn :=
  match cpc c with CSpawn => Some (MkWn (fu c) CDtor (wpc c) (out c) (hist c)) | _ => None end.

Definition work_step (c : wn) : option wn :=
  match wpc c with
  | WRun w =>
      match loop_step ByWork (fu c) w with
      | Some (LNext f w' h) => Some (MkWn f (cpc c) (WRun w') (out c) (h ++ hist c))
      | Some LDone => Some (MkWn (fu c) (cpc c) WEnd (Some inp) (hist c))
      | None => None
      end
  | _ => None
  end.

Definition step (l : label) (c : wn) : option wn :=
  match l with
  | LCall => call_step c
  | LFail => fail_step c
  | LWork => work_step c
  | LSet i o => match fu c i with Pending => Some (MkWn (fset (fu c) i (Ready o)) (cpc c) (wpc c) (out c) (hist c)) | _ => None end
  | LTake i => match fu c i with Deferred o => Some (MkWn (fset (fu c) i (Busy ByOther o)) (cpc c) (wpc c) (out c) (EExec ByOther i :: hist c)) | _ => None end
  | LFin i => match fu c i with Busy ByOther o => Some (MkWn (fset (fu c) i (Ready o)) (cpc c) (wpc c) (out c) (hist c)) | _ => None end
  end.

Fixpoint run (c : wn) (ls : list label) : option wn :=
  match ls with [] => Some c | l :: ls' => match step l c with Some c' => run c' ls' | None => None end end.

Definition reachable (f0 : nat -> fut) (c : wn) : Prop := exists ls, run (wn0 f0) ls = Some c.
End Call.
