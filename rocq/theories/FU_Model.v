(** * Model of the shared state of promises, packaged tasks, deferred functions and their futures

    Source: include/boost/thread/future.hpp: shared_state_base 151-552, shared_state 556-752, future_deferred_shared_state
    1044-1118, basic_future 1329-1521, future 1622-1881, shared_future 2129-2255, promise 2260-2553,
    task_base_shared_state 2963-3032, task_shared_state 3036-3110, packaged_task 3504-3810.

    One shared state, used by any number of threads through a promise (or packaged_task, or async(launch::deferred)) and futures.
    Its data are guarded by one mutex, so it is a monitor; functions are called with the mutex released.
    Simplifications: no continuations (their model is FC_Model.v) and no wait callbacks (set_wait_callback);
    values are numbers, moving a value out leaves it unspecified ([RMoved]); the threads may use the promise also after its destruction
    (more executions than the code has); set_value_at_thread_exit is [OSetDef] now and [ONotify] at some later time; copying and moving values does not
    throw; packaged_task::reset is one atomic step (in the code it writes [started] without holding the mutex);
    make_ready_at_thread_exit is not modelled. *)

From Verif Require Import Monitor.
Set Implicit Arguments.

Inductive exn := EUser (n : nat) | EBroken.
Inductive outc := Val (v : nat) | Exc (e : exn).

(** The fields of the shared state and the ghost [calls]: how often the packaged or deferred function has been called.
    [taken]: the value has been moved out. *)
Record fst_ := MkF { val : option nat; exc : option exn; done : bool; cons : bool; defd : bool; valid : bool; taken : bool; started : bool; calls : nat }.

Inductive kind := KPromise | KTask | KDeferred.
Definition finit (k : kind) : fst_ :=
  MkF None None false false (match k with KDeferred => true | _ => false end) true false false 0.

Inductive fcv := CWaiters.
Definition fcv_eqb (a b : fcv) : bool := true.

Inductive fop :=
| OSet (o : outc)              (* promise: set_value, set_exception *)
| ODestroy                     (* ~promise *)
| OAssign                      (* promise: assignment of another promise to it *)
| OSetDef (o : outc)           (* promise: set_value_deferred, set_exception_deferred *)
| ONotify                      (* promise: notify_deferred *)
| ORun | OReset | OTaskDestroy (* packaged_task: operator(), reset, the destructor *)
| OWait | OGetSh | OGet | OGetOr (w : nat) | OGetOrSh (w : nat) | OWaitUntil | OExcPtr   (* futures; ..Sh: shared_future *)
| OReady | OHasValue | OHasExc
| ORunIf (or_ready : bool).    (* run_if_is_deferred, run_if_is_deferred_or_ready *)

Inductive fres :=
| ROk | RBroke | RAlready | RStarted
| RReady | RTimeout | RDeferred | RVal (v : nat) | RMoved | RExc (e : exn) | RUninit | RPtr (x : option exn) | RBool (b : bool) | RIntr.
(** The ghost first component: during this call the packaged or deferred function was called and ended so. *)
Notation res := (option outc * fres)%type.

Inductive fk :=
| KStart (op : fop)
| KLoop (op : fop)             (* woken while waiting *)
| KLast (op : fop)             (* the timed wait has reached its deadline *)
| KFun (op : fop)              (* the function is being called *)
| KGos (w : nat) | KGos2 (w : nat)   (* shared_future::get_or, after the wait and after has_value *)
| KIntr (op : fop).            (* thread_interrupted is thrown from the wait *)

Notation fout := (fst_ * list (notif fcv) * outcome fk fcv res)%type.
Notation ret r := (ORet fk fcv r).
Notation yield k := (OYield fcv res k).
Notation sleep k := (OSleep res CWaiters k).
Notation ub := (OUB fk fcv res).

(** storing an outcome: result.reset(new T(r)) or exception=e *)
Definition store (o : outc) (s : fst_) : fst_ :=
  match o with
  | Val v => MkF (Some v) (exc s) (done s) (cons s) (defd s) (valid s) false (started s) (calls s)
  | Exc e => MkF (val s) (Some e) (done s) (cons s) (defd s) (valid s) (taken s) (started s) (calls s)
  end.
(** mark_finished_internal 335-345 *)
Definition mark_done (s : fst_) : fst_ := MkF (val s) (exc s) true (cons s) (defd s) (valid s) (taken s) (started s) (calls s).
Definition set_cons (s : fst_) : fst_ := MkF (val s) (exc s) (done s) true (defd s) (valid s) (taken s) (started s) (calls s).
Definition set_valid (b : bool) (s : fst_) : fst_ := MkF (val s) (exc s) (done s) (cons s) (defd s) b (taken s) (started s) (calls s).
Definition set_taken (s : fst_) : fst_ := MkF (val s) (exc s) (done s) (cons s) (defd s) (valid s) true (started s) (calls s).
Definition set_started (b : bool) (s : fst_) : fst_ := MkF (val s) (exc s) (done s) (cons s) (defd s) (valid s) (taken s) b (calls s).
Definition begin_call (s : fst_) : fst_ := MkF (val s) (exc s) (done s) (cons s) false (valid s) (taken s) (started s) (S (calls s)).
(** has_value 490-493 *)
Definition has_value (s : fst_) : bool := done s && match exc s with None => true | Some _ => false end.
Definition has_exc (s : fst_) : bool := done s && match exc s with None => false | Some _ => true end.

Section Prog.
  (** [iag]: BOOST_THREAD_PROVIDES_FUTURE_INVALID_AFTER_GET *)
  Variable iag : bool.
  (** the operations the threads make *)
  Variable allowed : fop -> bool.

  (** *get_storage(lk), moved out or not: shared_state::get 645-648, get_sh 655-658 *)
  Definition take (ran : option outc) (s : fst_) : fout :=
    match val s with
    | Some v => (set_taken s, [], ret (ran, if taken s then RMoved else RVal v))
    | None => (s, [], ub)
    end.
  Definition look (ran : option outc) (s : fst_) : fout :=
    match val s with
    | Some v => (s, [], ret (ran, if taken s then RMoved else RVal v))
    | None => (s, [], ub)
    end.

  (** the end of the call once waiters.wait has returned: wait_internal 394-399 and its callers *)
  Definition conclude (ran : option outc) (op : fop) (s : fst_) : fout :=
    match op with
    | OGetSh => match exc s with Some e => (s, [], ret (ran, RExc e)) | None => look ran s end
    | OGet => match exc s with Some e => (s, [], ret (ran, RExc e)) | None => take ran s end
    (* future::get_or 1807-1857 *)
    | OGetOr w => let s1 := if iag then set_valid false s else s in
                  if has_value s1 then take ran s1 else (s1, [], ret (ran, RVal w))
    (* shared_future::get_or 2228-2239: wait() rethrows; then has_value() and get() lock the mutex again (if this call has just run the
       function, these are taken as one step: no operation on a deferred state changes it any more) *)
    | OGetOrSh w => match exc s with Some e => (s, [], ret (ran, RExc e)) | None => match ran with None => (s, [], yield (KGos w)) | Some _ => look ran s end end
    | OExcPtr => (s, [], ret (ran, RPtr (exc s)))
    | ORunIf _ => (s, [], ret (ran, RBool true))
    | ORun => (s, [], ret (ran, ROk))
    | _ => (s, [], ret (ran, RReady))
    end.

  (** wait_internal 387-394: with the mutex held *)
  Definition wait_part (op : fop) (s : fst_) : fout :=
    if defd s then (begin_call s, [], yield (KFun op))
    else if done s then conclude None op s
    else (s, [], sleep (KLoop op)).

  Definition with_notif (ns : list (notif fcv)) (x : fout) : fout := let '(s, ns', o) := x in (s, ns ++ ns', o).

  Definition ffrag (_ : nat) (e : outc) (k : fk) (s : fst_) : fout :=
    match k with
    (* promise::set_value, set_exception 2385-2474 *)
    | KStart (OSet o) => if done s then (s, [], ret (None, RAlready)) else (mark_done (store o s), [NAll CWaiters], ret (None, ROk))
    (* ~promise 2308-2319 *)
    | KStart ODestroy =>
        if done s || cons s then (s, [], ret (None, ROk)) else (mark_done (store (Exc EBroken) s), [NAll CWaiters], ret (None, RBroke))
    (* ~packaged_task 3716-3720: owner_destroyed 3023-3031 *)
    | KStart OTaskDestroy =>
        if started s then (s, [], ret (None, ROk))
        else (mark_done (store (Exc EBroken) (set_started true s)), [NAll CWaiters], ret (None, RBroke))
    (* promise::operator= 2328-2335: the old state is just dropped *)
    | KStart OAssign => (s, [], ret (None, ROk))
    (* set_value_deferred 664-699, set_exception_deferred 464-473 *)
    | KStart (OSetDef o) => if has_value s then (s, [], ret (None, RAlready)) else (set_cons (store o s), [], ret (None, ROk))
    | KStart ONotify => (mark_done s, [NAll CWaiters], ret (None, ROk))
    (* task_base_shared_state::run 2987-3003 *)
    | KStart ORun => if started s then (s, [], ret (None, RStarted)) else (begin_call (set_started true s), [], yield (KFun ORun))
    (* reset 2976-2982 *)
    | KStart OReset => (set_valid true (set_started false s), [], ret (None, ROk))
    (* future::get 1790-1805, get_or *)
    | KStart OGet => if valid s then wait_part OGet (if iag then set_valid false s else s) else (s, [], ret (None, RUninit))
    | KStart (OGetOr w) => if valid s then wait_part (OGetOr w) s else (s, [], ret (None, RUninit))
    (* wait_until 437-450 *)
    | KStart OWaitUntil =>
        if defd s then (s, [], ret (None, RDeferred))
        else if done s then (s, [], ret (None, RReady)) else (s, [], sleep (KLoop OWaitUntil))
    | KStart OReady => (s, [], ret (None, RBool (done s)))
    | KStart OHasValue => (s, [], ret (None, RBool (has_value s)))
    | KStart OHasExc => (s, [], ret (None, RBool (has_exc s)))
    (* 364-386 *)
    | KStart (ORunIf b) => if defd s then (begin_call s, [], yield (KFun (ORunIf b))) else (s, [], ret (None, RBool (b && done s)))
    | KStart op => wait_part op s                                          (* wait, shared_future::get, get_exception_ptr *)
    | KLoop op => if done s then conclude None op s else (s, [], sleep (KLoop op))
    | KLast op => (s, [], ret (None, if done s then RReady else RTimeout))
    (* the function has returned or thrown [e]: execute 1055-1068, do_run 3093-3112 *)
    | KFun op => with_notif [NAll CWaiters] (conclude (Some e) op (mark_done (store e s)))
    | KGos w => if has_value s then (s, [], yield (KGos2 w)) else (s, [], ret (None, RVal w))
    | KGos2 w => match exc s with Some x => (s, [], ret (None, RExc x)) | None => look None s end
    | KIntr op => (s, [], ret (None, RIntr))
    end.

  (** condition_variable::wait is an interruption point *)
  Definition f_intr (k : fk) : option fk := match k with KLoop op => Some (KIntr op) | _ => None end.
  Definition f_timeout (k : fk) : option fk := match k with KLoop OWaitUntil => Some (KLast OWaitUntil) | _ => None end.

  Definition fuprog : prog fst_ fk fop res fcv unit outc :=
    MkProg fcv_eqb KStart ffrag f_timeout f_intr (fun _ op => allowed op) (fun l _ _ => l).
End Prog.

(** The operations that go with each kind of shared state: [ext]: with the deferred-notification setters; [rst]: with packaged_task::reset. *)
Definition ops_of (k : kind) (ext rst : bool) (op : fop) : bool :=
  match op with
  | OSet _ | ODestroy | OAssign => match k with KPromise => true | _ => false end
  | OSetDef _ | ONotify => match k with KPromise => ext | _ => false end
  | ORun | OTaskDestroy => match k with KTask => true | _ => false end
  | OReset => match k with KTask => rst | _ => false end
  | _ => true
  end.
