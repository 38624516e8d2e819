(** * Model of making an outcome visible and launching the continuations

    Source: include/boost/thread/future.hpp: mark_finished_internal 335-345, do_continuation 304-315, set_continuation_ptr 327-333, mark_finished_with_result(_internal)
    586-641, mark_exceptional_finish(_internal) 452-462, has_value 488-497, has_exception 499-503; the producers: promise::set_value 2383-2408 and set_exception, the
    threads of async 975-985, tasks of executors 4031-4038, packaged_task 3090-3112, continuations 4500-4530, deferred functions 1056-1071 (all: value in a try block,
    mark_exceptional_finish in the handler); notify_deferred 346-350 for ..._at_thread_exit, called in ~thread_data_base, src/pthread/thread.cpp 46-63.

    One shared state, one producer, any number of threads that observe the state (shared_future::get, has_value, get_exception_ptr, is_ready ...) or attach
    continuations.  The mutex is held from one step to the next only inside a step: do_continuation releases it while it launches.  A launch may throw (no thread can be
    made, the executor is closed, or a continuation run by the launch itself lets an exception out).
    Simplifications: values are numbers; the value is not moved out by the observers (shared_future); waiting is not modelled (an observer that has waited is one that
    observes a ready state); what the continuations do is not modelled. *)
From Coq Require Import List Arith Bool.
Import ListNotations.
Set Implicit Arguments.

Inductive outcome := Val (v : nat) | Exc (e : nat).
(** [Promise]: set_value or set_exception.  [Task]: a function whose result is stored (async, packaged_task, executor, then, deferred).  [AtExit]: set_value_at_thread_exit,
    set_exception_at_thread_exit, make_ready_at_thread_exit *)
Inductive kind := Promise | Task | AtExit.
(** Where the producer is: before storing; stored and waiting for the end of the thread ([AtExit]); launching, with the continuations left and whether inside the handler
    (no try block around it); in the handler, about to store exception [e]; finished; left by exception [e] *)
Inductive pcs := PStart | PStored | PLaunch (l : list nat) (handler : bool) | PCatch (e : nat) | PEnd | PGone (e : nat).
(** [EFun o]: what was produced (the function returned or threw, or set_value's, set_exception's argument); [ERetry e]: set_value threw [e] while storing; [EFail n e]:
    the launch of continuation [n] by the producer threw [e]; [ELaunch n]: continuation [n] was launched; [EThen n e]: the launch of [n] by the thread that called then threw [e]
    to that caller; [EGone e]: exception [e] left the producer; [EObs t o]: thread [t] found this outcome, None if not ready *)
Inductive event := EFun (o : outcome) | ERetry (e : nat) | EFail (n e : nat) | ELaunch (n : nat) | EThen (n e : nat) | EGone (e : nat) | EObs (t : nat) (o : option outcome).
(** [res], [exc]: members result and exception; [conts]: attached, not launched; [nxt]: number of continuations attached *)
Record sys := Sys { done : bool; res : option nat; exc : option nat; conts : list nat; nxt : nat; pc : pcs; hist : list event }.
Definition sys0 : sys := Sys false None None [] 0 PStart [].

(** get, has_value, has_exception, get_exception_ptr: the exception comes first *)
Definition view (s : sys) : option outcome :=
  if done s then match exc s, res s with Some e, _ => Some (Exc e) | None, Some v => Some (Val v) | None, None => None end else None.

(** mark_finished_internal: ready, takes all continuations (do_continuation); [h]: an exception is not caught *)
Definition finish (s : sys) (r x : option nat) (h : bool) (ev : list event) : sys :=
  Sys true r x [] (nxt s) (PLaunch (conts s) h) (ev ++ hist s).

Inductive step (k : kind) : sys -> sys -> Prop :=
  (* the value is stored under the lock and made visible *)
  | s_value s v : k <> AtExit -> pc s = PStart -> step k s (finish s (Some v) (exc s) (match k with Task => false | _ => true end) [EFun (Val v)])
  (* set_exception *)
  | s_exception s e : k = Promise -> pc s = PStart -> step k s (finish s (res s) (Some e) true [EFun (Exc e)])
  (* set_value throws while storing: it may be called again *)
  | s_retry s e : k = Promise -> pc s = PStart -> step k s (Sys (done s) (res s) (exc s) (conts s) (nxt s) PStart (ERetry e :: hist s))
  (* the function, or storing its result, throws: the handler is entered *)
  | s_throw s e : k = Task -> pc s = PStart -> step k s (Sys (done s) (res s) (exc s) (conts s) (nxt s) (PCatch e) (EFun (Exc e) :: hist s))
  (* mark_exceptional_finish in the handler *)
  | s_catch s e : pc s = PCatch e -> step k s (finish s (res s) (Some e) true [])
  (* at thread exit: stored, not ready; then notify_deferred in the destructor of the thread's data *)
  | s_store_value s v : k = AtExit -> pc s = PStart -> step k s (Sys (done s) (Some v) (exc s) (conts s) (nxt s) PStored (EFun (Val v) :: hist s))
  | s_store_exception s e : k = AtExit -> pc s = PStart -> step k s (Sys (done s) (res s) (Some e) (conts s) (nxt s) PStored (EFun (Exc e) :: hist s))
  | s_notify s : pc s = PStored -> step k s (finish s (res s) (exc s) true [])
  (* the loop of do_continuation *)
  | s_launch s n l h : pc s = PLaunch (n :: l) h -> step k s (Sys (done s) (res s) (exc s) (conts s) (nxt s) (PLaunch l h) (ELaunch n :: hist s))
  | s_fail s n l h e : pc s = PLaunch (n :: l) h ->
      step k s (if h then Sys (done s) (res s) (exc s) (conts s) (nxt s) (PGone e) (EGone e :: EFail n e :: hist s)
                else Sys (done s) (res s) (exc s) (conts s) (nxt s) (PCatch e) (EFail n e :: hist s))
  | s_end s h : pc s = PLaunch [] h -> step k s (Sys (done s) (res s) (exc s) (conts s) (nxt s) PEnd (hist s))
  (* then on a state that is not ready: kept for the producer *)
  | s_then s : done s = false -> step k s (Sys (done s) (res s) (exc s) (conts s ++ [nxt s]) (S (nxt s)) (pc s) (hist s))
  (* then on a ready state: the calling thread launches the continuation itself, and an exception goes to the caller of then *)
  | s_then_launch s : done s = true -> step k s (Sys (done s) (res s) (exc s) (conts s) (S (nxt s)) (pc s) (ELaunch (nxt s) :: hist s))
  | s_then_fail s e : done s = true -> step k s (Sys (done s) (res s) (exc s) (conts s) (S (nxt s)) (pc s) (EThen (nxt s) e :: hist s))
  | s_observe s t : step k s (Sys (done s) (res s) (exc s) (conts s) (nxt s) (pc s) (EObs t (view s) :: hist s)).
Inductive reach (k : kind) : sys -> Prop :=
  | r_init : reach k sys0
  | r_step s s' : reach k s -> step k s s' -> reach k s'.
