(** * Model of timed waiting: the loops around the operating system's timed calls

    Sources: include/boost/thread/pthread/condition_variable_fwd.hpp 95-312 and condition_variable.hpp 212-408 (wait_until, wait_for, timed_wait, with
    and without predicate; the two classes have the same text), pthread/mutex.hpp 134-158, 253-300 and recursive_mutex.hpp 240-264, 368-415
    (timed_lock, try_lock_for, try_lock_until), detail/thread.hpp 473-534 (try_join_until, try_join_for, timed_join),
    pthread/thread_data.hpp 266-363 and src/pthread/thread.cpp 446-464 (the sleep functions).

    A call is a machine that puts requests to its environment and is told the answers.  An answer comes at a moment, at which the internal (monotonic)
    clock reads [im], the clock of the call reads [um], the predicate has the value [pm], and the operating system's call, if that was requested,
    ended with [wm].  Linux: the internal clock is steady_clock (BOOST_THREAD_INTERNAL_CLOCK_IS_MONO), sleep_for is nanosleep (BOOST_THREAD_SLEEP_FOR_IS_STEADY).
    All times are nanoseconds in 64-bit integers; arithmetic that does not fit is undefined behaviour ([RUndefined]).
    Simplifications: conversions between units are in TM_Model.v; no failures of the OS calls but time-out and rejected deadlines. *)
From Verif Require Export TM_Model.
Import ListNotations.
Set Implicit Arguments.

(** [Rejected]: EINVAL, see [os_rejects] *)
Inductive wout := Woken | TimedOut | Interrupted | Rejected.
Record moment := MkM { im : Z; um : Z; pm : bool; wm : wout }.

Definition POLL : Z := 100000000.        (* BOOST_THREAD_POLL_INTERVAL_MILLISECONDS, detail/config.hpp 57-59 *)

(** The operating system rejects deadlines before the start of its clock, unless they are whole seconds: their timespec has a negative tv_nsec
    (TM_Model.v, ns_to_timespec, os_accepts). *)
Definition os_rejects (ts : Z) : bool := (ts <? 0) && negb (Z.rem ts G =? 0).

Inductive res := RBool (b : bool) | RStatus (timeout : bool) | RVoid | RInterrupted | RConditionError | RUndefined.

Inductive req :=
| QPred                    (* evaluate the predicate *)
| QUser                    (* Clock::now() *)
| QInt                     (* internal_chrono_clock::now(), internal_platform_clock::now(), steady_clock::now() *)
| QWait (ts : Z)           (* a wait or an attempt that ends at the internal time [ts] *)
| QForever                 (* condition_variable::wait *)
| QSleep (d : Z)           (* nanosleep *)
| QNone.                   (* the call has returned *)

(** A posix_time duration *)
Inductive rel := PosInf | NegInf | NotADateTime | Finite (d : Z).

Inductive pc :=
(* wait_until(lock, t, pred) for any clock but the internal one; timed_wait(lock, system_time, pred) *)
| UP_pred (t : Z) | UP_now (t : Z) | UP_int (t d : Z) | UP_wait (t ts : Z)
(* the same for the internal clock *)
| IP_pred (t : Z) | IP_wait (t : Z)
| PredResult                           (* return pred(); *)
(* wait_until(lock, t) for any clock but the internal one; timed_wait(lock, system_time); [asbool]: the latter's result type *)
| U_now (asbool : bool) (t : Z) | U_int (asbool : bool) (t d : Z) | U_wait (asbool : bool) (t ts : Z) | U_check (asbool : bool) (t : Z)
(* the same for the internal clock *)
| I_wait (asbool : bool) (t : Z)
(* wait_for, timed_wait(duration): [pred], [asbool] say which *)
| For_int (pred asbool : bool) (d : Z)
| Forever | ForeverPred_pred | ForeverPred_wait
(* try_lock_until ([mx]), try_join_until for any clock but the internal one; timed_lock, timed_join with system_time *)
| T_now (mx : bool) (t : Z) | T_int (mx : bool) (t d : Z) | T_try (mx : bool) (t ts : Z) | T_check (mx : bool) (t : Z)
(* the same for the internal clock, and try_lock_for, try_join_for *)
| TI_try (mx : bool) (ts : Z) | TFor_int (mx : bool) (d : Z)
(* no_interruption_point::sleep_until for any clock but steady_clock; no_interruption_point::sleep(system_time) *)
| S_now (t : Z) | S_sleep (t d : Z)
(* no_interruption_point::sleep_for, sleep(duration); no_interruption_point::sleep_until for steady_clock *)
| SF_sleep (d : Z) | SS_int (t : Z)
| Done (r : res).

Definition ask (p : pc) : req :=
  match p with
  | UP_pred _ | IP_pred _ | PredResult | ForeverPred_pred => QPred
  | UP_now _ | U_now _ _ | U_check _ _ | T_now _ _ | T_check _ _ | S_now _ => QUser
  | UP_int _ _ | U_int _ _ _ | For_int _ _ _ | T_int _ _ _ | TFor_int _ _ | SS_int _ => QInt
  | UP_wait _ ts | IP_wait ts | U_wait _ _ ts | I_wait _ ts | T_try _ _ ts | TI_try _ ts => QWait ts
  | Forever | ForeverPred_wait => QForever
  | S_sleep _ d | SF_sleep d => QSleep d
  | Done _ => QNone
  end.

Definition orub (o : option Z) (k : Z -> pc) : pc := match o with Some z => k z | None => Done RUndefined end.
Definition status (asbool timeout : bool) : res := if asbool then RBool (negb timeout) else RStatus timeout.
(** sleep_for_internal, thread.cpp 446-464 *)
Definition sleep_for_internal (d : Z) (k : pc) (slp : Z -> pc) : pc := if 0 <? d then slp d else k.

(** what a wait of a condition variable throws (condition_variable.hpp 89-95, 133-140) *)
Definition throws (w : wout) : option res := match w with Interrupted => Some RInterrupted | Rejected => Some RConditionError | _ => None end.
Definition orthrow (w : wout) (k : pc) : pc := match throws w with Some r => Done r | None => k end.

(** One attempt.  do_try_lock_until (mutex.hpp 232-250, recursive_mutex.hpp 345-366) waits again when the wait ends with anything but ETIMEDOUT and the mutex is still
    locked (an assertion forbids other errors; it is off when NDEBUG is defined); a mutex is not interrupted.  do_try_join_until waits on a condition variable. *)
Definition attempt (mx : bool) (w : wout) (again failed : pc) : pc :=
  match w with
  | Woken => Done (RBool true)
  | TimedOut => failed
  | Interrupted => if mx then again else Done RInterrupted
  | Rejected => if mx then again else Done RConditionError
  end.

Definition tell (p : pc) (m : moment) : pc :=
  match p with
  (* condition_variable_fwd.hpp 299-312; 158-186 *)
  | UP_pred t => if pm m then PredResult else UP_now t
  | UP_now t => orub (ck (t - um m)) (fun d => if d <=? 0 then PredResult else UP_int t (Z.min d POLL))
  | UP_int t d => orub (ck (im m + d)) (UP_wait t)
  | UP_wait t _ => orthrow (wm m) (UP_pred t)
  (* 279-291; 220-226 *)
  | IP_pred t => if pm m then PredResult else IP_wait t
  | IP_wait t => orthrow (wm m) (match wm m with TimedOut => PredResult | _ => IP_pred t end)
  | PredResult => Done (RBool (pm m))
  (* 242-262; 95-119 *)
  | U_now b t => orub (ck (t - um m)) (U_int b t)
  | U_int b t d => orub (ck (im m + d)) (U_wait b t)
  | U_wait b t _ => orthrow (wm m) (U_check b t)
  | U_check b t => Done (status b (negb (um m <? t)))
  (* 231-240 *)
  | I_wait b _ => orthrow (wm m) (Done (status b (match wm m with TimedOut => true | _ => false end)))
  (* 264-270, 314-321; 127-156, 196-229 *)
  | For_int p b d => orub (ck (im m + d)) (fun t => if p then IP_pred t else I_wait b t)
  | Forever => orthrow (wm m) (Done (RBool true))
  | ForeverPred_pred => if pm m then Done (RBool true) else ForeverPred_wait
  | ForeverPred_wait => orthrow (wm m) ForeverPred_pred
  (* mutex.hpp 280-294, 257-272; thread.hpp 480-494, 501-516 *)
  | T_now x t => orub (ck (t - um m)) (fun d => T_int x t (Z.min d POLL))
  | T_int x t d => orub (ck (im m + d)) (T_try x t)
  | T_try x t ts => attempt x (wm m) (T_try x t ts) (T_check x t)
  | T_check x t => orub (ck (t - um m)) (fun d => if d <=? 0 then Done (RBool false) else T_int x t (Z.min d POLL))
  (* mutex.hpp 295-300; thread.hpp 474-478 *)
  | TI_try x ts => attempt x (wm m) (TI_try x ts) (Done (RBool false))
  (* mutex.hpp 275-278; thread.hpp 496-499 *)
  | TFor_int x d => orub (ck (im m + d)) (TI_try x)
  (* thread_data.hpp 352-363, 320-331 *)
  | S_now t => orub (ck (t - um m)) (fun d => if 0 <? d then sleep_for_internal (Z.min d POLL) (S_now t) (S_sleep t) else Done RVoid)
  | S_sleep t _ => S_now t
  (* thread_data.hpp 340-350, 333-336 *)
  | SF_sleep _ => Done RVoid
  | SS_int t => orub (ck (t - im m)) (fun d => sleep_for_internal d (Done RVoid) SF_sleep)
  | Done r => Done r
  end.

(** ** The calls *)
Definition wait_until_pred (t : Z) : pc := UP_pred t.
Definition wait_until_pred_steady (t : Z) : pc := IP_pred t.
Definition wait_until (t : Z) : pc := U_now false t.
Definition wait_until_steady (t : Z) : pc := I_wait false t.
Definition wait_for_pred (d : Z) : pc := For_int true false d.
Definition wait_for (d : Z) : pc := For_int false false d.
Definition timed_wait_abs (t : Z) : pc := U_now true t.
Definition timed_wait_abs_pred (t : Z) : pc := UP_pred t.
(** condition_variable_fwd.hpp 127-156 *)
Definition timed_wait_rel (r : rel) : pc :=
  match r with PosInf => Forever | NegInf | NotADateTime => Done (RBool true) | Finite d => For_int false true d end.
(** 196-229 *)
Definition timed_wait_rel_pred (r : rel) : pc :=
  match r with PosInf => ForeverPred_pred | NegInf | NotADateTime => PredResult | Finite d => For_int true true d end.
Definition try_lock_until (t : Z) : pc := T_now true t.
Definition try_lock_until_steady (t : Z) : pc := TI_try true t.
Definition try_lock_for (d : Z) : pc := TFor_int true d.
Definition try_join_until (t : Z) : pc := T_now false t.
Definition try_join_until_steady (t : Z) : pc := TI_try false t.
Definition try_join_for (d : Z) : pc := TFor_int false d.
(** thread_data.hpp 284-301: the predicate is always false *)
Definition sleep_until (t : Z) : pc := UP_pred t.
Definition sleep_until_steady (t : Z) : pc := IP_pred t.
Definition sleep_for (d : Z) : pc := For_int true false d.
Definition nip_sleep_until (t : Z) : pc := S_now t.
Definition nip_sleep_for (d : Z) : pc := sleep_for_internal d (Done RVoid) SF_sleep.
Definition nip_sleep_until_steady (t : Z) : pc := SS_int t.

(** A call and the moments at which it is answered, in order; [None] when there are more moments than requests. *)
Fixpoint run (p : pc) (tr : list moment) : option pc :=
  match tr with
  | [] => Some p
  | m :: tr' => match ask p with QNone => None | _ => run (tell p m) tr' end
  end.
