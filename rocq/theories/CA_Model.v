(** * Model of condition_variable_any

    Source: include/boost/thread/pthread/condition_variable.hpp 30-61 (lock_on_exit), 160-211 (condition_variable_any, its destructor, wait), 438-448
    (notify_one, notify_all), 450-492 (do_wait_until); include/boost/thread/pthread/thread_data.hpp 206-243 (interruption_checker, for
    threads that are not interrupted: the mutex is locked by its constructor and unlocked by unlock_if_locked or its destructor).
    condition_variable.hpp 64-157 with pthread/condition_variable_fwd.hpp 77-84 is the same for unique_lock<mutex>.

    One condition variable, any number of threads and of mutexes; the threads may wait with different ones at the same time.  The lock
    object given to wait() refers to a mutex; its unlock() throws if the thread does not own that mutex, its lock() may throw at any time
    (a lock type of the user; a system error).
    Simplifications: interruption is in IT_Model; a timed wait is a wait that may wake up without notification (the value it returns
    is that of TM_Model); pthread functions do not fail; destroying the object while it is in use is not undefined by itself,
    but the next step that uses it is. *)
From Coq Require Export List Arith Lia Bool.
Export ListNotations.
Set Implicit Arguments.

(** Where a thread is.  [n]: the number of the call. *)
Inductive pc :=
| Idle
| WEnter (m n : nat)       (* in wait(), about to lock internal_mutex *)
| WHold (m n : nat)        (* holds it; guard.activate(m) next *)
| WThrow (m n : nat)       (* unlock() has thrown; holds internal_mutex; ~interruption_checker next *)
| WGo (m n : nat)          (* has unlocked the mutex, holds internal_mutex; pthread_cond_wait next *)
| WSleep (m n : nat)       (* in pthread_cond_wait *)
| WWoken (m n : nat)       (* about to lock internal_mutex again, in pthread_cond_wait *)
| WDrop (m n : nat)        (* unlock_if_locked next *)
| WRelock (m n : nat)      (* guard.deactivate() next: lock() *)
| WAgain (m n : nat)       (* lock() has thrown: ~lock_on_exit next, lock() again *)
| NEnter (all : bool) (n : nat)   (* notify: about to lock internal_mutex *)
| NHold (all : bool) (n : nat)    (* holds it; signal or broadcast next *)
| NLeave (all : bool) (n : nat).  (* unlock internal_mutex next *)

(** What can be observed, newest first. *)
Inductive event :=
| ELocked (t m : nat) | EUnlocked (t m : nat)     (* the user's lock and unlock of a mutex, outside of wait() *)
| EWait (t m n : nat)                             (* wait() is called *)
| EReleased (t m n : nat)                         (* wait() has unlocked the mutex *)
| EReturn (t m n : nat)                           (* wait() returns *)
| ENotOwned (t m n : nat)                         (* wait() throws what unlock() has thrown *)
| EFailed (t m n : nat)                           (* wait() throws what lock() has thrown *)
| ENotify (t : nat) (all : bool) (n : nat)        (* notify_one() or notify_all() is called *)
| EWoke (n w k : nat)                             (* the call n of notify wakes thread w in its call k of wait() *)
| ENotified (t : nat) (all : bool) (n : nat)      (* that call of notify returns *)
| EDestroy (t : nat).

Record st := MkSt {
  pcs : nat -> pc;
  iown : option nat;                  (* owner of internal_mutex *)
  mown : nat -> option nat;           (* owners of the user's mutexes *)
  calls : nat;                        (* calls of wait and notify so far *)
  alive : bool;                       (* not destroyed *)
  ub : bool;                          (* the destroyed object has been used, or destroyed twice *)
  dead : bool;                        (* std::terminate *)
  hist : list event }.
Definition init : st := MkSt (fun _ => Idle) None (fun _ => None) 0 true false false [].

Definition upd (A : Type) (f : nat -> A) (t : nat) (x : A) : nat -> A := fun u => if u =? t then x else f u.
Definition set_pc (s : st) (t : nat) (p : pc) : st := MkSt (upd (pcs s) t p) (iown s) (mown s) (calls s) (alive s) (ub s) (dead s) (hist s).
Definition set_i (s : st) (o : option nat) : st := MkSt (pcs s) o (mown s) (calls s) (alive s) (ub s) (dead s) (hist s).
Definition set_m (s : st) (m : nat) (o : option nat) : st := MkSt (pcs s) (iown s) (upd (mown s) m o) (calls s) (alive s) (ub s) (dead s) (hist s).
Definition call (s : st) : st := MkSt (pcs s) (iown s) (mown s) (S (calls s)) (alive s) (ub s) (dead s) (hist s).
Definition log (s : st) (e : list event) : st := MkSt (pcs s) (iown s) (mown s) (calls s) (alive s) (ub s) (dead s) (e ++ hist s).
Definition bad (s : st) : st := MkSt (pcs s) (iown s) (mown s) (calls s) (alive s) true (dead s) (hist s).
Definition die (s : st) : st := MkSt (pcs s) (iown s) (mown s) (calls s) (alive s) (ub s) true (hist s).
Definition kill (s : st) : st := MkSt (pcs s) (iown s) (mown s) (calls s) false (ub s) (dead s) (hist s).

(** pthread_cond_broadcast *)
Definition wake (p : pc) : pc := match p with WSleep m n => WWoken m n | _ => p end.
Definition wake_all (s : st) : st := MkSt (fun u => wake (pcs s u)) (iown s) (mown s) (calls s) (alive s) (ub s) (dead s) (hist s).
Definition is_asleep (p : pc) : bool := match p with WSleep _ _ => true | _ => false end.

Inductive label :=
| LLock (t m : nat) | LUnlock (t m : nat)         (* the user locks (when it is free), unlocks a mutex *)
| LWait (t m : nat)                               (* calls wait() with a lock for m *)
| LNotify (t : nat) (all : bool)
| LDestroy (t : nat)
| LStep (t : nat)                                 (* the next step of the call the thread is in *)
| LSpurious (t : nat)                             (* wakes up without being notified: time-out, or spuriously *)
| LSignal (t w : nat)                             (* the signal of t's notify_one wakes w *)
| LMiss (t : nat)                                 (* there is nobody to be woken *)
| LFail (t : nat).                                (* lock() of the user's lock throws *)

(** Steps on the destroyed object are undefined behaviour. *)
Definition touch (s s' : st) : st := if alive s then s' else bad s.

Definition sleeper (p : pc) (k : nat) : Prop := exists m, p = WSleep m k.

Inductive step : st -> label -> st -> Prop :=
| s_lock s t m : pcs s t = Idle -> mown s m = None -> step s (LLock t m) (log (set_m s m (Some t)) [ELocked t m])
| s_unlock s t m : pcs s t = Idle -> mown s m = Some t -> step s (LUnlock t m) (log (set_m s m None) [EUnlocked t m])
| s_wait s t m : pcs s t = Idle -> step s (LWait t m) (touch s (log (set_pc (call s) t (WEnter m (calls s))) [EWait t m (calls s)]))
| s_notify s t all : pcs s t = Idle -> step s (LNotify t all) (touch s (log (set_pc (call s) t (NEnter all (calls s))) [ENotify t all (calls s)]))
| s_destroy s t : pcs s t = Idle -> step s (LDestroy t) (touch s (log (kill s) [EDestroy t]))
  (* wait() 186-201, do_wait_until 464-479 *)
| s_enter s t m n : pcs s t = WEnter m n -> iown s = None -> step s (LStep t) (touch s (set_pc (set_i s (Some t)) t (WHold m n)))
| s_release s t m n : pcs s t = WHold m n -> mown s m = Some t ->
    step s (LStep t) (touch s (log (set_pc (set_m s m None) t (WGo m n)) [EReleased t m n]))
| s_notowned s t m n : pcs s t = WHold m n -> mown s m <> Some t -> step s (LStep t) (touch s (set_pc s t (WThrow m n)))
| s_throw s t m n : pcs s t = WThrow m n -> step s (LStep t) (touch s (log (set_pc (set_i s None) t Idle) [ENotOwned t m n]))
| s_sleep s t m n : pcs s t = WGo m n -> step s (LStep t) (touch s (set_pc (set_i s None) t (WSleep m n)))
| s_spurious s t m n : pcs s t = WSleep m n -> step s (LSpurious t) (touch s (set_pc s t (WWoken m n)))
| s_wokeup s t m n : pcs s t = WWoken m n -> iown s = None -> step s (LStep t) (touch s (set_pc (set_i s (Some t)) t (WDrop m n)))
| s_drop s t m n : pcs s t = WDrop m n -> step s (LStep t) (touch s (set_pc (set_i s None) t (WRelock m n)))
  (* guard.deactivate() 46-53: only the user's lock *)
| s_relock s t m n : pcs s t = WRelock m n -> mown s m = None -> step s (LStep t) (log (set_pc (set_m s m (Some t)) t Idle) [EReturn t m n])
| s_fail s t m n : pcs s t = WRelock m n -> step s (LFail t) (set_pc s t (WAgain m n))
  (* ~lock_on_exit 54-60, while the exception is under way: one more lock(); its exception ends the program *)
| s_again s t m n : pcs s t = WAgain m n -> mown s m = None -> step s (LStep t) (log (set_pc (set_m s m (Some t)) t Idle) [EFailed t m n])
| s_dead s t m n : pcs s t = WAgain m n -> step s (LFail t) (die s)
  (* notify_one, notify_all 438-448 *)
| s_nenter s t all n : pcs s t = NEnter all n -> iown s = None -> step s (LStep t) (touch s (set_pc (set_i s (Some t)) t (NHold all n)))
| s_broadcast s t n : pcs s t = NHold true n -> step s (LStep t) (touch s (set_pc (wake_all s) t (NLeave true n)))
| s_signal s t n w k : pcs s t = NHold false n -> sleeper (pcs s w) k ->
    step s (LSignal t w) (touch s (log (set_pc (set_pc s w (wake (pcs s w))) t (NLeave false n)) [EWoke n w k]))
| s_miss s t n : pcs s t = NHold false n -> (forall w, is_asleep (pcs s w) = false) -> step s (LMiss t) (touch s (set_pc s t (NLeave false n)))
| s_leave s t all n : pcs s t = NLeave all n -> step s (LStep t) (touch s (log (set_pc (set_i s None) t Idle) [ENotified t all n])).

(** Executions; nothing happens any more after undefined behaviour or std::terminate. *)
Inductive reach : st -> Prop :=
| r_init : reach init
| r_step s l s' : reach s -> ub s = false -> dead s = false -> step s l s' -> reach s'.
