(** * call_once on a machine whose threads do not see each other's writes at once

    The three implementations of call_once of the library:

    - src/pthread/once_atomic.cpp with include/boost/thread/pthread/once_atomic.hpp ([astep]);
    - include/boost/thread/pthread/once.hpp with src/pthread/once.cpp ([estep]);
    - include/boost/thread/win32/once.hpp ([wstep]).

    ON_Model.v and WO_Model.v run them on a machine in which every read returns the latest write. Here a
    read may return any write that the reading thread is not yet past, and what a thread knows of the
    writes of others is carried by release/acquire pairs and by the mutex only. *)
From Coq Require Import List Arith Lia Bool.
Import ListNotations.
Set Implicit Arguments.

(** ** Memory

    The memory model is the view-based account of release/acquire in C++11: the writes to a location carry
    timestamps, a thread has a view (the newest write of each location it is past, and the function
    executions whose effects it sees), a release write carries the view of its writer, an acquire read adds
    the view of the write it reads. Release sequences are left out (C++ gives more guarantees with them, so
    that is on the safe side); so are fences and sequentially consistent accesses, which the modelled code
    does not use. A location is the flag of the same number. *)
Inductive ord := Relaxed | Acquire | Release | AcqRel.
Definition acquires (o : ord) : bool := match o with Acquire | AcqRel => true | _ => false end.
Definition releases (o : ord) : bool := match o with Release | AcqRel => true | _ => false end.

Record view := MkV { v_ts : nat -> nat; v_see : list nat }.
Definition v0 : view := MkV (fun _ => 0) [].
Definition join (a b : view) : view := MkV (fun g => Nat.max (v_ts a g) (v_ts b g)) (v_see a ++ v_see b).
Definition raise (v : view) (g n : nat) : view :=
  MkV (fun h => if h =? g then Nat.max (v_ts v h) n else v_ts v h) (v_see v).
Definition see (v : view) (e : nat) : view := MkV (v_ts v) (e :: v_see v).

Record msg := MkMsg { m_ts : nat; m_val : nat; m_view : view }.

(** A read by a thread with view [v] may return any write it is not past. *)
Definition reads (ms : list msg) (v : view) (g : nat) (m : msg) : Prop := In m ms /\ v_ts v g <= m_ts m.
(** The view after the read. *)
Definition rview (o : ord) (v : view) (g : nat) (m : msg) : view :=
  if acquires o then join (raise v g (m_ts m)) (m_view m) else raise v g (m_ts m).
Definition free_ts (ms : list msg) (n : nat) : Prop := forall m, In m ms -> m_ts m <> n.
(** A plain or atomic store takes any unused place after the writes its thread is past. *)
Definition writes (ms : list msg) (v : view) (g n : nat) : Prop := v_ts v g < n /\ free_ts ms n.
(** What the write carries. *)
Definition wmsg (o : ord) (v : view) (g n x : nat) : msg :=
  MkMsg n x (if releases o then raise v g n else raise v0 g n).

(** ** Threads *)

(** What a thread does after it gives up the mutex: execute the function, return, or pass on its exception. *)
Inductive next := NRun | NRet | NThrow.

(** Where a call of call_once is; [g] is the flag. *)
Inductive frame :=
| FStart (g : nat)                     (* before the first look at the flag *)
| FLock (g : nat)                      (* about to lock the mutex *)
| FChk (g : nat)                       (* mutex held: look at the flag *)
| FCas (g : nat)                       (* about to try to take the flag *)
| FWait (g : nat)                      (* in pthread_cond_wait *)
| FBody (g e : nat)                    (* executing the function: execution number [e] *)
| FDone (g e : nat) (ok : bool)        (* the function has returned ([ok]) or thrown *)
| FStore (g : nat) (ok : bool)         (* mutex held: about to write the flag *)
| FUnl (g : nat) (n : next).           (* mutex held: about to unlock it *)

(** What happens, for the specification. [saw] is what the thread sees at that moment. *)
Inductive ev :=
| EvStart (t g e : nat) (saw : list nat)  (* thread [t] begins execution [e] of the function of flag [g] *)
| EvEnd (t g e : nat) (ok : bool)         (* it returns ([ok]) or throws *)
| EvRet (t g : nat) (saw : list nat)      (* call_once returns *)
| EvThrow (t g : nat).                    (* call_once throws *)

(** [mem]: the writes to each flag; [hold], [mxv]: owner of the mutex and the view its last owner left;
    [vw], [stk]: view and calls in progress of each thread (the function may call call_once);
    [glob], [epo]: once_global_epoch and the per-thread epochs (pthread/once.hpp only). *)
Record st := MkSt { mem : nat -> list msg; hold : option nat; mxv : view; vw : nat -> view;
                    stk : nat -> list frame; log : list ev; nexte : nat; glob : nat; epo : nat -> nat }.

Definition upd {A} (f : nat -> A) (n : nat) (x : A) : nat -> A := fun m => if m =? n then x else f m.

(** Thread [t] now has view [v] and calls [fs]. *)
Definition put (s : st) (t : nat) (v : view) (fs : list frame) : st :=
  MkSt (mem s) (hold s) (mxv s) (upd (vw s) t v) (upd (stk s) t fs) (log s) (nexte s) (glob s) (epo s).
Definition say (s : st) (x : ev) : st :=
  MkSt (mem s) (hold s) (mxv s) (vw s) (stk s) (x :: log s) (nexte s) (glob s) (epo s).
Definition wr (s : st) (g : nat) (m : msg) : st :=
  MkSt (upd (mem s) g (m :: mem s g)) (hold s) (mxv s) (vw s) (stk s) (log s) (nexte s) (glob s) (epo s).
Definition take (s : st) (t : nat) : st :=
  MkSt (mem s) (Some t) (mxv s) (vw s) (stk s) (log s) (nexte s) (glob s) (epo s).
Definition give (s : st) (v : view) : st :=
  MkSt (mem s) None v (vw s) (stk s) (log s) (nexte s) (glob s) (epo s).
Definition count_e (s : st) : st :=
  MkSt (mem s) (hold s) (mxv s) (vw s) (stk s) (log s) (S (nexte s)) (glob s) (epo s).
Definition set_glob (s : st) (n : nat) : st :=
  MkSt (mem s) (hold s) (mxv s) (vw s) (stk s) (log s) (nexte s) n (epo s).
Definition set_epo (s : st) (t n : nat) : st :=
  MkSt (mem s) (hold s) (mxv s) (vw s) (stk s) (log s) (nexte s) (glob s) (upd (epo s) t n).

(** The user's code runs in a thread: outside call_once, or in the function. *)
Definition in_user_code (fs : list frame) : Prop := fs = [] \/ exists g e r, fs = FBody g e :: r.

(** The user's code: calls of call_once; synchronisation of any other kind between threads; the function
    returns or throws, and its effects are from now on seen by its thread. *)
Inductive ustep (s : st) : st -> Prop :=
| u_call : forall t g, in_user_code (stk s t) -> ustep s (put s t (vw s t) (FStart g :: stk s t))
| u_sync : forall t t', in_user_code (stk s t) -> ustep s (put s t (join (vw s t) (vw s t')) (stk s t))
| u_end : forall t g e ok r, stk s t = FBody g e :: r ->
    ustep s (say (put s t (see (vw s t) e) (FDone g e ok :: r)) (EvEnd t g e ok)).

(** ** src/pthread/once_atomic.cpp, pthread/once_atomic.hpp

    Flag values: 0 uninitialized, 1 in_progress, 2 initialized (once_atomic.cpp:23-26). Wakeups are not
    tracked: a thread may leave pthread_cond_wait at any time. *)
Definition in_progress := 1.
Definition initialized := 2.

Inductive astep (s : st) : st -> Prop :=
| a_user : forall s', ustep s s' -> astep s s'
(* once_atomic.cpp:39: f.load(memory_order_acquire) != initialized *)
| a_fast : forall t g r m, stk s t = FStart g :: r -> reads (mem s g) (vw s t) g m -> m_val m = initialized ->
    astep s (say (put s t (rview Acquire (vw s t) g m) r) (EvRet t g (v_see (rview Acquire (vw s t) g m))))
| a_slow : forall t g r m, stk s t = FStart g :: r -> reads (mem s g) (vw s t) g m -> m_val m <> initialized ->
    astep s (put s t (rview Acquire (vw s t) g m) (FLock g :: r))
(* once_atomic.cpp:41 *)
| a_lock : forall t g r, stk s t = FLock g :: r -> hold s = None ->
    astep s (take (put s t (join (vw s t) (mxv s)) (FChk g :: r)) t)
(* once_atomic.cpp:42, 64-66 *)
| a_chk_done : forall t g r m, stk s t = FChk g :: r -> reads (mem s g) (vw s t) g m -> m_val m = initialized ->
    astep s (put s t (rview Acquire (vw s t) g m) (FUnl g NRet :: r))
| a_chk_go : forall t g r m, stk s t = FChk g :: r -> reads (mem s g) (vw s t) g m -> m_val m <> initialized ->
    astep s (put s t (rview Acquire (vw s t) g m) (FCas g :: r))
(* once_atomic.cpp:46-51: compare_exchange_strong; the write of a read-modify-write is next to the write it
   has read *)
| a_cas_ok : forall t g r m, stk s t = FCas g :: r -> reads (mem s g) (vw s t) g m -> m_val m = 0 ->
    free_ts (mem s g) (S (m_ts m)) ->
    astep s (wr (put s t (raise (rview AcqRel (vw s t) g m) g (S (m_ts m))) (FUnl g NRun :: r)) g
                (wmsg AcqRel (rview AcqRel (vw s t) g m) g (S (m_ts m)) in_progress))
(* once_atomic.cpp:52-56 *)
| a_cas_done : forall t g r m, stk s t = FCas g :: r -> reads (mem s g) (vw s t) g m -> m_val m = initialized ->
    astep s (put s t (rview Acquire (vw s t) g m) (FUnl g NRet :: r))
(* once_atomic.cpp:57-62: pthread_cond_wait *)
| a_cas_wait : forall t g r m, stk s t = FCas g :: r -> reads (mem s g) (vw s t) g m ->
    m_val m <> 0 -> m_val m <> initialized ->
    astep s (give (put s t (rview Acquire (vw s t) g m) (FWait g :: r)) (rview Acquire (vw s t) g m))
| a_wake : forall t g r, stk s t = FWait g :: r -> hold s = None ->
    astep s (take (put s t (join (vw s t) (mxv s)) (FCas g :: r)) t)
(* ~pthread_mutex_scoped_lock; then once_atomic.hpp:127-136 (and the other overloads): the function is called *)
| a_unl_run : forall t g r, stk s t = FUnl g NRun :: r ->
    astep s (say (count_e (give (put s t (vw s t) (FBody g (nexte s) :: r)) (vw s t)))
                 (EvStart t g (nexte s) (v_see (vw s t))))
| a_unl_ret : forall t g r, stk s t = FUnl g NRet :: r ->
    astep s (say (give (put s t (vw s t) r) (vw s t)) (EvRet t g (v_see (vw s t))))
| a_unl_throw : forall t g r, stk s t = FUnl g NThrow :: r ->
    astep s (say (give (put s t (vw s t) r) (vw s t)) (EvThrow t g))
(* once_atomic.cpp:73, 83 *)
| a_done : forall t g e ok r, stk s t = FDone g e ok :: r -> hold s = None ->
    astep s (take (put s t (join (vw s t) (mxv s)) (FStore g ok :: r)) t)
(* once_atomic.cpp:74: f.store(initialized, memory_order_release); once_atomic.hpp:143 *)
| a_commit : forall t g r n, stk s t = FStore g true :: r -> writes (mem s g) (vw s t) g n ->
    astep s (wr (put s t (raise (vw s t) g n) (FUnl g NRet :: r)) g (wmsg Release (vw s t) g n initialized))
(* once_atomic.cpp:84: f.store(uninitialized, memory_order_release); once_atomic.hpp:137-142 *)
| a_rollback : forall t g r n, stk s t = FStore g false :: r -> writes (mem s g) (vw s t) g n ->
    astep s (wr (put s t (raise (vw s t) g n) (FUnl g NThrow :: r)) g (wmsg Release (vw s t) g n 0)).

(** ** pthread/once.hpp, src/pthread/once.cpp

    The flag is a volatile 32-bit integer. Its accesses are taken to be relaxed: they carry no view, and the
    read outside the mutex (once.hpp:133) may be stale. (In C++ that read is a data race; the assumption is
    that the compiler turns it into a plain load.) once_global_epoch is only used with the mutex held and is
    kept as a number. [W] is 2^32. *)
Definition being_initialized := 1.
Definition edec (W x : nat) : nat := match x with 0 => W - 1 | S y => y end.

Inductive estep (W : nat) (s : st) : st -> Prop :=
| e_user : forall s', ustep s s' -> estep W s s'
(* once.hpp:133-136 *)
| e_fast : forall t g r m, stk s t = FStart g :: r -> reads (mem s g) (vw s t) g m -> epo s t <= m_val m ->
    estep W s (say (put s t (rview Relaxed (vw s t) g m) r) (EvRet t g (v_see (rview Relaxed (vw s t) g m))))
| e_slow : forall t g r m, stk s t = FStart g :: r -> reads (mem s g) (vw s t) g m -> m_val m < epo s t ->
    estep W s (put s t (rview Relaxed (vw s t) g m) (FLock g :: r))
(* once.hpp:138 *)
| e_lock : forall t g r, stk s t = FLock g :: r -> hold s = None ->
    estep W s (take (put s t (join (vw s t) (mxv s)) (FChk g :: r)) t)
(* once.hpp:140-144: the two tests of the flag in one step *)
| e_take : forall t g r m n, stk s t = FChk g :: r -> reads (mem s g) (vw s t) g m -> m_val m = 0 ->
    writes (mem s g) (rview Relaxed (vw s t) g m) g n ->
    estep W s (wr (put s t (raise (rview Relaxed (vw s t) g m) g n) (FUnl g NRun :: r)) g
                  (wmsg Relaxed (rview Relaxed (vw s t) g m) g n being_initialized))
(* once.hpp:163-169 *)
| e_wait : forall t g r m, stk s t = FChk g :: r -> reads (mem s g) (vw s t) g m ->
    m_val m = being_initialized ->
    estep W s (give (put s t (rview Relaxed (vw s t) g m) (FWait g :: r)) (rview Relaxed (vw s t) g m))
| e_wake : forall t g r, stk s t = FWait g :: r -> hold s = None ->
    estep W s (take (put s t (join (vw s t) (mxv s)) (FChk g :: r)) t)
(* once.hpp:140, 171 *)
| e_leave : forall t g r m, stk s t = FChk g :: r -> reads (mem s g) (vw s t) g m ->
    being_initialized < m_val m ->
    estep W s (set_epo (put s t (rview Relaxed (vw s t) g m) (FUnl g NRet :: r)) t (glob s))
(* once.hpp:147: pthread_mutex_scoped_unlock, then the function is called *)
| e_unl_run : forall t g r, stk s t = FUnl g NRun :: r ->
    estep W s (say (count_e (give (put s t (vw s t) (FBody g (nexte s) :: r)) (vw s t)))
                   (EvStart t g (nexte s) (v_see (vw s t))))
| e_unl_ret : forall t g r, stk s t = FUnl g NRet :: r ->
    estep W s (say (give (put s t (vw s t) r) (vw s t)) (EvRet t g (v_see (vw s t))))
| e_unl_throw : forall t g r, stk s t = FUnl g NThrow :: r ->
    estep W s (say (give (put s t (vw s t) r) (vw s t)) (EvThrow t g))
(* ~pthread_mutex_scoped_unlock *)
| e_done : forall t g e ok r, stk s t = FDone g e ok :: r -> hold s = None ->
    estep W s (take (put s t (join (vw s t) (mxv s)) (FStore g ok :: r)) t)
(* once.hpp:160: flag.epoch=--once_global_epoch; then the test of the loop *)
| e_commit : forall t g r n, stk s t = FStore g true :: r -> writes (mem s g) (vw s t) g n ->
    estep W s (wr (set_glob (put s t (raise (vw s t) g n) (FChk g :: r)) (edec W (glob s))) g
                  (wmsg Relaxed (vw s t) g n (edec W (glob s))))
(* once.hpp:153-158 *)
| e_rollback : forall t g r n, stk s t = FStore g false :: r -> writes (mem s g) (vw s t) g n ->
    estep W s (wr (put s t (raise (vw s t) g n) (FUnl g NThrow :: r)) g (wmsg Relaxed (vw s t) g n 0)).

(** ** win32/once.hpp

    Flag values: 0, 1 for running_value, 2 for function_complete_flag_value (win32/once.hpp:171-172). The
    Interlocked functions are acquire-release; interlocked_read_acquire is an acquire load. The events only
    delay threads and are left out (WO_Model.v has them): a thread may leave its wait at any time. *)
Inductive wstep (s : st) : st -> Prop :=
| w_user : forall s', ustep s s' -> wstep s s'
(* win32/once.hpp:236-237: the test of the loop *)
| w_fast : forall t g r m, stk s t = FStart g :: r -> reads (mem s g) (vw s t) g m -> m_val m = 2 ->
    wstep s (say (put s t (rview Acquire (vw s t) g m) r) (EvRet t g (v_see (rview Acquire (vw s t) g m))))
| w_slow : forall t g r m, stk s t = FStart g :: r -> reads (mem s g) (vw s t) g m -> m_val m <> 2 ->
    wstep s (put s t (rview Acquire (vw s t) g m) (FCas g :: r))
(* win32/once.hpp:180-195: enter_once_region *)
| w_cas_ok : forall t g r m, stk s t = FCas g :: r -> reads (mem s g) (vw s t) g m -> m_val m = 0 ->
    free_ts (mem s g) (S (m_ts m)) ->
    wstep s (wr (put s t (raise (rview AcqRel (vw s t) g m) g (S (m_ts m))) (FUnl g NRun :: r)) g
                (wmsg AcqRel (rview AcqRel (vw s t) g m) g (S (m_ts m)) 1))
| w_cas_no : forall t g r m, stk s t = FCas g :: r -> reads (mem s g) (vw s t) g m -> m_val m <> 0 ->
    wstep s (put s t (rview AcqRel (vw s t) g m) (FChk g :: r))
(* the function is called *)
| w_run : forall t g r, stk s t = FUnl g NRun :: r ->
    wstep s (say (count_e (put s t (vw s t) (FBody g (nexte s) :: r))) (EvStart t g (nexte s) (v_see (vw s t))))
(* win32/once.hpp:254-262: the first time the thread gets here *)
| w_chk_done : forall t g r m, stk s t = FChk g :: r -> reads (mem s g) (vw s t) g m -> m_val m = 2 ->
    wstep s (say (put s t (rview Acquire (vw s t) g m) r) (EvRet t g (v_see (rview Acquire (vw s t) g m))))
(* win32/once.hpp:263-271: wait for the event, loop *)
| w_chk_wait : forall t g r, stk s t = FChk g :: r -> wstep s (put s t (vw s t) (FStart g :: r))
(* win32/once.hpp:197-214: commit_once_region, 215-226: rollback_once_region: BOOST_INTERLOCKED_EXCHANGE *)
| w_commit : forall t g e r m, stk s t = FDone g e true :: r -> reads (mem s g) (vw s t) g m ->
    free_ts (mem s g) (S (m_ts m)) ->
    wstep s (say (wr (put s t (raise (rview AcqRel (vw s t) g m) g (S (m_ts m))) r) g
                     (wmsg AcqRel (rview AcqRel (vw s t) g m) g (S (m_ts m)) 2))
                 (EvRet t g (v_see (rview AcqRel (vw s t) g m))))
| w_rollback : forall t g e r m, stk s t = FDone g e false :: r -> reads (mem s g) (vw s t) g m ->
    free_ts (mem s g) (S (m_ts m)) ->
    wstep s (say (wr (put s t (raise (rview AcqRel (vw s t) g m) g (S (m_ts m))) r) g
                     (wmsg AcqRel (rview AcqRel (vw s t) g m) g (S (m_ts m)) 0))
                 (EvThrow t g)).

(** All flags constructed (value 0), no thread in call_once. *)
Definition init (W : nat) : st :=
  MkSt (fun _ => [MkMsg 0 0 v0]) None v0 (fun _ => v0) (fun _ => []) [] 0 (W - 1) (fun _ => W - 1).

Inductive reach (step : st -> st -> Prop) (s0 : st) : st -> Prop :=
| r_refl : reach step s0 s0
| r_step : forall s s', reach step s0 s -> step s s' -> reach step s0 s'.
