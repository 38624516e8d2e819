(** * Model of thread interruption

    Modelled: thread::interrupt (src/pthread/thread.cpp 589-602), this_thread::interruption_point (638-652),
    this_thread::interruption_requested (660-672), disable_interruption and restore_interruption (674-705),
    detail::interruption_checker (include/boost/thread/pthread/thread_data.hpp 186-245),
    condition_variable::wait, do_wait_until, notify_one and notify_all
    (include/boost/thread/pthread/condition_variable.hpp 64-157).

    Any number of threads and condition variables.  Every acquisition of a mutex is a step of its own, so all
    interleavings of the three kinds of mutexes are there: [D t], the data_mutex of thread [t]; [I c], the
    internal_mutex of condition variable [c]; [U c], the user's mutex waited with on [c].
    Simplifications: one user mutex per condition variable (POSIX demands it for concurrent waits); a time-out is a
    wake-up without notification (the value returned by the wait is not modelled, and a timed wait differs from wait() in nothing else);
    the predicate loops around wait() are repeated calls. *)

From Coq Require Export List Arith Lia Bool.
Export ListNotations.
Set Implicit Arguments.

Inductive lock := D (t : nat) | I (c : nat) | U (c : nat).

Definition lock_eqb (a b : lock) : bool :=
  match a, b with D x, D y | I x, I y | U x, U y => x =? y | _, _ => false end.

(** What a thread calls. *)
Inductive op :=
| OLock (c : nat) | OUnlock (c : nat)      (* the user's mutex *)
| OWait (c : nat)                          (* condition_variable::wait / wait_until *)
| OPoint                                   (* this_thread::interruption_point() *)
| OInterrupt (t : nat)                     (* thread::interrupt() *)
| ONotifyOne (c : nat) | ONotifyAll (c : nat)
| ODisable                                 (* construct a disable_interruption *)
| ORestore (k : nat)                       (* construct a restore_interruption from the scope object number k, innermost first *)
| OEndScope.                               (* destroy the innermost of these objects *)

(** The scope objects of a thread: disable_interruption with interruption_was_enabled; restore_interruption. *)
Inductive scope := Dis (was : bool) | Res.

(** Where a thread is.  [int] in the wait states: interruption_checker::set, interruption enabled when the wait began. *)
Inductive pc :=
| PIdle
| PLock (c : nat)                          (* about to lock U c *)
| PWait (c : nat)                          (* wait: the checker is being constructed; reads interrupt_enabled *)
| PWaitD (c : nat)                         (* about to lock D self *)
| PWaitChk (c : nat)                       (* D held: check_for_interruption, set cond_mutex and current_cond *)
| PWaitI (c : nat) (int : bool)            (* about to lock I c (D held if int) *)
| PWaitUD (c : nat)                        (* I c and D held: unlock D *)
| PWaitUU (c : nat) (int : bool)           (* I c held: unlock the user's mutex *)
| PWaitGo (c : nat) (int : bool)           (* I c held: pthread_cond_wait *)
| PSleep (c : nat) (int : bool)            (* asleep in pthread_cond_wait *)
| PWoken (c : nat) (int : bool)            (* woken: about to lock I c again *)
| PWaitUI (c : nat) (int : bool)           (* unlock_if_locked: unlock I c *)
| PWaitClr (c : nat)                       (* about to lock D self *)
| PWaitClr2 (c : nat)                      (* D held: clear cond_mutex and current_cond, unlock D *)
| PWaitU (c : nat)                         (* lock_on_exit::deactivate: about to lock the user's mutex *)
| PPoint                                   (* interruption_point: reads interrupt_enabled *)
| PPointD                                  (* about to lock D self *)
| PPointChk                                (* D held: test interrupt_requested *)
| PIntr (t : nat)                          (* interrupt: about to lock D t *)
| PIntrSet (t : nat)                       (* D t held: set interrupt_requested, read current_cond *)
| PIntrI (t c : nat)                       (* D t held: about to lock I c (scoped lock) *)
| PIntrB (t c : nat)                       (* D t, I c held: broadcast *)
| PIntrUI (t c : nat)                      (* unlock I c *)
| PIntrUD (t : nat)                        (* unlock D t *)
| PNotI (c : nat) (all : bool)             (* notify: about to lock internal_mutex *)
| PNotB (c : nat) (all : bool)             (* signal or broadcast *)
| PNotUI (c : nat).                        (* unlock internal_mutex *)

(** What can be observed, newest first. *)
Inductive event :=
| ECall (t : nat) (o : op)
| ERet (t : nat)                           (* the call returns normally *)
| ERequest (u t : nat)                     (* u, in interrupt(), makes a request to t *)
| EThrow (t : nat) (enabled : bool)        (* t throws thread_interrupted out of its call *)
| EPass (t : nat) (enabled : bool).        (* t passes an interruption point; enabled: interruption_enabled() *)

Record thr := MkThr { t_pc : pc; t_en : bool; t_scopes : list scope }.
Record sys := MkSys {
  own : lock -> option nat;
  req : nat -> bool;                       (* interrupt_requested *)
  cur : nat -> option nat;                 (* current_cond (with its cond_mutex) *)
  thrs : list thr;
  hist : list event }.

Definition set_own (o : lock -> option nat) (l : lock) (v : option nat) : lock -> option nat :=
  fun l' => if lock_eqb l l' then v else o l'.
Definition set_nat (A : Type) (f : nat -> A) (t : nat) (v : A) : nat -> A := fun t' => if t =? t' then v else f t'.
Fixpoint set_thr (l : list thr) (t : nat) (x : thr) : list thr :=
  match l, t with
  | [], _ => []
  | _ :: l', 0 => x :: l'
  | y :: l', S t' => y :: set_thr l' t' x
  end.

(** pthread_cond_broadcast *)
Definition wake_all (c : nat) (x : thr) : thr :=
  match t_pc x with
  | PSleep c' int => if c =? c' then MkThr (PWoken c' int) (t_en x) (t_scopes x) else x
  | _ => x
  end.
Definition sleeps_on (c : nat) (x : thr) : bool := match t_pc x with PSleep c' _ => c =? c' | _ => false end.

(** What a step does to the shared state besides moving the program counter. *)
Inductive act :=
| ANone | AAcq (l : lock) | ARel (l : lock)
| ASleep (c : nat)                        (* atomically release I c and sleep *)
| ABroadcast (c : nat) | ASignal (c : nat).

(** One thread's next step, given the flags: the action, the new program counter, the new events, and the flags set. *)
Record move := MkMove { m_act : act; m_pc : pc; m_ev : list event; m_req : option (nat * bool); m_cur : option (nat * option nat) }.
Definition go (a : act) (p : pc) : move := MkMove a p [] None None.

Definition next (s : sys) (me : nat) (x : thr) : option move :=
  match t_pc x with
  | PIdle => None
  | PLock c => Some (MkMove (AAcq (U c)) PIdle [ERet me] None None)
  (* interruption_checker(cond_mutex, cond), thread_data.hpp 209-225 *)
  | PWait c => Some (if t_en x then go ANone (PWaitD c) else go ANone (PWaitI c false))
  | PWaitD c => Some (go (AAcq (D me)) (PWaitChk c))
  | PWaitChk c =>
      if req s me
      then Some (MkMove (ARel (D me)) PIdle [EThrow me (t_en x)] (Some (me, false)) None)
      else Some (MkMove ANone (PWaitI c true) [EPass me (t_en x)] None (Some (me, Some c)))
  | PWaitI c int => Some (go (AAcq (I c)) (if int then PWaitUD c else PWaitUU c false))
  | PWaitUD c => Some (go (ARel (D me)) (PWaitUU c true))
  (* guard.activate(m), condition_variable.hpp 78 *)
  | PWaitUU c int => Some (go (ARel (U c)) (PWaitGo c int))
  | PWaitGo c int => Some (go (ASleep c) (PSleep c int))
  | PSleep c int => None
  | PWoken c int => Some (go (AAcq (I c)) (PWaitUI c int))
  (* unlock_if_locked, thread_data.hpp 226-243 *)
  | PWaitUI c int => Some (go (ARel (I c)) (if int then PWaitClr c else PWaitU c))
  | PWaitClr c => Some (go (AAcq (D me)) (PWaitClr2 c))
  | PWaitClr2 c => Some (MkMove (ARel (D me)) (PWaitU c) [] None (Some (me, None)))
  (* guard.deactivate(), condition_variable.hpp 82; then interruption_point() *)
  | PWaitU c => Some (go (AAcq (U c)) PPoint)
  (* interruption_point, thread.cpp 638-652 *)
  | PPoint => Some (if t_en x then go ANone PPointD else MkMove ANone PIdle [ERet me; EPass me (t_en x)] None None)
  | PPointD => Some (go (AAcq (D me)) PPointChk)
  | PPointChk =>
      if req s me
      then Some (MkMove (ARel (D me)) PIdle [EThrow me (t_en x)] (Some (me, false)) None)
      else Some (MkMove (ARel (D me)) PIdle [ERet me; EPass me (t_en x)] None None)
  (* thread::interrupt, thread.cpp 589-602 *)
  | PIntr t => Some (go (AAcq (D t)) (PIntrSet t))
  | PIntrSet t =>
      Some (MkMove ANone (match cur s t with Some c => PIntrI t c | None => PIntrUD t end) [ERequest me t] (Some (t, true)) None)
  | PIntrI t c => Some (go (AAcq (I c)) (PIntrB t c))
  | PIntrB t c => Some (go (ABroadcast c) (PIntrUI t c))
  | PIntrUI t c => Some (go (ARel (I c)) (PIntrUD t))
  | PIntrUD t => Some (MkMove (ARel (D t)) PIdle [ERet me] None None)
  (* notify_one / notify_all, condition_variable.hpp 144-157 *)
  | PNotI c all => Some (go (AAcq (I c)) (PNotB c all))
  | PNotB c all => Some (go (if all then ABroadcast c else ASignal c) (PNotUI c))
  | PNotUI c => Some (MkMove (ARel (I c)) PIdle [ERet me] None None)
  end.

(** The shared effect of an action: the owners, and the threads (of which [me] has already moved).
    A pick tells which sleeper pthread_cond_signal wakes. *)
Inductive effect (me : nat) : act -> (lock -> option nat) -> list thr -> (lock -> option nat) -> list thr -> Prop :=
| ef_none o l : effect me ANone o l o l
| ef_acq o l k : o k = None -> effect me (AAcq k) o l (set_own o k (Some me)) l
| ef_rel o l k : effect me (ARel k) o l (set_own o k None) l
| ef_sleep o l c : effect me (ASleep c) o l (set_own o (I c) None) l
| ef_broadcast o l c : effect me (ABroadcast c) o l o (map (wake_all c) l)
| ef_signal o l c i x : nth_error l i = Some x -> sleeps_on c x = true -> effect me (ASignal c) o l o (set_thr l i (wake_all c x))
| ef_signal_none o l c : (forall x, In x l -> sleeps_on c x = false) -> effect me (ASignal c) o l o l.

(** disable_interruption / restore_interruption, thread.cpp 674-705: they only touch the calling thread's own flag. *)
Definition do_scope (o : op) (x : thr) : option (bool * list scope) :=
  match o with
  | ODisable => Some (false, Dis (t_en x) :: t_scopes x)
  | ORestore k => match nth_error (t_scopes x) k with
                  | Some (Dis was) => Some (if was then true else t_en x, Res :: t_scopes x)
                  | _ => None
                  end
  | OEndScope => match t_scopes x with
                 | Dis was :: sc => Some (was, sc)
                 | Res :: sc => Some (false, sc)
                 | [] => None
                 end
  | _ => None
  end.

(** Where a call begins; [ok]: its precondition (the user's mutex is held by the caller for wait and unlock, not for lock). *)
Definition start (o : op) : option pc :=
  match o with
  | OLock c => Some (PLock c)
  | OWait c => Some (PWait c)
  | OPoint => Some PPoint
  | OInterrupt t => Some (PIntr t)
  | ONotifyOne c => Some (PNotI c false)
  | ONotifyAll c => Some (PNotI c true)
  | _ => None
  end.
Definition call_ok (s : sys) (me : nat) (o : op) : Prop :=
  match o with
  | OLock c => own s (U c) <> Some me
  | OUnlock c | OWait c => own s (U c) = Some me
  | _ => True
  end.

Definition opt_req (f : nat -> bool) (u : option (nat * bool)) := match u with Some (t, v) => set_nat f t v | None => f end.
Definition opt_cur (f : nat -> option nat) (u : option (nat * option nat)) := match u with Some (t, v) => set_nat f t v | None => f end.

Inductive step (s : sys) : sys -> Prop :=
| st_call t x o p : nth_error (thrs s) t = Some x -> t_pc x = PIdle -> start o = Some p -> call_ok s t o ->
    step s (MkSys (own s) (req s) (cur s) (set_thr (thrs s) t (MkThr p (t_en x) (t_scopes x))) (ECall t o :: hist s))
| st_unlock t x c : nth_error (thrs s) t = Some x -> t_pc x = PIdle -> call_ok s t (OUnlock c) ->
    step s (MkSys (set_own (own s) (U c) None) (req s) (cur s) (thrs s) (ERet t :: ECall t (OUnlock c) :: hist s))
| st_scope t x o en sc : nth_error (thrs s) t = Some x -> t_pc x = PIdle -> do_scope o x = Some (en, sc) ->
    step s (MkSys (own s) (req s) (cur s) (set_thr (thrs s) t (MkThr PIdle en sc)) (ERet t :: ECall t o :: hist s))
| st_run t x m o' l' : nth_error (thrs s) t = Some x -> next s t x = Some m ->
    effect t (m_act m) (own s) (set_thr (thrs s) t (MkThr (m_pc m) (t_en x) (t_scopes x))) o' l' ->
    step s (MkSys o' (opt_req (req s) (m_req m)) (opt_cur (cur s) (m_cur m)) l' (m_ev m ++ hist s))
| st_wake t x c int : nth_error (thrs s) t = Some x -> t_pc x = PSleep c int ->   (* spurious wake-up or time-out *)
    step s (MkSys (own s) (req s) (cur s) (set_thr (thrs s) t (MkThr (PWoken c int) (t_en x) (t_scopes x))) (hist s)).

(** [ens]: for each thread, whether interruption is enabled at the start (not for threads not created by Boost). *)
Definition init (ens : list bool) : sys :=
  MkSys (fun _ => None) (fun _ => false) (fun _ => None) (map (fun b => MkThr PIdle b []) ens) [].
Inductive reach (ens : list bool) : sys -> Prop :=
| r_init : reach ens (init ens)
| r_step s s' : reach ens s -> step s s' -> reach ens s'.
