(** * Model of interruption, sleeping and joining on Windows

    Modelled: src/win32/thread.cpp: thread_start_function (285-306, its end), join_noexcept, do_try_join_until_noexcept (442-475), detach,
    release_handle (477-485), interrupt, interruption_requested (487-501), native_handle (541-554), interruptible_wait (621-725),
    no_interruption_point::non_interruptible_wait (729-815), interruption_point, interruption_enabled, interruption_requested (835-853),
    disable_interruption (862-877);
    include/boost/thread/win32/thread_data.hpp: interrupt (164-169), sleep, sleep_for, sleep_until (215-317);
    include/boost/thread/detail/thread.hpp: try_join_until, try_join_for, timed_join (482-553), join (741-750), do_try_join_until (752-763);
    include/boost/thread/detail/platform_time.hpp: getMs (169-183).
    Any number of threads; thread i is represented by thread object i while that object is joinable.
    A wait of the Windows API (WaitForMultipleObjectsEx, Sleep) is a state of its own; it ends for the lowest index that is signalled, when its time is up, or,
    for no reason, too early or with an error (label LEarly).  The internal clock never goes back; the clock of the user (system_clock, or any other) may be
    set at will.
    Simplifications: times are unbounded integers, in nanoseconds; the clock is read, the waitable timer set and the wait started at one instant (PEnter);
    accesses to the member thread_info of a thread object are atomic (the code does not synchronise them); the clock, the handle and the result of a
    finished wait are looked at without the clock moving in between; restore_interruption is not modelled (see IT_Model.v). *)

From Coq Require Export List Arith Lia Bool ZArith.
Export ListNotations.
Open Scope Z_scope.
Set Implicit Arguments.

(** The time at which a call gives up: never, at a time of the internal clock, at a time of the user's clock *)
Inductive deadline := Never | Mono (d : Z) | Real (d : Z).
(** A call that waits: for a thread (join, try_join_until) or for nothing (sleep_until); whether it is an interruption point *)
Record kind := Kind { k_obj : option nat; k_dl : deadline; k_ipt : bool }.

(** [c]: the time passed to interruptible_wait (None: getMax()); [h]: the thread whose handle is waited for (None: invalid_handle_value);
    [ip]: the interruption event is among the handles; [tm]: a waitable timer is; [due]: when the wait of the API is over (None: never) *)
Inductive pc :=
| PIdle
| PTop (k : kind)
| PGet (k : kind) (c : option Z)
| PNative (k : kind) (c : option Z)
| PEnter (k : kind) (h : option nat) (c : option Z)
| PWait (k : kind) (h : option nat) (c : option Z) (ip tm : bool) (due : option Z)
| PAgain (k : kind) (h : option nat) (c : option Z) (ip tm : bool) (due : option Z)
| PDone (k : kind) (b : bool)
| PIntr (k : kind)
| PPoint
| PEnd.

(** thread_data_base (win32/thread_data.hpp 97-127) exists for the thread; interruption_enabled; what the disable_interruption objects in scope have
    saved, innermost first; the interruption event is set; thread object i is joinable; *)
Record thr := Thr { has : bool; en : bool; dis : list bool; intr : bool; jn : bool; t_pc : pc }.

Inductive event :=
| EWait (t : nat) (k : kind) (now real : Z)              (* t begins a sleep or a join *)
| ERet (t : nat) (k : kind) (b : bool) (now real : Z)    (* it returns; b: the thread has been joined *)
| EThrow (t : nat)                                       (* thread_interrupted is thrown in t *)
| EInvalid (t : nat) | EDeadlock (t : nat)               (* a join finds no thread (it throws, or its precondition is violated); it would join itself (throws) *)
| EPoint (t : nat) | EPass (t : nat)                     (* interruption_point() is going to throw; it has returned *)
| EReq (j : nat)                                         (* interrupt() on the object of j, which is joinable *)
| EAsk (j : nat) (b : bool)                              (* interruption_requested() on the object of j *)
| EEnabled (t : nat) (b : bool)                          (* this_thread::interruption_enabled() *)
| EDis (t : nat) | EUndis (t : nat)                      (* a disable_interruption is constructed; destroyed *)
| ERel (j u : nat)                                       (* thread object j is no longer joinable, because of a call made by u *)
| EFin (t : nat).                                        (* the thread function has ended *)

Record sys := Sys { now : Z; real : Z; thrs : list thr; hist : list event }.

Fixpoint modify (l : list thr) (t : nat) (f : thr -> thr) : list thr :=
  match l, t with
  | [], _ => []
  | y :: l', O => f y :: l'
  | y :: l', S t' => y :: modify l' t' f
  end.

Definition set_pc (p : pc) (x : thr) : thr := Thr (has x) (en x) (dis x) (intr x) (jn x) p.
Definition set_intr (b : bool) (x : thr) : thr := Thr (has x) (en x) (dis x) b (jn x) (t_pc x).
Definition set_jn (b : bool) (x : thr) : thr := Thr (has x) (en x) (dis x) (intr x) b (t_pc x).
Definition set_dis (e : bool) (l : list bool) (x : thr) : thr := Thr (has x) e l (intr x) (jn x) (t_pc x).

Definition upd (s : sys) (t : nat) (f : thr -> thr) (ev : list event) : sys :=
  Sys (now s) (real s) (modify (thrs s) t f) (ev ++ hist s).

(** getMs, platform_time.hpp 169-183: away from zero *)
Definition getMs (ns : Z) : Z := if 0 <=? ns then Z.quot (ns + 999999) 1000000 else Z.quot (ns - 999999) 1000000.
Definition INFINITE : Z := 4294967295.
(** static_cast<DWORD> *)
Definition dword (ms : Z) : Z := ms mod 4294967296.
Definition POLL : Z := 100000000.

(** When a wait that is started now and is given that many milliseconds is over *)
Definition due_ms (s : sys) (ms : Z) : option Z := if dword ms =? INFINITE then None else Some (now s + dword ms * 1000000).
(** ... and when a waitable timer set now is signalled, thread.cpp 663-668 *)
Definition due_timer (s : sys) (ms : Z) : option Z := Some (now s + (if 0 <? ms then ms else 0) * 1000000).

Definition joinable (s : sys) (j : nat) : bool := match nth_error (thrs s) j with Some y => jn y | None => false end.
(** the handle of a thread is signalled when the thread has ended *)
Definition ended (s : sys) (j : nat) : bool :=
  match nth_error (thrs s) j with Some y => match t_pc y with PEnd => true | _ => false end | None => false end.
Definition signalled (s : sys) (h : option nat) : bool := match h with Some j => ended s j | None => false end.
Definition over (s : sys) (due : option Z) : bool := match due with Some u => u <=? now s | None => false end.

Section Step.
Variable s : sys.
Variable t : nat.
Variable x : thr.

Definition goto (p : pc) : option sys := Some (upd s t (set_pc p) []).
Definition ret (k : kind) (b : bool) : option sys := Some (upd s t (set_pc PIdle) [ERet t k b (now s) (real s)]).
(** release_handle, 482-485, and the return of the join *)
Definition joined (k : kind) (j : nat) : option sys :=
  Some (upd (upd s j (set_jn false) [ERel j t]) t (set_pc PIdle) [ERet t k true (now s) (real s)]).
(** interruption_enabled, 845-848 *)
Definition enabled : bool := has x && en x.

(** detail/thread.hpp 511-515, thread_data.hpp 252-262: the time of the next round of a call with a time of the user's clock *)
Definition chunk (d : Z) : option Z := Some (now s + Z.min (d - real s) POLL).
Definition begin (k : kind) (c : option Z) : option sys :=
  match k_obj k with Some _ => goto (PGet k c) | None => goto (PEnter k None c) end.

(** The part of interruptible_wait (623-687) before the loop; [ok]: the waitable timer could be created and set *)
Definition enter (ok : bool) (k : kind) (h : option nat) (c : option Z) : option sys :=
  let ip := k_ipt k && enabled in
  match c with
  | None => goto (PWait k h c ip false None)
  | Some d =>
      let ms := getMs (d - now s) in
      if ok then goto (PWait k h c ip true (due_timer s ms))
      else goto (PWait k h c ip false (due_ms s (if ms <? 0 then 0 else ms)))
  end.

Definition run : option sys :=
  match t_pc x with
  | PIdle | PEnd | PEnter _ _ _ => None
  | PTop k =>
      match k_dl k with
      | Never => begin k None
      | Mono d => begin k (Some d)
      | Real d =>
          match k_obj k with
          | None => if 0 <? d - real s then begin k (chunk d) else ret k false     (* thread_data.hpp 252-262 *)
          | Some _ => begin k (chunk d)                                            (* detail/thread.hpp 492-493 *)
          end
      end
  (* 444-445, 459-460 *)
  | PGet k c =>
      match k_obj k with
      | Some j => if joinable s j then goto (PNative k c) else Some (upd s t (set_pc PIdle) [EInvalid t])
      | None => None
      end
  (* 541-554 *)
  | PNative k c =>
      match k_obj k with
      | Some j => goto (PEnter k (if joinable s j then Some j else None) c)
      | None => None
      end
  (* 691-712 *)
  | PWait k h c ip tm due =>
      if signalled s h then goto (PDone k true)
      else if ip && intr x then goto (PIntr k)
      else if over s due then (if tm then goto (PDone k false) else goto (PAgain k h c ip tm due))
      else None
  (* 718-723 *)
  | PAgain k h c ip tm due =>
      match c with
      | Some d =>
          if tm then goto (PWait k h c ip tm due)
          else
            let ms := getMs (d - now s) in
            if (ms =? INFINITE) || (0 <? ms) then goto (PWait k h c ip tm (due_ms s ms)) else goto (PDone k false)
      | None => goto (PWait k h c ip tm due)
      end
  (* 703-704 *)
  | PIntr k => Some (upd s t (fun y => set_pc PIdle (set_intr false y)) [EThrow t])
  (* interruptible_wait has returned b *)
  | PDone k b =>
      match k_obj k, k_dl k with
      | None, Real _ => goto (PTop k)
      | None, _ => ret k b
      | Some j, Never => joined k j                                                (* 447-449 *)
      | Some j, Mono _ => if b then joined k j else ret k false                    (* 462-469 *)
      | Some j, Real d =>                                                          (* detail/thread.hpp 494-500 *)
          if b then joined k j
          else if d - real s <=? 0 then ret k false
          else goto (PGet k (chunk d))
      end
  (* 840-841 *)
  | PPoint => Some (upd s t (fun y => set_pc PIdle (set_intr false y)) [EThrow t])
  end.

Inductive op :=
| OWait (k : kind) | OInterrupt (j : nat) | OAsk (j : nat) | OPoint | OEnabled | ODisable | OUndisable | ODetach (j : nat) | OExit.

(** A call, made by a thread that is in no call *)
Definition call (o : op) : option sys :=
  match t_pc x with
  | PIdle =>
      match o with
      | OWait k =>
          let s' := upd s t (set_pc (PTop k)) [EWait t k (now s) (real s)] in
          match k_obj k, k_dl k with
          (* detail/thread.hpp 743-744, 754-755 *)
          | Some j, _ => if (j =? t)%nat && joinable s j then Some (upd s t (set_pc PIdle) [EDeadlock t]) else Some s'
          | None, Never => None
          | None, _ => Some s'
          end
      | OInterrupt j => if joinable s j then Some (upd s j (set_intr true) [EReq j]) else Some s
      | OAsk j =>
          match nth_error (thrs s) j with
          | Some y => if jn y then Some (upd s t (fun y => y) [EAsk j (intr y)]) else Some s
          | None => None
          end
      | OPoint => if enabled && intr x then Some (upd s t (set_pc PPoint) [EPoint t]) else Some (upd s t (fun y => y) [EPass t])
      | OEnabled => Some (upd s t (fun y => y) [EEnabled t enabled])
      | ODisable => Some (upd s t (set_dis (if enabled then false else en x) (enabled :: dis x)) [EDis t])
      | OUndisable =>
          match dis x with
          | [] => None
          | w :: l => Some (upd s t (set_dis (if has x then w else en x) l) [EUndis t])
          end
      | ODetach j => Some (upd s j (set_jn false) (if joinable s j then [ERel j t] else []))
      | OExit => Some (upd s t (set_pc PEnd) [EFin t])
      end
  | _ => None
  end.
End Step.

Inductive label := LCall (t : nat) (o : op) | LRun (t : nat) | LEnter (t : nat) (ok : bool) | LEarly (t : nat) | LTick (dm dr : Z).

Definition exec (s : sys) (l : label) : option sys :=
  match l with
  | LCall t o => match nth_error (thrs s) t with Some x => call s t x o | None => None end
  | LRun t => match nth_error (thrs s) t with Some x => run s t x | None => None end
  | LEnter t ok =>
      match nth_error (thrs s) t with
      | Some x => match t_pc x with PEnter k h c => enter s t x ok k h c | _ => None end
      | None => None
      end
  | LEarly t =>
      match nth_error (thrs s) t with
      | Some x => match t_pc x with PWait k h c ip tm due => goto s t (PAgain k h c ip tm due) | _ => None end
      | None => None
      end
  | LTick dm dr => if 0 <=? dm then Some (Sys (now s + dm) (real s + dr) (thrs s) (hist s)) else None
  end.

(** Thread i is one of the library's, with its object, or (false) a foreign one without thread_data_base *)
Definition init (boost : list bool) (n r : Z) : sys :=
  Sys n r (map (fun b => Thr b true [] false b PIdle) boost) [].

(** [fallible]: waitable timers may fail, or do not exist (Windows CE, Windows Runtime) *)
Definition allowed (fallible : bool) (l : label) : Prop :=
  match l with LEnter _ ok => fallible = true \/ ok = true | _ => True end.

Inductive reach (fallible : bool) (boost : list bool) (n r : Z) : sys -> Prop :=
| r_init : reach fallible boost n r (init boost n r)
| r_step s l s' : reach fallible boost n r s -> allowed fallible l -> exec s l = Some s' -> reach fallible boost n r s'.

(** The execution of a list of labels *)
Fixpoint runl (s : sys) (ls : list label) : option sys :=
  match ls with
  | [] => Some s
  | l :: ls' => match exec s l with Some s' => runl s' ls' | None => None end
  end.
