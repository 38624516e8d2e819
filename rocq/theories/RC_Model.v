(** * Model of constructors and calls that start threads and may fail on the way

    Source: include/boost/thread/executors/basic_thread_pool.hpp 39-42 (members), 141-160 (constructor, also 170-224), 231-237 and 265-272 (destructor);
    executors/scheduled_thread_pool.hpp 24-40 with executors/detail/scheduled_executor_base.hpp 40-46; executors/serial_executor.hpp 40-46, 133-146 with scoped_thread.hpp 194-198;
    executors/scheduler.hpp 233-242, executors/scheduling_adaptor.hpp 33-43; detail/thread_group.hpp 30-38, 76-83 (create_thread);
    executors/thread_executor.hpp 115-143 (submit); detail/thread.hpp 250-260 (~thread).

    A constructor or call is a list of instructions, written down as C++ executes them: the body; if it throws, the destructors of the local objects, the handler and the
    destructors of the members made so far, in reverse order of their declarations; and the destructor followed by the destructors of the members.  The workers run at the same time: a running worker may use
    the queue of the executor at any time, and ends when it finds the queue closed or is interrupted.
    Simplifications: what the workers execute is not modelled (the subject of EX_Model.v, SC_Model.v, SR_Model.v, TE_Model.v), nor are the submissions; joins are not interrupted; the mutex of the
    thread_group is not modelled (TG_Model.v); the constructors of queues and mutexes do not throw. *)
From Coq Require Import List Arith Bool.
Import ListNotations.
Set Implicit Arguments.

(** [Pool n]: basic_thread_pool(n); [Sched n]: scheduled_thread_pool(n); [Serial]: serial_executor; [Timer]: scheduler and scheduling_adaptor; [Create]: thread_group::create_thread;
    [Submit]: thread_executor::submit *)
Inductive kind := Pool (n : nat) | Sched (n : nat) | Serial | Timer | Create | Submit.
(** [IReserve n]: room for [n] more thread objects; [IStart]: a local object of type thread with a new thread; [IPush]: moves the local object to where it is kept (no allocation if there is room);
    [ILocalDtor]: destructor of the local object; [IInterrupt i], [IJoin i]: of the [i]th thread object kept; [IThreadsDtor]: destructors of the thread objects kept; [IQueueDtor]: of the queue *)
Inductive instr := IReserve (n : nat) | IStart | IPush | ILocalDtor | IClose | IInterrupt (i : nat) | IJoin (i : nat) | IThreadsDtor | IQueueDtor.

(** The for loops of the constructors *)
Fixpoint starts (n : nat) : list instr := match n with 0 => [] | S m => IStart :: IPush :: starts m end.
Definition body (k : kind) : list instr :=
  match k with
  | Pool n => IReserve n :: starts n
  | Sched n => starts n
  | Serial | Timer => starts 1        (* the thread object is itself a member *)
  | Create => starts 1
  | Submit => IReserve 1 :: starts 1
  end.
(** Where thread objects can be kept without allocation before anything is reserved: the member of type thread *)
Definition room (k : kind) : nat := match k with Serial | Timer => 1 | _ => 0 end.
(** What is executed when the body throws *)
Definition unwind (k : kind) : list instr :=
  ILocalDtor :: match k with
  | Pool _ => [IClose; IQueueDtor; IThreadsDtor]        (* handler; work_queue is declared after threads *)
  | Sched _ => [IThreadsDtor; IClose; IQueueDtor]       (* _workers; ~scheduled_executor_base; _workq *)
  | Serial => [IQueueDtor]
  | Timer => [IClose; IQueueDtor]
  | Create | Submit => []
  end.
(** interrupt_and_join, interrupt_all, join_all *)
Definition interrupt_and_join (n : nat) : list instr := flat_map (fun i => [IInterrupt i; IJoin i]) (seq 0 n).
Definition dtor (k : kind) : list instr :=
  match k with
  | Pool n => IClose :: interrupt_and_join n ++ [IQueueDtor; IThreadsDtor]
  | Sched n => IClose :: map IInterrupt (seq 0 n) ++ map IJoin (seq 0 n) ++ [IThreadsDtor; IClose; IQueueDtor]
  | Serial => [IClose; IJoin 0; IThreadsDtor; IQueueDtor]        (* ~scoped_thread joins *)
  | Timer => [IClose; IInterrupt 0; IJoin 0; IThreadsDtor; IClose; IQueueDtor]
  | Create | Submit => []
  end.
Definition is_object (k : kind) : bool := match k with Create | Submit => false | _ => true end.

Inductive wst := NotStarted | Running | Ended.
(** In the body; throwing; constructed (or returned); in the destructor; the exception has reached the caller; destroyed; the program has been terminated *)
Inductive phase := PBody | PThrow | PLive | PDtor | PThrown | PDone | PTerm.
(** [EFail c]: starting or keeping a thread threw when [c] threads had been started; [EDead]: a worker used the queue after its destructor *)
Inductive event := EStart (w : nat) | EFail (c : nat) | EBuilt | EThrown | EDestroyed | ETerm | EDead (w : nat).
(** [loc]: the thread of the local object; [thr]: threads of the objects kept; [cnt]: number of threads started; [qa]: the queue is alive *)
Record sys := Sys { ph : phase; code : list instr; loc : option nat; thr : list nat; cap : nat; cnt : nat; run : nat -> wst; joined : nat -> bool; itr : nat -> bool;
  qa : bool; cl : bool; hist : list event }.
Definition sys0 (k : kind) : sys := Sys PBody (body k) None [] (room k) 0 (fun _ => NotStarted) (fun _ => false) (fun _ => false) true false [].
Definition fupd {A} (f : nat -> A) (i : nat) (x : A) : nat -> A := fun j => if j =? i then x else f j.

(** [term]: BOOST_THREAD_PROVIDES_THREAD_DESTRUCTOR_CALLS_TERMINATE_IF_JOINABLE (version 3 and later); otherwise ~thread detaches *)
Section Config.
  Variable term : bool.
  Variable k : kind.
  Definition goto (s : sys) (p : phase) (c : list instr) (ev : list event) : sys :=
    Sys p c (loc s) (thr s) (cap s) (cnt s) (run s) (joined s) (itr s) (qa s) (cl s) (ev ++ hist s).
  (** destructors of the thread objects of threads [l], then [s'] *)
  Definition destroy (s : sys) (l : list nat) (s' : sys) : sys := if term && existsb (fun w => negb (joined s w)) l then goto s PTerm [] [ETerm] else s'.
  (** the instruction is carried out; [c]: the instructions after it *)
  Definition exec (s : sys) (i : instr) (c : list instr) : sys :=
    match i with
    | IReserve n => Sys (ph s) c (loc s) (thr s) (length (thr s) + n) (cnt s) (run s) (joined s) (itr s) (qa s) (cl s) (hist s)
    | IStart => Sys (ph s) c (Some (cnt s)) (thr s) (cap s) (S (cnt s)) (fupd (run s) (cnt s) Running) (joined s) (itr s) (qa s) (cl s) (EStart (cnt s) :: hist s)
    | IPush => Sys (ph s) c None (match loc s with Some w => thr s ++ [w] | None => thr s end) (cap s) (cnt s) (run s) (joined s) (itr s) (qa s) (cl s) (hist s)
    | ILocalDtor => destroy s (match loc s with Some w => [w] | None => [] end) (Sys (ph s) c None (thr s) (cap s) (cnt s) (run s) (joined s) (itr s) (qa s) (cl s) (hist s))
    | IClose => Sys (ph s) c (loc s) (thr s) (cap s) (cnt s) (run s) (joined s) (itr s) (qa s) true (hist s)
    | IInterrupt i => Sys (ph s) c (loc s) (thr s) (cap s) (cnt s) (run s) (joined s) (fupd (itr s) (nth i (thr s) 0) true) (qa s) (cl s) (hist s)
    | IJoin i => Sys (ph s) c (loc s) (thr s) (cap s) (cnt s) (run s) (fupd (joined s) (nth i (thr s) 0) true) (itr s) (qa s) (cl s) (hist s)
    | IThreadsDtor => destroy s (thr s) (Sys (ph s) c (loc s) [] (cap s) (cnt s) (run s) (joined s) (itr s) (qa s) (cl s) (hist s))
    | IQueueDtor => Sys (ph s) c (loc s) (thr s) (cap s) (cnt s) (run s) (joined s) (itr s) false (cl s) (hist s)
    end.
  (** a join waits *)
  Definition may_go (s : sys) (i : instr) : bool :=
    match i with IJoin i => match run s (nth i (thr s) 0) with Ended => true | _ => false end | _ => true end.
  (** what may throw: allocation and starting a thread *)
  Definition may_throw (s : sys) (i : instr) : bool :=
    match i with IReserve _ | IStart => true | IPush => negb (length (thr s) <? cap s) | _ => false end.
  Inductive step : sys -> sys -> Prop :=
    | s_exec s i c : ph s = PBody \/ ph s = PThrow \/ ph s = PDtor -> code s = i :: c -> may_go s i = true -> step s (exec s i c)
    | s_throw s i c : ph s = PBody -> code s = i :: c -> may_throw s i = true -> step s (goto s PThrow (unwind k) [EFail (cnt s)])
    | s_built s : ph s = PBody -> code s = [] -> step s (goto s PLive [] [EBuilt])
    | s_destroy s : ph s = PLive -> is_object k = true -> step s (goto s PDtor (dtor k) [])
    | s_thrown s : ph s = PThrow -> code s = [] -> step s (goto s PThrown [] [EThrown])
    | s_done s : ph s = PDtor -> code s = [] -> step s (goto s PDone [] [EDestroyed])
    (* a worker uses the queue *)
    | s_use s w : ph s <> PTerm -> is_object k = true -> run s w = Running -> qa s = false -> step s (goto s (ph s) (code s) [EDead w])
    (* a worker ends; the function of a thread made by create_thread or submit ends when it likes *)
    | s_end s w : ph s <> PTerm -> run s w = Running -> (cl s = true \/ itr s w = true \/ is_object k = false) ->
        step s (Sys (ph s) (code s) (loc s) (thr s) (cap s) (cnt s) (fupd (run s) w Ended) (joined s) (itr s) (qa s) (cl s) (hist s)).
  Inductive reach : sys -> Prop :=
    | r_init : reach (sys0 k)
    | r_step s s' : reach s -> step s s' -> reach s'.
End Config.
