(** * How functions of the library take their arguments
    A C++ function that takes `T&&' with `T' its own template parameter accepts lvalues too: the parameter is then an lvalue reference to the caller's object, and
    boost::move of it makes the next initialisation empty that object.  (BOOST_THREAD_RV_REF(T) and BOOST_THREAD_FWD_REF(T) are both `T&&' in C++11:
    include/boost/thread/detail/move.hpp 82-88, 135-140.)
    Here the bodies of these functions are followed from the caller's expression to the object that is stored or returned.  Objects live in a heap; an object holds a
    value or has been moved from.  The rules of the language used are [bind], [score]/[select] and [init]; a call that the compiler rejects is [None].
    Simplifications: one type of argument per call, no conversions; constructors do not throw; locks, queues and threads are left out (they are in the models of
    these classes), the stored closure is represented by the object inside the `work'. *)
From Coq Require Import List Arith Bool.
Import ListNotations.
Set Implicit Arguments.

Inductive category := LV | XV.
(** An expression that denotes an object: which one, whether const, lvalue or not (a temporary is [XV]) *)
Record expr := Expr { obj : nat; cst : bool; cat : category }.
(** A reference parameter or variable: the object, const or not, and whether the deduced template argument is an lvalue reference type *)
Record var := Var { vobj : nat; vcst : bool; vlref : bool }.
(** The name of a variable is an lvalue *)
Definition name (v : var) : expr := Expr (vobj v) (vcst v) LV.
(** boost::move(v) *)
Definition move (v : var) : expr := Expr (vobj v) (vcst v) XV.
(** boost::forward<T>(v), where [t] is the variable whose template argument is T: normally [v] itself *)
Definition forward_as (t v : var) : expr := Expr (vobj v) (vcst v) (if vlref t then LV else XV).
Definition forward (v : var) : expr := forward_as v v.
(** Kinds of parameters: `T&&' with deduced T, `T const&', `X&&' with X not deduced *)
Inductive param := PFwd | PCref | PRv.
(** How well a parameter fits an expression; 0 if not at all.  [over.ics.rank]: an rvalue reference to an rvalue is better than an lvalue reference; a reference to
    less qualified type is better; then a non-template; then the more specialised template, which is `T const&'. *)
Definition score (p : param) (e : expr) : nat :=
  match p, cat e, cst e with
  | PFwd, LV, false => 3 | PCref, LV, false => 2
  | PFwd, LV, true => 2 | PCref, LV, true => 3
  | PRv, XV, false => 4 | PFwd, XV, false => 3 | PCref, XV, false => 2
  | PFwd, XV, true => 3 | PCref, XV, true => 2
  | PRv, _, _ => 0
  end.
Fixpoint select (ps : list param) (e : expr) : option param :=
  match ps with
  | [] => None
  | p :: ps' => match select ps' e with
                | Some q => Some (if score q e <? score p e then p else q)
                | None => if score p e =? 0 then None else Some p
                end
  end.
Definition is_lv (c : category) : bool := match c with LV => true | XV => false end.
Definition bind (p : param) (e : expr) : var :=
  match p with
  | PFwd => Var (obj e) (cst e) (is_lv (cat e))
  | PCref => Var (obj e) true true
  | PRv => Var (obj e) false false
  end.

Section Objects.
Variable V : Type.
(** an object: [Some v] holds v, [None] has been moved from *)
Definition heap := list (option V).
Definition content (h : heap) (x : nat) : option V := nth x h None.
Fixpoint set_nth (h : heap) (x : nat) (c : option V) : heap :=
  match h, x with
  | [], _ => []
  | _ :: h', 0 => c :: h'
  | a :: h', S x' => a :: set_nth h' x' c
  end.
(** a step of the program: [None] if the compiler rejects it *)
Definition m (A : Type) := heap -> option (heap * A).
Definition ret A (a : A) : m A := fun h => Some (h, a).
Definition bindm A B (x : m A) (f : A -> m B) : m B := fun h => match x h with Some (h', a) => f a h' | None => None end.
Definition reject A : m A := fun _ => None.
(** A new object initialised from an expression of its type: moved if the expression is a non-const rvalue, copied otherwise *)
Definition init (e : expr) : m nat := fun h =>
  let c := content h (obj e) in
  match cat e, cst e with
  | XV, false => Some (set_nth h (obj e) None ++ [c], length h)
  | _, _ => Some (h ++ [c], length h)
  end.
(** A new object with value [v] *)
Definition make (v : V) : m nat := fun h => Some (h ++ [Some v], length h).
Definition temp (x : nat) : expr := Expr x false XV.
Definition mem (x : nat) : var := Var x false false.
Local Notation "x <- a ;; b" := (bindm a (fun x => b)) (at level 61, a at next level, right associativity).
(** a call of a function that has one parameter of kind [p] *)
Definition call1 A (p : param) (e : expr) (body : var -> m A) : m A :=
  match select [p] e with Some _ => body (bind p e) | None => @reject A end.
(** overloads `T const&' and `X&&', as in push(value_type const&), push(value_type&&) *)
Definition overload A (ps : list param) (e : expr) (body : param -> var -> m A) : m A :=
  match select ps e with Some p => body p (bind p e) | None => @reject A end.

(** include/boost/thread/detail/move.hpp 353-358 *)
Definition decay_copy (e : expr) : m expr :=
  call1 PFwd e (fun t => x <- init (forward t) ;; ret (temp x)).
(** include/boost/thread/detail/nullary_function.hpp 82-87, and impl_type 47-49: the closure inside the `work' *)
Definition nullary_function (e : expr) : m nat :=
  call1 PFwd e (fun f => t <- decay_copy (forward f) ;; call1 PRv t (fun f_ => init (move f_))).

(** include/boost/thread/future.hpp 1807-1856 (R is not a reference and not void); [st] is the value of the ready future, None if it holds an exception; the value is
    moved out of the shared state, 648-651 *)
Definition get_or (st : option V) (e : expr) : m nat :=
  overload [PFwd; PCref] e (fun p v =>
    match st with
    | Some r => make r
    | None => match p with PCref => init (name v) | _ => init (move v) end
    end).
(** include/boost/thread/future.hpp 4482-4493 (continuation_shared_state: Fp is a parameter of the class, so `Fp&&' takes rvalues only), 4610, 4633, 4699, 4730 ...
    (derived classes, likewise), 4846-4906 (make_future_..._continuation_shared_state), 4990-5060 (then) *)
Definition then_ (e : expr) : m nat :=
  call1 PFwd e (fun func => call1 PFwd (forward func) (fun c => call1 PRv (forward c) (fun c1 => call1 PRv (forward c1) (fun c2 => init (move c2))))).
(** include/boost/thread/future.hpp 5378-5389, mfallbacker_to 5345-5358, cfallbacker_to 5359-5372.  The functor consists of its member value_; it is moved into the
    state of the continuation and called when the future is ready. *)
Definition fallback_to (st : option V) (e : expr) : m nat :=
  overload [PFwd; PCref] e (fun p v =>
    match p with
    | PCref => value_ <- init (name v) ;; k <- then_ (temp value_) ;; get_or st (Expr k true LV)
    | _ => call1 PRv (move v) (fun w => value_ <- init (move w) ;; k <- then_ (temp value_) ;; get_or st (move (mem k)))
    end).
(** include/boost/thread/executors/basic_thread_pool.hpp 318-324; the same in loop_executor.hpp 165-171, serial_executor.hpp 193-198, executor.hpp 102-108,
    executor_adaptor.hpp 115-121, generic_executor_ref.hpp 162-167 *)
Definition pool_submit (e : expr) : m nat := call1 PFwd e (fun closure => nullary_function (forward closure)).
(** include/boost/thread/executors/serial_executor_cont.hpp 161-167; continuation 51-52 moves the work, then() gets an rvalue *)
Definition serial_cont_submit (e : expr) : m nat := call1 PFwd e (fun closure => nullary_function (forward closure)).
(** include/boost/thread/user_scheduler.hpp 160-166 *)
Definition user_scheduler_submit (e : expr) : m nat := call1 PFwd e (fun closure => nullary_function (move closure)).
(** include/boost/thread/detail/thread.hpp 264-270 and 372-377, make_thread_info 202-218, thread_data 73-75, 101-103 *)
Definition thread_ctor (e : expr) : m nat :=
  call1 PFwd e (fun f => t <- decay_copy (forward f) ;; call1 PFwd t (fun f1 => call1 PRv (forward f1) (fun f_ => init (forward f_)))).
(** include/boost/thread/executors/thread_executor.hpp 134-142 *)
Definition thread_executor_submit (e : expr) : m nat := call1 PFwd e (fun closure => thread_ctor (forward closure)).
(** include/boost/thread/executors/scheduler.hpp 200-208 (sch.at(tp).submit), detail/scheduled_executor_base.hpp 48-51: the parameter is a `work' by value *)
Definition scheduler_submit (e : expr) : m nat := call1 PFwd e (fun w => nullary_function (forward w)).
(** include/boost/thread/executors/scheduler.hpp 31-47 (resubmitter), 50-54 (resubmit), 79-87 (sch.at(tp).on(ex).submit): the resubmitter consists of its member
    funct; it is stored as a `work' and, when due, submits funct, which is an lvalue then *)
Definition resubmit (e : expr) : m expr :=
  call1 PFwd e (fun funct => p <- init (move funct) ;; x <- init (move (mem p)) ;; ret (temp x)).
Definition on_submit (e : expr) : m nat :=
  call1 PFwd e (fun w => r <- resubmit (forward w) ;; k <- nullary_function r ;; pool_submit (name (mem k))).
(** include/boost/thread/future.hpp 3565-3583 (packaged_task), 3056-3061 (task_shared_state) *)
Definition packaged_task (e : expr) : m nat :=
  call1 PFwd e (fun f => overload [PCref; PRv] (forward f) (fun p f_ => match p with PCref => init (name f_) | _ => init (move f_) end)).
(** include/boost/thread/future.hpp 2383-2408 (promise::set_value), 590-613 (mark_finished_with_result_internal) *)
Definition mark_finished (e : expr) : m nat :=
  overload [PCref; PRv] e (fun p r => match p with PCref => init (name r) | _ => init (move r) end).
Definition set_value (e : expr) : m nat :=
  overload [PCref; PRv] e (fun p r => match p with PCref => mark_finished (name r) | _ => mark_finished (move r) end).
(** include/boost/thread/future.hpp 4362-4368 *)
Definition make_ready_future (e : expr) : m nat := call1 PFwd e (fun value => set_value (forward value)).
(** include/boost/thread/concurrent_queues/sync_queue.hpp 200-295 (push, try_push, wait_push, nonblocking_push), sync_priority_queue.hpp 170-230 and, for the
    elements, sync_bounded_queue.hpp and sync_deque.hpp likewise *)
Definition queue_push (e : expr) : m nat :=
  overload [PCref; PRv] e (fun p elem => match p with PCref => init (name elem) | _ => init (move elem) end).
(** include/boost/thread/concurrent_queues/sync_timed_queue.hpp 189-214 (push), 41-42 and 51 (scheduled_type, which is pushed as an rvalue) *)
Definition timed_push (e : expr) : m nat :=
  overload [PCref; PRv] e (fun p elem =>
    overload [PCref; PRv] (match p with PCref => name elem | _ => move elem end) (fun q pdata =>
      d <- match q with PCref => init (name pdata) | _ => init (move pdata) end ;; queue_push (temp d))).
(** include/boost/thread/future.hpp 4196-4260 (async: function and arguments), detail/invoker.hpp 60-66 (the invoker's members), future.hpp 991-1000 (moved to the
    new thread) *)
Definition async (e : expr) : m nat :=
  call1 PFwd e (fun f => t <- decay_copy (forward f) ;; call1 PRv t (fun f_ => x <- init (forward f_) ;; init (move (mem x)))).
(** include/boost/thread/pthread/once.hpp 129-155, once_atomic.hpp 125-135: function or argument of call_once with variadic templates; the temporary is used by the
    call *)
Definition once_arg (e : expr) : m nat :=
  call1 PFwd e (fun f => t <- decay_copy (forward f) ;; ret (obj t)).
(** include/boost/thread/pthread/once.hpp 441-466 (and 489-515, once_atomic.hpp likewise): call_once with two arguments without variadic templates; the second one is
    forwarded as if its type were that of the first one.  Returns the two objects the function is called with. *)
Definition once_args (e1 e2 : expr) : m (nat * nat) :=
  call1 PFwd e1 (fun p1 => call1 PFwd e2 (fun p2 => t1 <- decay_copy (forward p1) ;; t2 <- decay_copy (forward_as p1 p2) ;; ret (obj t1, obj t2))).
(** include/boost/thread/experimental/parallel/v2/task_region.hpp 207-220 (run), 85-92 (wrapped): F is the deduced type, so that for an lvalue the member `F f' is a
    reference, which is initialised with move(f): rejected unless const.  async then copies the wrapped object, with the reference in it. *)
Definition task_run (e : expr) : m nat :=
  call1 PFwd e (fun f =>
    if vlref f then (if vcst f then ret (vobj f) else @reject nat)
    else call1 PRv (forward f) (fun f1 => x <- init (move f1) ;; async (temp x))).

(** The functions above by name *)
Inductive call :=
  | GetOr (st : option V) | FallbackTo (st : option V)
  | PoolSubmit | SerialContSubmit | UserSchedulerSubmit | ThreadExecutorSubmit | SchedulerSubmit | SchedulerOnSubmit
  | Thread | PackagedTask | Async | OnceArg | Then | TaskRun
  | SetValue | MakeReadyFuture | QueuePush | TimedPush.
Definition perform (c : call) : expr -> m nat :=
  match c with
  | GetOr st => get_or st | FallbackTo st => fallback_to st
  | PoolSubmit => pool_submit | SerialContSubmit => serial_cont_submit | UserSchedulerSubmit => user_scheduler_submit
  | ThreadExecutorSubmit => thread_executor_submit | SchedulerSubmit => scheduler_submit | SchedulerOnSubmit => on_submit
  | Thread => thread_ctor | PackagedTask => packaged_task | Async => async | OnceArg => once_arg | Then => then_ | TaskRun => task_run
  | SetValue => set_value | MakeReadyFuture => make_ready_future | QueuePush => queue_push | TimedPush => timed_push
  end.
End Objects.
