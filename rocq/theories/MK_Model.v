(** * Model of the functions that make ready futures

    Source: include/boost/thread/future.hpp: make_future 4306-4320, make_ready_future 4361-4411, make_ready_no_decay_future 4397-4403, make_exceptional_future 4415-4439,
    make_shared_future 4455-4469.

    Each of them makes a promise, gives it its outcome (or does not), takes its future and destroys the promise; only then has another thread access
    to the shared state.  They are sequences of the operations of FU_Model.v.
    Simplifications: values are numbers, the value of a future<void> is 0; which constructor makes the value from the arguments is not modelled; the exception that
    make_exceptional_future<T>() finds with current_exception() is an argument. *)
From Verif Require Import Monitor FU_Model.
Set Implicit Arguments.

Inductive maker :=
| MMakeFuture (v : nat) | MMakeFutureVoid
| MMakeReady (v : nat) | MMakeReadyNoDecay (v : nat) | MMakeReadyVoid | MMakeReadyExc (n : nat)
| MMakeExceptional (n : nat)
| MMakeShared (v : nat) | MMakeSharedVoid.

(** the calls each makes on its promise; the last is the destructor *)
Definition body (m : maker) : list fop :=
  match m with
  | MMakeFuture v => [OSet (Val v); ODestroy]                      (* 4306-4312 *)
  | MMakeFutureVoid => [OSet (Val 0); ODestroy]                    (* 4315-4319 *)
  | MMakeReady v => [OSet (Val v); ODestroy]                       (* 4361-4395 *)
  | MMakeReadyNoDecay v => [OSet (Val v); ODestroy]                (* 4397-4403 *)
  | MMakeReadyVoid => [OSet (Val 0); ODestroy]                     (* 4406-4410 *)
  | MMakeReadyExc n => [OSet (Exc (EUser n)); ODestroy]            (* 4436-4439 *)
  | MMakeExceptional n => [OSet (Exc (EUser n)); ODestroy]         (* 4414-4434 *)
  | MMakeShared v => [OSet (Val v); ODestroy]                      (* 4458-4464 *)
  | MMakeSharedVoid => [ODestroy]                                  (* 4466-4469 *)
  end.

(** the operations of one thread, each run to its end *)
Fixpoint exec_ops (ops : list fop) (s : fst_) : option fst_ :=
  match ops with
  | [] => Some s
  | op :: ops' => match ffrag false 0 (Val 0) (KStart op) s with (s', _, ORet _ _ _) => exec_ops ops' s' | _ => None end
  end.
Definition made (m : maker) : option fst_ := exec_ops (body m) (finit KPromise).

(** what the threads do with the future: the promise is gone *)
Definition reader (op : fop) : bool :=
  match op with OWait | OGetSh | OGet | OGetOr _ | OGetOrSh _ | OWaitUntil | OExcPtr | OReady | OHasValue | OHasExc => true | _ => false end.
