(** * Specification vocabulary for when_all and when_any

    [f0] gives the futures as they are when the call begins, [c] a later moment. *)
From Verif Require Export WN_Model.
Import ListNotations.

Definition ready (f : fut) : Prop := exists o, f = Ready o.
Definition deferred (f : fut) : Prop := exists o, f = Deferred o.
(** not ready, and completed by another thread: pending, or a deferred function that another thread is executing *)
Definition elsewhere (f : fut) : Prop := f = Pending \/ exists o, f = Busy ByOther o.

(** before the call begins nobody but other threads executes anything *)
Definition fresh (f0 : nat -> fut) : Prop := forall i w o, f0 i = Busy w o -> w = ByOther.

(** how often the deferred function of [i] has begun, whoever executes it *)
Fixpoint execs (i : nat) (h : list ev) : nat :=
  match h with [] => 0 | EExec _ j :: h' => (if j =? i then 1 else 0) + execs i h' end.
(** the deferred functions that the call itself has executed, before it returned *)
Fixpoint by_call (h : list ev) : list nat :=
  match h with [] => [] | EExec ByCall j :: h' => j :: by_call h' | _ :: h' => by_call h' end.
Definition by_other (i : nat) (c : wn) : Prop := In (EExec ByOther i) (hist c).

(** the call has not returned and has not thrown *)
Definition in_call (c : wn) : Prop := cpc c <> CRet /\ cpc c <> CThrow.
(** the number of steps of the call and of its thread *)
Fixpoint own_steps (ls : list label) : nat :=
  match ls with [] => 0 | LCall :: ls' | LFail :: ls' | LWork :: ls' => S (own_steps ls') | _ :: ls' => own_steps ls' end.
(** neither the call nor its thread can take a step *)
Definition idle (kd : kind) (fm : form) (waits : bool) (inp : list nat) (c : wn) : Prop :=
  call_step kd fm waits inp c = None /\ work_step inp c = None.

(** the future at position [j] was neither ready when the call began, nor deferred, unless another thread has executed it since *)
Definition passed_over (f0 : nat -> fut) (c : wn) (i : nat) : Prop :=
  ~ ready (f0 i) /\ (deferred (f0 i) -> by_other i c).

Definition returned (c : wn) : Prop := cpc c = CRet.
Definition threw (c : wn) : Prop := cpc c = CThrow.
(** the thread could not be started, and the call has not thrown yet *)
Definition failing (c : wn) : Prop := cpc c = CDtor.
