(** * Specification of join and detach, and of the actions at thread exit *)
From Verif Require Import Monitor JN_Model.
Set Implicit Arguments.

Notation jnconf := (cfg jst jk jop jres jcv unit).

(** The thread function has ended and the exit handlers have run. *)
Definition function_and_handlers_ended (c : jnconf) : Prop := 3 <= ph (sh c).
Definition terminated (c : jnconf) : Prop := ph (sh c) = 6.
(** A join, timed or not, has returned success. *)
Definition some_join_succeeded (c : jnconf) : Prop := exists t op, In (EDone t op RJoined) (hist c).
Definition detach_called (c : jnconf) : Prop := exists t, In (ECall jres t ODetach) (hist c).
Definition detach_returned (c : jnconf) : Prop := exists t, In (EDone t ODetach RVoid) (hist c).
(** How often pthread_join or pthread_detach has been called on the thread. *)
Definition os_joins_and_detaches (c : jnconf) : nat := osn (sh c).
(** How often the actions registered for the end of the thread (notify_all_at_thread_exit, the *_at_thread_exit
    setters of promises and tasks) have been performed; and whether by the ending thread itself. *)
Definition exit_actions_done (c : jnconf) : nat := fired (sh c).
Definition done_by_itself (c : jnconf) : bool := fown (sh c).

Definition idle (c : jnconf) (t : nat) : Prop := exists l, nth_error (thr c) t = Some (Idle jk jop jcv l).
Definition all_idle (c : jnconf) : Prop := forall t, t < length (thr c) -> idle c t.
(** What joinable() returns. *)
Definition joinable (c : jnconf) : bool := obj (sh c).
