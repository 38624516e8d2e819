(** * Specification vocabulary for async *)
From Verif Require Export AS_Model.
Import ListNotations.

(** how often the function has begun, how often the state has been destroyed *)
Fixpoint starts (h : list ev) : nat := match h with [] => 0 | EStart :: h' => S (starts h') | _ :: h' => starts h' end.
Fixpoint frees (h : list ev) : nat := match h with [] => 0 | EFree :: h' => S (frees h') | _ :: h' => frees h' end.
Definition ended (h : list ev) : Prop := exists r, In (EEnd r) h.

(** how many futures refer to the state *)
Definition handles (c : as_) : nat := list_sum (map own (cls c)).
(** the client is in a call *)
Definition busy (p : cpc) : bool := match p with Idle => false | _ => true end.
Definition at_rest (c : as_) : Prop := Forall (fun x => pc x = Idle) (cls c).

(** the started thread cannot take a step *)
Definition worker_idle (waits : bool) (c : as_) : Prop := forall r, step waits (LWork r) c = None.
(** client [i] is in the middle of async, whose thread could not be started *)
Definition failing (c : as_) (i : nat) : Prop := exists o, nth_error (cls c) i = Some (MkC o (Destroying true)).
Definition waiting (c : as_) (i : nat) : Prop := exists o, nth_error (cls c) i = Some (MkC o Waiting).
