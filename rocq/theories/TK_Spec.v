(** * Specification: who holds a mutex, from what has been observed (newest first) *)
From Verif Require Import TK_Model.
Set Implicit Arguments.

(** [t] has been told that it owns the mutex and has not called unlock since *)
Fixpoint holds (t : nat) (h : list event) : bool :=
  match h with
  | [] => false
  | ELocked u :: h' => if u =? t then true else holds t h'
  | EUnlock u :: h' => if u =? t then false else holds t h'
  | _ :: h' => holds t h'
  end.
(** [t] is inside a call of unlock *)
Fixpoint unlocking (t : nat) (h : list event) : bool :=
  match h with
  | [] => false
  | EUnlock u :: h' => if u =? t then true else unlocking t h'
  | EUnlocked u :: h' => if u =? t then false else unlocking t h'
  | _ :: h' => unlocking t h'
  end.
(** [t] is inside a call of a lock function *)
Fixpoint locking (t : nat) (h : list event) : bool :=
  match h with
  | [] => false
  | ECall u :: h' => if u =? t then true else locking t h'
  | ELocked u :: h' => if u =? t then false else locking t h'
  | EFailed u :: h' => if u =? t then false else locking t h'
  | _ :: h' => locking t h'
  end.
