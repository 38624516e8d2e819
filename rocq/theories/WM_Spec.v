(** * Who owns a Windows mutex *)
From Verif Require Import Monitor WM_Model.

Notation wmconf := (cfg wm wkk wop bool unit bool).
Notation wrconf := (cfg wr wrk wrop bool unit nat).

(** What the completed calls of a thread told it, or its call to unlock which has not given the lock away yet: it owns the mutex. *)
Definition wm_owns (c : wmconf) (t : nat) : Prop :=
  nth_error (thr c) t = Some (Idle wkk wop unit true) \/ exists l, nth_error (thr c) t = Some (Ready unit l OUnlock (KB OUnlock)).
(** A thread waits inside an operation. *)
Definition wm_blocked (c : wmconf) (t : nat) (op : wop) : Prop := exists l cv k, nth_error (thr c) t = Some (Asleep l op cv k).

(** ... how often it has locked the recursive mutex more than it unlocked it. *)
Definition wr_depth (c : wrconf) (t : nat) (d : nat) : Prop :=
  exists x, nth_error (thr c) t = Some x /\
  match x with Idle _ _ _ l | Ready _ l _ _ | Asleep l _ _ _ | Tail _ _ l _ => l = d | Crashed _ _ _ _ => False end.
Definition wr_blocked (c : wrconf) (t : nat) (op : wrop) : Prop := exists l cv k, nth_error (thr c) t = Some (Asleep l op cv k).
