(** * Who owns a timed_mutex or a recursive mutex *)

From Verif Require Import Monitor MX_Model.

Notation tmconf := (cfg bool tk top bool unit bool).
Notation rmconf := (cfg rms rk rop bool unit nat).

(** What the completed calls of a thread told it: it owns the mutex. *)
Definition tm_owns (c : tmconf) (t : nat) : Prop :=
  exists x, nth_error (thr c) t = Some x /\
  match x with Idle _ _ _ l | Ready _ l _ _ | Asleep l _ _ _ | Tail _ _ l _ => l = true | Crashed _ _ _ _ => False end.
Definition tm_blocked (c : tmconf) (t : nat) (op : top) : Prop := exists l cv k, nth_error (thr c) t = Some (Asleep l op cv k).

(** ... how often it has locked the mutex more than it unlocked it. *)
Definition rm_depth (c : rmconf) (t : nat) (d : nat) : Prop :=
  exists x, nth_error (thr c) t = Some x /\
  match x with Idle _ _ _ l | Ready _ l _ _ | Asleep l _ _ _ | Tail _ _ l _ => l = d | Crashed _ _ _ _ => False end.
Definition rm_blocked (c : rmconf) (t : nat) (op : rop) : Prop := exists l cv k, nth_error (thr c) t = Some (Asleep l op cv k).

(** timed_lock(relative) is called with ordinary durations or pos_infin only. *)
Definition ordinary (d : dur) : bool := match d with DFinite | DPosInf => true | _ => false end.
Definition t_ordinary (op : top) : bool := match op with TRel d => ordinary d | _ => true end.
Definition r_ordinary (op : rop) : bool := match op with RRel d => ordinary d | _ => true end.
