(** * Who owns a thread_v2 mutex *)

From Verif Require Import Monitor V2_Model.

Notation vconf := (cfg v2s vk sop vres vcv mode).

(** What the completed calls of a thread gave it. *)
Definition v_owns (c : vconf) (t : nat) (m : mode) : Prop :=
  exists x, nth_error (thr c) t = Some x /\
  match x with
  | Idle _ _ _ l | Ready _ l _ _ | Asleep l _ _ _ | Tail _ _ l _ => l = m
  | Crashed _ _ _ _ => False
  end.
(** Inside a call of [op], which started but has not returned. *)
Definition v_inside (c : vconf) (t : nat) (op : sop) : Prop :=
  exists l, (exists k, nth_error (thr c) t = Some (Ready vcv l op k)) \/
            (exists cv k, nth_error (thr c) t = Some (Asleep l op cv k)).
Definition v_blocked (c : vconf) (t : nat) (op : sop) : Prop :=
  exists l cv k, nth_error (thr c) t = Some (Asleep l op cv k).

(** Calls that may wait for exclusive ownership. *)
Definition wants_x (op : sop) : bool := match op with SLock | STimedLock | SUpToX | STimedUpToX | STimedShToX => true | _ => false end.

Definition v_nobody (c : vconf) : Prop := forall t m, v_owns c t m -> m = MNone.

(** Programs without timed attempts at exclusive ownership. *)
Definition untimed_x (op : sop) : bool := match op with STimedLock | STimedShToX | STimedUpToX => false | _ => true end.
(** The programs of thread_v2::shared_mutex. *)
Definition v_shared_mutex_op (op : sop) : bool :=
  match op with SLock | STryLock | STimedLock | SUnlock | SLockSh | STryLockSh | STimedLockSh | SUnlockSh => true | _ => false end.
