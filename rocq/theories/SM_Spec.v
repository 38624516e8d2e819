(** * Who owns a shared_mutex *)

From Verif Require Import Monitor SM_Model.

Notation smconf := (cfg smx sk sop bool scv mode).

(** The ownership a thread has: what its completed calls gave it; a thread inside a conversion still owns what it
    converts from, except that unlock_upgrade_and_lock gives up the shared part at once (it is then a waiting
    upgrader, which excludes other upgraders and writers, not readers). *)
Definition owns (c : smconf) (t : nat) (m : mode) : Prop :=
  exists x, nth_error (thr c) t = Some x /\
  match x with
  | Idle _ _ _ l | Ready _ l _ _ | Asleep l _ _ _ | Tail _ _ l _ => l = m
  | Crashed _ _ _ _ => False
  end.

Definition s_blocked (c : smconf) (t : nat) (op : sop) : Prop :=
  exists l cv k, nth_error (thr c) t = Some (Asleep l op cv k).

Definition s_inside (c : smconf) (t : nat) (op : sop) : Prop :=
  exists l, (exists k, nth_error (thr c) t = Some (Ready scv l op k)) \/
            (exists cv k, nth_error (thr c) t = Some (Asleep l op cv k)).

(** All operations except try_unlock_shared_and_lock_for/until. *)
Definition no_timed_sh_to_x (op : sop) : bool := match op with STimedShToX => false | _ => true end.
Definition all_ops (op : sop) : bool := true.

(** The program does not combine upgrade ownership with try_unlock_shared_and_lock_for/until. *)
Definition sm_compatible (allow : sop -> bool) : Prop :=
  allow STimedShToX = false \/ forall op, s_to op = MUp -> allow op = false.

(** [t] is blocked although what it waits for is there for the taking. lock() needs that nobody owns the mutex;
    lock_shared() that nobody owns it exclusively and no writer is waiting; lock_upgrade() also that nobody has
    upgrade ownership; unlock_upgrade_and_lock() that no other thread has shared ownership. *)
Definition writer_waiting (c : smconf) : Prop := exists w, s_blocked c w SLock \/ s_blocked c w STimedLock.
Definition nobody (c : smconf) (m : mode) : Prop := forall t, ~ owns c t m.

Definition s_available (c : smconf) (op : sop) : Prop :=
  match op with
  | SLock | STimedLock => nobody c MX /\ nobody c MUp /\ nobody c MSh
  | SLockSh | STimedLockSh => nobody c MX /\ ~ writer_waiting c
  | SLockUp | STimedLockUp => nobody c MX /\ nobody c MUp /\ ~ writer_waiting c
  | SUpToX => nobody c MSh
  | STimedUpToX => nobody c MSh
  | STimedShToUp => nobody c MX /\ nobody c MUp /\ ~ writer_waiting c
  | _ => True
  end.

(** The waits other than the timed conversions. *)
Definition lock_wait (op : sop) : bool :=
  match op with
  | SLock | STimedLock | SLockSh | STimedLockSh | SLockUp | STimedLockUp | SUpToX => true
  | _ => false
  end.

(** Operations on shared ownership only. *)
Definition shared_op (op : sop) : bool :=
  match op with SLockSh | STryLockSh | STimedLockSh | SUnlockSh => true | _ => false end.
Definition acquires_shared (op : sop) : bool :=
  match op with SLockSh | STryLockSh | STimedLockSh => true | _ => false end.

(** A step that is not taken by [r] and, if it is a new call, calls an operation on shared ownership. *)
Definition readers_only (r : nat) (lb : label sop unit) : Prop :=
  match lb with
  | LCall _ t op => t <> r /\ shared_op op = true
  | LRun _ t _ _ | LSpurious _ _ t | LTimeout _ _ t | LIntr _ _ t => t <> r
  end.
