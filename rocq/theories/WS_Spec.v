(** * The Windows shared_mutex: specification, in terms of calls and returns *)
From Verif Require Export WS_Model.
Set Implicit Arguments.

(** What a thread holds, from what it has called and what its calls have returned (newest first).  During a conversion it goes on
    holding what the two modes have in common; a release gives up the lock when it is called. *)
Inductive hold := HNone | HShared | HUpgrade | HExclusive.

Definition acquired (o : op) : hold :=
  match o with
  | Lock | TryLock | TimedLock | UnlockUpgradeAndLock => HExclusive
  | LockShared | TryLockShared | TimedLockShared | UnlockAndLockShared | UnlockUpgradeAndLockShared => HShared
  | LockUpgrade | TryLockUpgrade | UnlockAndLockUpgrade => HUpgrade
  | Unlock | UnlockShared | UnlockUpgrade => HNone
  end.
Definition during (o : op) : hold :=
  match o with
  | UnlockUpgradeAndLock | UnlockAndLockUpgrade => HUpgrade
  | UnlockAndLockShared | UnlockUpgradeAndLockShared => HShared
  | _ => HNone
  end.
Definition failed (r : res) : bool := match r with RBool false | RThrow => true | _ => false end.

Fixpoint holds (t : nat) (h : list event) : hold :=
  match h with
  | [] => HNone
  | ECall u o :: h' => if u =? t then during o else holds t h'
  | ERet u o r :: h' => if u =? t then (if failed r then HNone else acquired o) else holds t h'
  end.

(** Which locks may be held at the same time by two threads. *)
Definition compatible (a b : hold) : bool :=
  match a, b with
  | HNone, _ | _, HNone => true
  | HShared, HShared | HShared, HUpgrade | HUpgrade, HShared => true
  | _, _ => false
  end.

(** The call thread t is in, if any. *)
Fixpoint calling (t : nat) (h : list event) : option op :=
  match h with
  | [] => None
  | ECall u o :: h' => if u =? t then Some o else calling t h'
  | ERet u _ _ :: h' => if u =? t then None else calling t h'
  end.

(** Thread t is blocked: it is in a call and cannot take a step (other than a time-out).  Everything has come to rest: so is every thread that is in a call. *)
Definition blocked (s : sys) (t : nat) : Prop := calling t (hist s) <> None /\ exec s (LRun t) = None.
Definition at_rest (s : sys) : Prop := forall t, exec s (LRun t) = None.

(** o was never called *)
Definition never (o : op) (h : list event) : Prop := forall t, ~ In (ECall t o) h.

(** s' is reached from s without leaving the call thread t is in *)
Inductive within (t : nat) : sys -> sys -> Prop :=
| w_here s : within t s s
| w_step s s1 l s' : within t s s1 -> exec s1 l = Some s' -> (forall o, l <> LCall t o) -> within t s s'.

(** How many of the threads are inside a call of one of these functions. *)
Fixpoint how_many (n : nat) (f : nat -> bool) : nat := match n with 0 => 0 | S k => (if f k then 1 else 0) + how_many k f end.
Definition locking (h : list event) (t : nat) : bool := match calling t h with Some Lock | Some TimedLock => true | _ => false end.
(** Thread t holds the mutex, or is in a call (to acquire, convert or release). *)
Definition is_hnone (a : hold) : bool := match a with HNone => true | _ => false end.
Definition busy (h : list event) (t : nat) : bool := match calling t h with Some _ => true | None => negb (is_hnone (holds t h)) end.
