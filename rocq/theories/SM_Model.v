(** * Model of boost::shared_mutex (= boost::upgrade_mutex), pthread version

    Source: include/boost/thread/pthread/shared_mutex.hpp:29-639.
    Simplifications: shared_count is an unbounded natural (the code: unsigned); the timed_*, *_for and *_until forms
    of one operation are one operation, whose deadline may pass whenever its thread sleeps (or immediately:
    a thread that has gone to sleep can be timed out at once); a failing BOOST_ASSERT is undefined behaviour;
    interruption is disabled inside (do_not_disturb) and hence absent. *)

From Verif Require Import Monitor.
Set Implicit Arguments.

(** shared_mutex.hpp:32-139 *)
Record smx := MkSM { s_count : nat; s_excl : bool; s_up : bool; s_ewb : bool }.
Definition sm_new : smx := MkSM 0 false false false.

(** shared_mutex.hpp:146-148: exclusive_cond, shared_cond, upgrade_cond *)
Inductive scv := XC | SC | UC.
Definition scv_eqb (a b : scv) : bool := match a, b with XC, XC | SC, SC | UC, UC => true | _, _ => false end.

Inductive sop :=
| SLock | STryLock | STimedLock | SUnlock
| SLockSh | STryLockSh | STimedLockSh | SUnlockSh
| SLockUp | STryLockUp | STimedLockUp | SUnlockUp
| SUpToX      (* unlock_upgrade_and_lock *)
| STryUpToX   (* try_unlock_upgrade_and_lock *)
| STimedUpToX (* try_unlock_upgrade_and_lock_for/until *)
| SXToUp      (* unlock_and_lock_upgrade *)
| SXToSh      (* unlock_and_lock_shared *)
| SUpToSh     (* unlock_upgrade_and_lock_shared *)
| STryShToX   (* try_unlock_shared_and_lock *)
| STimedShToX (* try_unlock_shared_and_lock_for/until *)
| STryShToUp  (* try_unlock_shared_and_lock_upgrade *)
| STimedShToUp. (* try_unlock_shared_and_lock_upgrade_for/until *)

(** What the calling thread owns. *)
Inductive mode := MNone | MSh | MUp | MX.
Definition mode_eqb (a b : mode) : bool :=
  match a, b with MNone, MNone | MSh, MSh | MUp, MUp | MX, MX => true | _, _ => false end.

(** The ownership an operation requires and the one it gives when it succeeds. *)
Definition s_from (op : sop) : mode :=
  match op with
  | SLock | STryLock | STimedLock | SLockSh | STryLockSh | STimedLockSh | SLockUp | STryLockUp | STimedLockUp => MNone
  | SUnlock | SXToUp | SXToSh => MX
  | SUnlockSh | STryShToX | STimedShToX | STryShToUp | STimedShToUp => MSh
  | SUnlockUp | SUpToX | STryUpToX | STimedUpToX | SUpToSh => MUp
  end.
Definition s_to (op : sop) : mode :=
  match op with
  | SLock | STryLock | STimedLock | SUpToX | STryUpToX | STimedUpToX | STryShToX | STimedShToX => MX
  | SLockSh | STryLockSh | STimedLockSh | SXToSh | SUpToSh => MSh
  | SLockUp | STryLockUp | STimedLockUp | SXToUp | STryShToUp | STimedShToUp => MUp
  | SUnlock | SUnlockSh | SUnlockUp => MNone
  end.

Inductive sk := KBegin (op : sop) | KWait (op : sop) | KDead (op : sop).

(** shared_mutex.hpp:77-128 *)
Definition can_lock (s : smx) : bool := negb (negb (s_count s =? 0) || s_excl s).
Definition can_lock_shared (s : smx) : bool := negb (s_excl s || s_ewb s).
Definition can_lock_upgrade (s : smx) : bool := negb (s_excl s || s_ewb s || s_up s).
Definition no_shared (s : smx) : bool := s_count s =? 0.
Definition one_shared (s : smx) : bool := s_count s =? 1.

Definition set_count n s := MkSM n (s_excl s) (s_up s) (s_ewb s).
Definition set_excl b s := MkSM (s_count s) b (s_up s) (s_ewb s).
Definition set_up b s := MkSM (s_count s) (s_excl s) b (s_ewb s).
Definition set_ewb b s := MkSM (s_count s) (s_excl s) (s_up s) b.

(** shared_mutex.hpp:42-70 *)
Definition locked_ok (s : smx) : bool := s_excl s && (s_count s =? 0) && negb (s_up s).
Definition shared_ok (s : smx) : bool := negb (s_excl s) && (0 <? s_count s).
Definition upgraded_ok (s : smx) : bool := negb (s_excl s) && s_up s && (0 <? s_count s).

Notation sout := (smx * list (notif scv) * outcome sk scv bool)%type.
Notation sret b := (ORet sk scv b).
Notation subd := (OUB sk scv bool).

(** shared_mutex.hpp:150-154 *)
Definition release_waiters : list (notif scv) := [NOne XC; NAll SC].

(** The wait loop of an operation: predicate, condition variable, and the state when it gets through
    (lock 273-274, lock_shared 174-175, lock_upgrade 365-367, unlock_upgrade_and_lock 460-463,
    try_unlock_upgrade_and_lock_until 514-522, try_unlock_shared_and_lock_until 572-580,
    try_unlock_shared_and_lock_upgrade_until 626-631). *)
Definition s_pred (op : sop) (s : smx) : bool :=
  match op with
  | SLock | STimedLock => can_lock s
  | SLockSh | STimedLockSh => can_lock_shared s
  | SLockUp | STimedLockUp | STimedShToUp => can_lock_upgrade s
  | SUpToX => no_shared s
  | STimedUpToX | STimedShToX => one_shared s
  | _ => true
  end.
Definition s_cv (op : sop) : scv :=
  match op with
  | SLock | STimedLock | STimedShToUp => XC
  | SUpToX => UC
  | _ => SC
  end.
Definition s_take (op : sop) (s : smx) : smx :=
  match op with
  | SLock | STimedLock => set_excl true s
  | SLockSh | STimedLockSh => set_count (S (s_count s)) s
  | SLockUp | STimedLockUp => set_up true (set_count (S (s_count s)) s)
  | STimedShToUp => set_up true s
  | SUpToX => set_excl true (set_up false s)
  | STimedUpToX | STimedShToX => MkSM 0 true false false
  | _ => s
  end.
Definition s_loop (op : sop) (s : smx) : sout :=
  if s_pred op s then
    let s' := s_take op s in
    match op with
    (* assert_locked, 463 *)
    | SUpToX => if locked_ok s' then (s', [], sret true) else (s', [], subd)
    | _ => (s', [], sret true)
    end
  else (s, [], OSleep bool (s_cv op) (KWait op)).

Definition sfrag (_ : nat) (_ : unit) (k : sk) (s : smx) : sout :=
  match k with
  | KBegin op =>
      match op with
      (* lock 266-275; timed_lock 278-311; try_lock_until 320-335 *)
      | SLock | STimedLock => s_loop op (set_ewb true s)
      (* lock_shared 168-176; timed_lock_shared 191-217; try_lock_shared_until 227-239 *)
      | SLockSh | STimedLockSh => s_loop op s
      (* try_lock_shared 178-188 *)
      | STryLockSh => if can_lock_shared s then (set_count (S (s_count s)) s, [], sret true) else (s, [], sret false)
      (* unlock_shared 241-264 *)
      | SUnlockSh =>
          if shared_ok s then
            let s1 := set_count (s_count s - 1) s in
            if no_shared s1 then
              if s_up s1 then (set_excl true (set_up false s1), NOne UC :: release_waiters, sret true)
              else (set_ewb false s1, release_waiters, sret true)
            else (s1, [], sret true)
          else (s, [], subd)
      (* try_lock 338-347 *)
      | STryLock => if can_lock s then (set_excl true s, [], sret true) else (s, [], sret false)
      (* unlock 349-357 *)
      | SUnlock =>
          if locked_ok s then
            let s1 := set_ewb false (set_excl false s) in
            if negb (s_excl s1) && negb (s_up s1) && (s_count s1 =? 0) then (s1, release_waiters, sret true)
            else (s1, [], subd)
          else (s, [], subd)
      (* lock_upgrade 359-368; timed_lock_upgrade 371-400; try_lock_upgrade_until 409-421 *)
      | SLockUp | STimedLockUp => s_loop op s
      (* try_lock_upgrade 424-435 *)
      | STryLockUp =>
          if can_lock_upgrade s then
            let s1 := set_up true (set_count (S (s_count s)) s) in
            if upgraded_ok s1 then (s1, [], sret true) else (s1, [], subd)
          else (s, [], sret false)
      (* unlock_upgrade 437-449; --shared_count on 0 would wrap: undefined here *)
      | SUnlockUp =>
          match s_count s with
          | 0 => (s, [], subd)
          | S n =>
              let s1 := set_up false (set_count n s) in
              if no_shared s1 then (set_ewb false s1, release_waiters, sret true)
              else (s1, [NAll SC], sret true)
          end
      (* unlock_upgrade_and_lock 452-464 *)
      | SUpToX => if upgraded_ok s then s_loop op (set_count (s_count s - 1) s) else (s, [], subd)
      (* unlock_and_lock_upgrade 466-476 *)
      | SXToUp =>
          if locked_ok s then
            let s1 := set_ewb false (set_count (S (s_count s)) (set_up true (set_excl false s))) in
            if upgraded_ok s1 then (s1, release_waiters, sret true) else (s1, [], subd)
          else (s, [], subd)
      (* try_unlock_upgrade_and_lock 478-494 *)
      | STryUpToX =>
          if upgraded_ok s then
            if negb (s_excl s) && negb (s_ewb s) && s_up s && (s_count s =? 1) then
              (set_up false (set_excl true (set_count 0 s)), [], sret true)
            else (s, [], sret false)
          else (s, [], subd)
      (* try_unlock_upgrade_and_lock_for/until 497-523 *)
      | STimedUpToX => if upgraded_ok s then s_loop op s else (s, [], subd)
      (* unlock_and_lock_shared 527-535 *)
      | SXToSh =>
          if locked_ok s then
            (set_ewb false (set_count (S (s_count s)) (set_excl false s)), release_waiters, sret true)
          else (s, [], subd)
      (* try_unlock_shared_and_lock 538-552 *)
      | STryShToX =>
          if shared_ok s then
            if negb (s_excl s) && negb (s_ewb s) && negb (s_up s) && (s_count s =? 1) then
              (set_excl true (set_count 0 s), [], sret true)
            else (s, [], sret false)
          else (s, [], subd)
      (* try_unlock_shared_and_lock_for/until 554-582 *)
      | STimedShToX => if shared_ok s then s_loop op s else (s, [], subd)
      (* unlock_upgrade_and_lock_shared 586-593 *)
      | SUpToSh => if upgraded_ok s then (set_ewb false (set_up false s), release_waiters, sret true) else (s, [], subd)
      (* try_unlock_shared_and_lock_upgrade 596-606 *)
      | STryShToUp =>
          if shared_ok s then
            if can_lock_upgrade s then (set_up true s, [], sret true) else (s, [], sret false)
          else (s, [], subd)
      (* try_unlock_shared_and_lock_upgrade_for/until 608-632 *)
      | STimedShToUp => if shared_ok s then s_loop op s else (s, [], subd)
      end
  | KWait op => s_loop op s
  (* the predicate is tested once more after the time-out *)
  | KDead op =>
      if s_pred op s then s_loop op s
      else
        match op with
        (* 285-290, 303-308, 327-332 *)
        | STimedLock => (set_ewb false s, release_waiters, sret false)
        | _ => (s, [], sret false)
        end
  end.

Definition s_timed (op : sop) : bool :=
  match op with STimedLock | STimedLockSh | STimedLockUp | STimedUpToX | STimedShToX | STimedShToUp => true | _ => false end.

Definition s_timeout (k : sk) : option sk :=
  match k with KWait op => if s_timed op then Some (KDead op) else None | _ => None end.

(** [allow]: the operations the program uses; the caller must own what [s_from] says. *)
Definition smprog (allow : sop -> bool) : prog smx sk sop bool scv mode unit :=
  MkProg scv_eqb KBegin sfrag s_timeout (fun _ => None)
    (fun l op => allow op && mode_eqb l (s_from op))
    (fun l op r => if r then s_to op else l).
