(** * Model of the Windows shared_mutex

    Modelled: include/boost/thread/win32/shared_mutex.hpp, the whole class (29-849): a word of bit fields changed by
    compare-and-exchange only, and three semaphores.  Any number of threads; reading the word, each compare-and-exchange,
    each ReleaseSemaphore and each wait are steps of their own.
    Simplifications: each thread owns at most one lock on the mutex at a time; a timed wait may time out at any moment (the
    clock is not modelled, so the polling loops 242-260 and 502-525 are one wait); the semaphores never reach their limit LONG_MAX;
    WaitForMultipleObjectsEx waits for both semaphores (wait_all, i.e. not Windows CE). *)

From Coq Require Export List Arith Lia Bool.
Export ListNotations.
Set Implicit Arguments.

(** state_data, 32-45 *)
Record word := Word { sc : nat; sw : nat; ex : bool; up : bool; ew : nat; ewb : bool }.

(** the largest values of bit fields of 11 and of 7 bits *)
Definition shared_max : nat := 2047.
Definition exclusive_max : nat := 127.
(** ++ and -- on a bit field *)
Definition inc (m n : nat) : nat := if n =? m then 0 else S n.
Definition dec (m n : nat) : nat := if n =? 0 then m else n - 1.
Definition pos (n : nat) : bool := negb (n =? 0).

(** operator==, 41-44 *)
Definition word_eqb (a b : word) : bool :=
  (sc a =? sc b) && (sw a =? sw b) && Bool.eqb (ex a) (ex b) && Bool.eqb (up a) (up b) && (ew a =? ew b) && Bool.eqb (ewb a) (ewb b).

Inductive op :=
| Lock | TryLock | TimedLock               (* lock; try_lock; timed_lock, try_lock_for, try_lock_until *)
| Unlock
| LockShared | TryLockShared | TimedLockShared
| UnlockShared
| LockUpgrade | TryLockUpgrade | UnlockUpgrade
| UnlockUpgradeAndLock | UnlockAndLockUpgrade | UnlockAndLockShared | UnlockUpgradeAndLockShared.

Inductive res := RDone | RBool (b : bool) | RThrow.       (* RThrow: lock_error *)

(** unlock_sem, exclusive_sem, upgrade_sem, 61-69 *)
Inductive sem := SU | SE | SP.

(** What follows a successful compare-and-exchange. *)
Inductive after :=
| AReturn (r : res)
| AWait                                    (* wait for the semaphore(s), then start again *)
| ARelease (l : list (sem * nat))          (* ReleaseSemaphore calls, then return *)
| AUpWait.                                 (* wait for upgrade_sem, then return *)
(** One turn of the inner loop, given old_state: leave without exchanging, or try to exchange. *)
Inductive body := BReturn (r : res) | BCas (new : word) (a : after).

(** release_waiters, 71-82 *)
Definition release_waiters (old : word) : list (sem * nat) :=
  (if pos (ew old) then [(SE, 1)] else []) ++
  (if pos (sw old) || pos (ew old) then [(SU, sw old + (if pos (ew old) then 1 else 0))] else []).
(** release_shared_waiters, 83-89 *)
Definition release_shared_waiters (old : word) : list (sem * nat) :=
  if pos (sw old) || pos (ew old) then [(SU, sw old + (if pos (ew old) then 1 else 0))] else [].

(** if(new_state.exclusive_waiting) { --new_state.exclusive_waiting; new_state.exclusive_waiting_blocked=false; } *)
Definition unblock (w : word) : word :=
  if pos (ew w) then Word (sc w) (sw w) (ex w) (up w) (dec exclusive_max (ew w)) false else w.
(** new_state.shared_waiting=0 *)
Definition no_shared_waiting (w : word) : word := Word (sc w) 0 (ex w) (up w) (ew w) (ewb w).

Definition body_of (o : op) (old : word) : body :=
  match o with
  (* 120-143 *)
  | TryLockShared =>
      if negb (ex old) && negb (ewb old) then
        if inc shared_max (sc old) =? 0 then BReturn (RBool false)
        else BCas (Word (inc shared_max (sc old)) (sw old) (ex old) (up old) (ew old) (ewb old)) (AReturn (RBool true))
      else BCas old (AReturn (RBool false))
  (* 145-185 and 202-236 *)
  | LockShared | TimedLockShared =>
      if ex old || ewb old then
        if inc shared_max (sw old) =? 0 then BReturn RThrow
        else BCas (Word (sc old) (inc shared_max (sw old)) (ex old) (up old) (ew old) (ewb old)) AWait
      else
        if inc shared_max (sc old) =? 0 then BReturn RThrow
        else BCas (Word (inc shared_max (sc old)) (sw old) (ex old) (up old) (ew old) (ewb old))
                  (AReturn (match o with LockShared => RDone | _ => RBool true end))
  (* 343-387 *)
  | UnlockShared =>
      let w := Word (dec shared_max (sc old)) (sw old) (ex old) (up old) (ew old) (ewb old) in
      if sc w =? 0 then
        if up w then BCas (Word (sc w) (sw w) true false (ew w) (ewb w)) (ARelease [(SP, 1)])
        else BCas (no_shared_waiting (unblock w)) (ARelease (release_waiters old))
      else BCas w (ARelease [])
  (* 389-412 *)
  | TryLock =>
      if pos (sc old) || ex old then BReturn (RBool false)
      else BCas (Word (sc old) (sw old) true (up old) (ew old) (ewb old)) (AReturn (RBool true))
  (* 414-457 and 463-495 *)
  | Lock | TimedLock =>
      if pos (sc old) || ex old then
        if inc exclusive_max (ew old) =? 0 then BReturn RThrow
        else BCas (Word (sc old) (sw old) (ex old) (up old) (inc exclusive_max (ew old)) true) AWait
      else BCas (Word (sc old) (sw old) true (up old) (ew old) (ewb old)) (AReturn (match o with Lock => RDone | _ => RBool true end))
  (* 612-634 *)
  | Unlock => BCas (no_shared_waiting (unblock (Word (sc old) (sw old) false (up old) (ew old) (ewb old)))) (ARelease (release_waiters old))
  (* 636-677 *)
  | LockUpgrade =>
      if ex old || ewb old || up old then
        if inc shared_max (sw old) =? 0 then BReturn RThrow
        else BCas (Word (sc old) (inc shared_max (sw old)) (ex old) (up old) (ew old) (ewb old)) AWait
      else
        if inc shared_max (sc old) =? 0 then BReturn RThrow
        else BCas (Word (inc shared_max (sc old)) (sw old) (ex old) true (ew old) (ewb old)) (AReturn RDone)
  (* 679-707 *)
  | TryLockUpgrade =>
      if ex old || ewb old || up old then BReturn (RBool false)
      else if inc shared_max (sc old) =? 0 then BReturn (RBool false)
      else BCas (Word (inc shared_max (sc old)) (sw old) (ex old) true (ew old) (ewb old)) (AReturn (RBool true))
  (* 709-746 *)
  | UnlockUpgrade =>
      let w := Word (dec shared_max (sc old)) 0 (ex old) false (ew old) (ewb old) in
      if sc w =? 0 then BCas (unblock w) (ARelease (release_waiters old))
      else BCas w (ARelease (release_shared_waiters old))
  (* 748-773 *)
  | UnlockUpgradeAndLock =>
      let w := Word (dec shared_max (sc old)) (sw old) (ex old) (up old) (ew old) (ewb old) in
      if sc w =? 0 then BCas (Word (sc w) (sw w) true false (ew w) (ewb w)) (AReturn RDone)
      else BCas w AUpWait
  (* 775-799 *)
  | UnlockAndLockUpgrade =>
      BCas (no_shared_waiting (unblock (Word (inc shared_max (sc old)) (sw old) false true (ew old) (ewb old)))) (ARelease (release_waiters old))
  (* 801-824 *)
  | UnlockAndLockShared =>
      BCas (no_shared_waiting (unblock (Word (inc shared_max (sc old)) (sw old) false (up old) (ew old) (ewb old)))) (ARelease (release_waiters old))
  (* 825-847 *)
  | UnlockUpgradeAndLockShared =>
      BCas (no_shared_waiting (unblock (Word (sc old) (sw old) (ex old) false (ew old) (ewb old)))) (ARelease (release_waiters old))
  end.

(** One turn of the loop that follows a time-out, given old_state: leave, or try to exchange; then whether unlock_sem
    is released (must_notify: whether or not the exchange succeeds), and what the function returns if the exchange succeeds. *)
Inductive giveup := GReturn (r : res) | GCas (new : word) (must_notify : bool) (r : bool).
Definition give_body (o : op) (old : word) : giveup :=
  match o with
  (* 527-566 *)
  | TimedLock =>
      if pos (sc old) || ex old then
        if pos (ew old) then
          let n := dec exclusive_max (ew old) in
          if n =? 0 then GCas (Word (sc old) (sw old) (ex old) (up old) n false) true false
          else GCas (Word (sc old) (sw old) (ex old) (up old) n (ewb old)) false false
        else GCas old false false
      else GCas (Word (sc old) (sw old) true (up old) (ew old) (ewb old)) false true
  (* 262-296 *)
  | _ =>
      if ex old || ewb old then
        if pos (sw old) then GCas (Word (sc old) (dec shared_max (sw old)) (ex old) (up old) (ew old) (ewb old)) false false
        else GCas old false false
      else
        if inc shared_max (sc old) =? 0 then GReturn (RBool false)
        else GCas (Word (inc shared_max (sc old)) (sw old) (ex old) (up old) (ew old) (ewb old)) false true
  end.

(** Where a thread is. *)
Inductive cont := KRet (r : res) | KGive (old : word).
Inductive pc :=
| PIdle
| PRead (o : op)                           (* old_state=state *)
| PCas (o : op) (old : word)               (* a turn of the inner loop *)
| PSleep (o : op) (old : word)             (* in WaitForSingleObjectEx or WaitForMultipleObjectsEx, or about to call it *)
| PGive (o : op) (old : word)              (* timed out: a turn of the loop that follows *)
| PRel (o : op) (l : list (sem * nat)) (k : cont)   (* the ReleaseSemaphore calls still to make *)
| PUp.                                     (* unlock_upgrade_and_lock waits for upgrade_sem *)

(** What a thread owns (a ghost, set by its successful exchanges); MPend: it gave up its share in unlock_upgrade_and_lock and waits. *)
Inductive mode := MNone | MShared | MUpgrade | MPend | MExcl.

Inductive event := ECall (t : nat) (o : op) | ERet (t : nat) (o : op) (r : res).

Record thr := Thr { t_pc : pc; t_own : mode }.
Record sys := Sys { wd : word; us : nat; es : nat; ps : nat;     (* the word; the counts of unlock_sem, exclusive_sem, upgrade_sem *)
                    thrs : list thr; hist : list event }.

Fixpoint set_thr (l : list thr) (t : nat) (x : thr) : list thr :=
  match l, t with
  | [], _ => []
  | _ :: l', 0 => x :: l'
  | y :: l', S t' => y :: set_thr l' t' x
  end.

(** What the caller must own, and what it owns when the call has succeeded. *)
Definition needs (o : op) : mode :=
  match o with
  | Unlock | UnlockAndLockUpgrade | UnlockAndLockShared => MExcl
  | UnlockShared => MShared
  | UnlockUpgrade | UnlockUpgradeAndLock | UnlockUpgradeAndLockShared => MUpgrade
  | _ => MNone
  end.
Definition gives (o : op) : mode :=
  match o with
  | Lock | TryLock | TimedLock | UnlockUpgradeAndLock => MExcl
  | LockShared | TryLockShared | TimedLockShared | UnlockAndLockShared | UnlockUpgradeAndLockShared => MShared
  | LockUpgrade | TryLockUpgrade | UnlockAndLockUpgrade => MUpgrade
  | Unlock | UnlockShared | UnlockUpgrade => MNone
  end.
Definition mode_eqb (a b : mode) : bool :=
  match a, b with
  | MNone, MNone | MShared, MShared | MUpgrade, MUpgrade | MPend, MPend | MExcl, MExcl => true
  | _, _ => false
  end.

Definition is_writer (o : op) : bool := match o with Lock | TimedLock => true | _ => false end.
Definition is_timed (o : op) : bool := match o with TimedLock | TimedLockShared => true | _ => false end.

Section Step.
Variable s : sys.
Variable t : nat.
Variable x : thr.

Definition put (p : pc) (m : mode) (w : word) (u e p' : nat) (ev : list event) : option sys :=
  Some (Sys w u e p' (set_thr (thrs s) t (Thr p m)) (ev ++ hist s)).
Definition goto (p : pc) : option sys := put p (t_own x) (wd s) (us s) (es s) (ps s) [].
Definition ret (o : op) (r : res) : option sys := put PIdle (t_own x) (wd s) (us s) (es s) (ps s) [ERet t o r].

Definition run : option sys :=
  match t_pc x with
  | PIdle => None
  | PRead o => goto (PCas o (wd s))
  | PCas o old =>
      match body_of o old with
      | BReturn r => ret o r
      | BCas new a =>
          if word_eqb (wd s) old then
            match a with
            | AReturn (RBool false) => put PIdle (t_own x) new (us s) (es s) (ps s) [ERet t o (RBool false)]
            | AReturn r => put PIdle (gives o) new (us s) (es s) (ps s) [ERet t o r]
            | AWait => put (PSleep o old) (t_own x) new (us s) (es s) (ps s) []
            | ARelease l => put (PRel o l (KRet RDone)) (gives o) new (us s) (es s) (ps s) []
            | AUpWait => put PUp MPend new (us s) (es s) (ps s) []
            end
          else goto (PCas o (wd s))
      end
  | PSleep o old =>
      if is_writer o then
        match us s, es s with
        | S u, S e => put (PRead o) (t_own x) (wd s) u e (ps s) []
        | _, _ => None
        end
      else
        match us s with
        | S u => put (PRead o) (t_own x) (wd s) u (es s) (ps s) []
        | 0 => None
        end
  | PGive o old =>
      match give_body o old with
      | GReturn r => ret o r
      | GCas new must r =>
          if word_eqb (wd s) old then
            if must then put (PRel o [(SU, 1)] (KRet (RBool r))) (t_own x) new (us s) (es s) (ps s) []
            else put PIdle (if r then gives o else t_own x) new (us s) (es s) (ps s) [ERet t o (RBool r)]
          else
            if must then goto (PRel o [(SU, 1)] (KGive (wd s)))
            else goto (PGive o (wd s))
      end
  | PRel o [] (KRet r) => ret o r
  | PRel o [] (KGive old) => goto (PGive o old)
  | PRel o ((SU, n) :: l) k => put (PRel o l k) (t_own x) (wd s) (us s + n) (es s) (ps s) []
  | PRel o ((SE, n) :: l) k => put (PRel o l k) (t_own x) (wd s) (us s) (es s + n) (ps s) []
  | PRel o ((SP, n) :: l) k => put (PRel o l k) (t_own x) (wd s) (us s) (es s) (ps s + n) []
  | PUp =>
      match ps s with
      | S p => put PIdle MExcl (wd s) (us s) (es s) p [ERet t UnlockUpgradeAndLock RDone]
      | 0 => None
      end
  end.

(** A timed wait times out. *)
Definition time_out : option sys :=
  match t_pc x with
  | PSleep o old => if is_timed o then goto (PGive o old) else None
  | _ => None
  end.

(** The precondition of a call is that its caller owns what is to be released, and nothing if something is to be acquired. *)
Definition call (o : op) : option sys :=
  match t_pc x with
  | PIdle => if mode_eqb (t_own x) (needs o) then put (PRead o) (t_own x) (wd s) (us s) (es s) (ps s) [ECall t o] else None
  | _ => None
  end.
End Step.

Inductive label := LCall (t : nat) (o : op) | LRun (t : nat) | LTimeout (t : nat).

Definition exec (s : sys) (l : label) : option sys :=
  match l with
  | LCall t o => match nth_error (thrs s) t with Some x => call s t x o | None => None end
  | LRun t => match nth_error (thrs s) t with Some x => run s t x | None => None end
  | LTimeout t => match nth_error (thrs s) t with Some x => time_out s t x | None => None end
  end.

(** The constructor, 93-111, for a program of n threads. *)
Definition init (n : nat) : sys := Sys (Word 0 0 false false 0 false) 0 0 0 (repeat (Thr PIdle MNone) n) [].

Inductive reach (n : nat) : sys -> Prop :=
| r_init : reach n (init n)
| r_step s l s' : reach n s -> exec s l = Some s' -> reach n s'.
