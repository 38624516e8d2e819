(** * Model of the Windows mutex, timed_mutex and recursive mutexes

    Sources: include/boost/thread/win32/basic_timed_mutex.hpp:33-290 (the base of mutex, try_mutex and timed_mutex, win32/mutex.hpp:20-72) and
    include/boost/thread/win32/basic_recursive_mutex.hpp:26-172 (the base of recursive_mutex and recursive_timed_mutex).

    Every interlocked operation and every call to the operating system is a step of its own; memory is sequentially consistent, as the interlocked operations make it.
    Simplifications: the three fields of the 32-bit word active_count (bit 31, bit 30, and the number of waiters below) are the fields of a record, so that the
    number of waiters never carries into bit 30 (2^30 threads); get_event, which creates the event on first use, is not a step (all its callers get the same event);
    the overloads of timed_lock, try_lock_for and try_lock_until are one operation, and the environment decides with a boolean whether a clock that is read has reached the deadline. *)
From Verif Require Import Monitor.
Set Implicit Arguments.

(** ** basic_timed_mutex *)

(** active_count (35-39): lock flag, event-set flag, number of waiters *)
Record word := MkW { lk : bool; es : bool; nw : nat }.
Definition word_eqb (a b : word) : bool := Bool.eqb (lk a) (lk b) && Bool.eqb (es a) (es b) && (nw a =? nw b).
(** [ev]: the auto-reset event is signalled *)
Record wm := MkM { wd : word; ev : bool }.
Definition wm0 : wm := MkM (MkW false false 0) false.

Inductive wop := OLock | OTry | OTimed | OUnlock.
Inductive wkk :=
| KB (op : wop)                          (* the first interlocked operation of the call *)
| KRead (timed : bool)                   (* long old_count=active_count *)
| KMark (timed : bool) (old : word)      (* the loop of mark_waiting_and_try_lock *)
| KTime (old : word)                     (* do_lock_until reads the clock *)
| KDec                                   (* do_lock_until gives up *)
| KWait (timed : bool) (old : word)      (* WaitForSingleObjectEx *)
| KClr (timed : bool) (old : word)       (* the loop of clear_waiting_and_try_lock *)
| KEvt                                   (* unlock: interlocked_bit_test_and_set of the event-set flag *)
| KSet.                                  (* unlock: SetEvent *)

Notation wout := (wm * list (notif unit) * outcome wkk unit bool)%type.
Notation wret s r := (s, @nil (notif unit), ORet wkk unit r).
Notation wgo s k := (s, @nil (notif unit), OYield unit bool k).

(** back to the top of the do loop (83-91 and 172-191) *)
Definition again (timed : bool) (old : word) : wkk := if timed then KTime old else KWait false old.

Definition wfrag (_ : nat) (past : bool) (k : wkk) (s : wm) : wout :=
  let w := wd s in
  match k with
  (* try_lock 65-68; lock 70-75; do_lock_until 155-160 *)
  | KB OTry => if lk w then wret s false else wret (MkM (MkW true (es w) (nw w)) (ev s)) true
  | KB OLock => if lk w then wgo s (KRead false) else wret (MkM (MkW true (es w) (nw w)) (ev s)) true
  | KB OTimed => if lk w then wgo s (KRead true) else wret (MkM (MkW true (es w) (nw w)) (ev s)) true
  (* 76, 162 *)
  | KRead m => wgo s (KMark m w)
  (* mark_waiting_and_try_lock 96-114, then 79-83 and 165-172 *)
  | KMark m old =>
      if word_eqb w old then
        if lk old then let w' := MkW true (es old) (S (nw old)) in wgo (MkM w' (ev s)) (again m w')
        else wret (MkM (MkW true (es old) (nw old)) (ev s)) true
      else wgo s (KMark m w)
  (* 174-179 *)
  | KTime old => if past then wgo s KDec else wgo s (KWait true old)
  | KDec => wret (MkM (MkW (lk w) (es w) (nw w - 1)) (ev s)) false
  (* 85, 184: the wait succeeds and resets the event *)
  | KWait m old => if ev s then wgo (MkM w false) (KClr m (MkW false true (nw old))) else (s, [], OSleep bool tt k)
  (* clear_waiting_and_try_lock 120-140 *)
  | KClr m old =>
      if word_eqb w old then
        if lk old then wgo (MkM (MkW true false (nw old)) (ev s)) (again m old)
        else wret (MkM (MkW true false (nw old - 1)) (ev s)) true
      else wgo s (KClr m w)
  (* unlock 241-255: adding lock_flag_value flips bit 31; the comparison old_count>lock_flag_value is signed *)
  | KB OUnlock =>
      let s' := MkM (MkW (negb (lk w)) (es w) (nw w)) (ev s) in
      if negb (es w) && (negb (lk w) || (0 <? nw w)) then wgo s' KEvt else wret s' true
  | KEvt => if es w then wret s true else wgo (MkM (MkW (lk w) true (nw w)) (ev s)) KSet
  | KSet => (MkM w true, [NAll tt], ORet wkk unit true)
  end.

(** a wait with a timeout may time out *)
Definition w_timeout (k : wkk) : option wkk := match k with KWait true old => Some (KTime old) | _ => None end.
(** The caller unlocks only what it owns and does not lock twice; [l]: it owns the mutex. *)
Definition wpre (l : bool) (op : wop) : bool := match op with OUnlock => l | _ => negb l end.
Definition wnext (l : bool) (op : wop) (r : bool) : bool := match op with OUnlock => false | _ => if r then true else l end.
Definition wmprog : prog wm wkk wop bool unit bool bool := MkProg (fun _ _ => true) KB wfrag w_timeout (fun _ => None) wpre wnext.

(** ** basic_recursive_mutex_impl

    The underlying mutex is a mutex: [held] says whether a thread has it, and a thread that waits for it can go on when it is free (C73, C74).
    Thread [t] has the system id [S t]; [0] is the id of no thread. *)
Record wr := MkR { rcount : nat; rid : nat; held : bool }.
Definition wr0 : wr := MkR 0 0 false.

Inductive wrop := RLock | RTry | RTimed | RUnlock.
Inductive wrk :=
| RB (op : wrop)          (* lock etc.: try_recursive_lock reads locking_thread_id; unlock: --recursion_count *)
| RInc                    (* ++recursion_count *)
| RAcq (op : wrop)        (* mutex.lock(), mutex.try_lock(), mutex.timed_lock() *)
| RGive                   (* mutex.timed_lock() has timed out *)
| RId                     (* BOOST_INTERLOCKED_EXCHANGE(&locking_thread_id,current_thread_id) *)
| RCnt                    (* recursion_count=1 *)
| RClr                    (* BOOST_INTERLOCKED_EXCHANGE(&locking_thread_id,0) *)
| RRel.                   (* mutex.unlock() *)

Notation wrout := (wr * list (notif unit) * outcome wrk unit bool)%type.
Section WR.
  Variable W : nat.       (* number of values of recursion_count *)
  Definition wrfrag (t : nat) (past : bool) (k : wrk) (s : wr) : wrout :=
    match k with
    (* unlock 89-96 *)
    | RB RUnlock => let n := match rcount s with 0 => W - 1 | S n => n end in
        (MkR n (rid s) (held s), [], if n =? 0 then OYield unit bool RClr else ORet wrk unit true)
    | RClr => (MkR (rcount s) 0 (held s), [], OYield unit bool RRel)
    | RRel => (MkR (rcount s) (rid s) false, [NAll tt], ORet wrk unit true)
    (* try_recursive_lock 99-107 *)
    | RB op => (s, [], OYield unit bool (if rid s =? S t then RInc else RAcq op))
    | RInc => (MkR (S (rcount s) mod W) (rid s) (held s), [], ORet wrk unit true)
    (* lock 51-60, try_basic_lock 109-118, try_timed_lock and the others 120-171 *)
    | RAcq op =>
        if held s then match op with RTry => (s, [], ORet wrk unit false) | _ => (s, [], OSleep bool tt k) end
        else (MkR (rcount s) (rid s) true, [], OYield unit bool RId)
    | RGive => (s, [], ORet wrk unit false)
    | RId => (MkR (rcount s) (S t) (held s), [], OYield unit bool RCnt)
    | RCnt => (MkR 1 (rid s) (held s), [], ORet wrk unit true)
    end.
  (** [l]: how often the caller has locked more than unlocked; it unlocks only what it locked, and nests at most [D] deep. *)
  Definition wrpre (D : nat) (l : nat) (op : wrop) : bool := match op with RUnlock => 0 <? l | _ => l <? D end.
  Definition wrnext (l : nat) (op : wrop) (r : bool) : nat := match op with RUnlock => l - 1 | _ => if r then S l else l end.
  Definition wrprog (D : nat) : prog wr wrk wrop bool unit nat bool :=
    MkProg (fun _ _ => true) RB wrfrag (fun k => match k with RAcq RTimed => Some RGive | _ => None end) (fun _ => None) (wrpre D) wrnext.
End WR.
