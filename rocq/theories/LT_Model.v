(** * Model of boost::latch

    Source: include/boost/thread/latch.hpp:24-164.
    Simplifications: [count_] and [generation_] are unbounded naturals (the code
    uses std::size_t; [generation_] could only wrap after the latch has been
    completed and reset 2^64 times).  Calling count_down or
    count_down_and_wait when the count is zero violates the documented
    precondition and BOOST_ASSERT (latch.hpp:33); it is undefined behaviour here. *)

From Verif Require Import Monitor.
Set Implicit Arguments.

(** latch.hpp:160-163: the data members ([mutex_], [cond_] are the monitor). *)
Record latch := MkLatch { l_count : nat; l_gen : nat }.

(** latch.hpp:161: the only condition variable. *)
Inductive lcv := LCond.
Definition lcv_eqb (_ _ : lcv) : bool := true.

(** The public operations, latch.hpp:72-157.  [LWaitTimed] is wait_for and
    wait_until, [LCountDown] is count_down and signal, [LSync] is
    count_down_and_wait and sync. *)
Inductive lop := LWait | LTryWait | LWaitTimed | LCountDown | LTryCountDown | LSync | LReset (n : nat).

(** [RTimeout b]: the cv_status, [b] true for timeout. *)
Inductive lres := RVoid | RBool (b : bool) | RTimeout (b : bool) | RInterrupted.

(** Program points: the start of an operation, inside cond_.wait with the
    saved generation (latch.hpp:77, 143), inside the timed wait (95, 108), the
    timed wait at its deadline, and the interrupted wait. *)
Inductive lk :=
| KStart (op : lop) | KWaiting (g : nat) | KTimed (g : nat) | KDeadline (g : nat) | KIntr.

Definition lstart (op : lop) : lk := KStart op.

Notation ret r := (ORet lk lcv r).
Notation sleep k := (OSleep lres LCond k).

(** latch.hpp:30-42: the private count_down; [None] is the violated precondition.
    Returns the state, the notifications and whether the count reached zero. *)
Definition count_down_ (s : latch) : option (latch * list (notif lcv) * bool) :=
  match l_count s with
  | 0 => None
  | S 0 => Some (MkLatch 0 (S (l_gen s)), [NAll LCond], true)
  | S c => Some (MkLatch c (l_gen s), [], false)
  end.

(** The code between acquiring and releasing [mutex_]. *)
Definition lfrag (_ : nat) (_ : unit) (k : lk) (s : latch)
  : latch * list (notif lcv) * outcome lk lcv lres :=
  match k with
  (* latch.hpp:72-78 *)
  | KStart LWait => if l_count s =? 0 then (s, [], ret RVoid) else (s, [], sleep (KWaiting (l_gen s)))
  (* latch.hpp:81-85 *)
  | KStart LTryWait => (s, [], ret (RBool (l_count s =? 0)))
  (* latch.hpp:90-98, 103-111 *)
  | KStart LWaitTimed =>
      if l_count s =? 0 then (s, [], ret (RTimeout false)) else (s, [], sleep (KTimed (l_gen s)))
  (* latch.hpp:115-119 *)
  | KStart LCountDown =>
      match count_down_ s with
      | Some (s', ns, _) => (s', ns, ret RVoid)
      | None => (s, [], OUB lk lcv lres)
      end
  (* latch.hpp:122-126, 46-53 *)
  | KStart LTryCountDown =>
      if 0 <? l_count s then
        match count_down_ s with
        | Some (s', ns, b) => (s', ns, ret (RBool b))
        | None => (s, [], OUB lk lcv lres)
        end
      else (s, [], ret (RBool true))
  (* latch.hpp:135-144 *)
  | KStart LSync =>
      match count_down_ s with
      | Some (s', ns, true) => (s', ns, ret RVoid)
      | Some (s', ns, false) => (s', ns, sleep (KWaiting (l_gen s)))
      | None => (s, [], OUB lk lcv lres)
      end
  (* latch.hpp:152-157 *)
  | KStart (LReset n) => (MkLatch n (l_gen s), [], ret RVoid)
  (* latch.hpp:77, 143 with condition_variable_fwd.hpp:88-95: the predicate is checked again after each wake-up *)
  | KWaiting g => if negb (g =? l_gen s) then (s, [], ret RVoid) else (s, [], sleep (KWaiting g))
  (* latch.hpp:95, 108 with condition_variable_fwd.hpp:278-312 *)
  | KTimed g => if negb (g =? l_gen s) then (s, [], ret (RTimeout false)) else (s, [], sleep (KTimed g))
  | KDeadline g => (s, [], ret (RTimeout (g =? l_gen s)))
  (* condition_variable.hpp:64-94: thread_interrupted leaves the call, the lock is released *)
  | KIntr => (s, [], ret RInterrupted)
  end.

(** condition_variable_fwd.hpp:278-291: at the deadline the predicate is evaluated once more. *)
Definition l_timeout (k : lk) : option lk :=
  match k with KTimed g => Some (KDeadline g) | _ => None end.

(** Waits on boost::condition_variable are interruption points. *)
Definition l_intr (k : lk) : option lk :=
  match k with KWaiting _ | KTimed _ => Some KIntr | _ => None end.

Definition ltprog : prog latch lk lop lres lcv unit unit :=
  MkProg lcv_eqb lstart lfrag l_timeout l_intr (fun _ _ => true) (fun l _ _ => l).

(** latch.hpp:58-61 *)
Definition latch_new (count : nat) : latch := MkLatch count 0.
