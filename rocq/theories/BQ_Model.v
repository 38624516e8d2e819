(** * Model of boost::concurrent::sync_bounded_queue

    Source: include/boost/thread/concurrent_queues/sync_bounded_queue.hpp.
    Simplifications: indices and counters are unbounded naturals (the code uses
    std::size_t; [in_], [out_] stay below [capacity_], the waiter counters could
    only overflow after 2^64 waits); copying or moving an element does not throw;
    a moved-from slot keeps its old content (it is never read again before being
    overwritten).  Reading or writing outside [data_] is undefined behaviour. *)

From Verif Require Import Monitor.
Set Implicit Arguments.

Section BQ.
  Variable V : Type.

  (** sync_bounded_queue.hpp:91-100: the data members ([mtx_] and the condition
      variables are the monitor). *)
  Record bq := MkQ {
    waiting_full : nat;
    waiting_empty : nat;
    data : list V;
    q_in : nat;
    q_out : nat;
    cap : nat;               (* capacity_ *)
    q_closed : bool
  }.

  (** sync_bounded_queue.hpp:92-93 *)
  Inductive bcv := NotEmpty | NotFull.
  Definition bcv_eqb (a b : bcv) : bool :=
    match a, b with NotEmpty, NotEmpty | NotFull, NotFull => true | _, _ => false end.

  (** concurrent_queues/queue_op_status.hpp:24-25 *)
  Inductive status := st_success | st_empty | st_full | st_closed | st_busy.

  (** The public operations, sync_bounded_queue.hpp:46-88.  [BPush] is
      push/push_back/operator<<, [BPull] is pull/ptr_pull/pull_front/operator>>
      (lvalue and rvalue overloads have the same body). *)
  Inductive bop :=
  | BPush (x : V) | BTryPush (x : V) | BTryPushNB (x : V)
  | BTryPushBack (x : V) | BNBPushBack (x : V) | BWaitPushBack (x : V)
  | BPull | BTryPull | BTryPullNB
  | BTryPullFront | BNBPullFront | BWaitPullFront
  | BClose | BClosed | BEmpty | BFull | BCapacity | BSize.

  (** Results.  [BGot v]: the operation succeeded and handed over [v]. *)
  Inductive bres :=
  | BVoid | BBool (b : bool) | BSt (s : status) | BNat (n : nat)
  | BGot (v : V) | BThrowClosed | BThrowIntr.

  (** Where a thread resumes: at the start of an operation, at the top of the
      loop of wait_until_not_empty / wait_until_not_full after a wait, or at the
      interruption point inside condition_variable::wait. *)
  Inductive bk :=
  | KGo (op : bop)
  | KLoopE (status_version : bool)
  | KLoopF (x : V) (status_version : bool)
  | KIntr.

  (** 102-105 inc *)
  Definition inc (s : bq) (idx : nat) : nat := (idx + 1) mod cap s.
  (** 107-114 empty *)
  Definition b_empty (s : bq) : bool := q_in s =? q_out s.
  (** 115-122 full *)
  Definition b_full (s : bq) : bool := inc s (q_in s) =? q_out s.
  (** 123-126 capacity *)
  Definition b_capacity (s : bq) : nat := cap s - 1.
  (** 127-131 size.  [in_ + capacity - out_] does not underflow since
      [out_ <= capacity]. *)
  Definition b_size (s : bq) : nat :=
    if b_full s then b_capacity s
    else (q_in s + b_capacity s - q_out s) mod b_capacity s.

  (** 156-164 notify_not_empty_if_needed: the new waiter count and the
      notification made after unlocking. *)
  Definition notify_not_empty_if_needed (s : bq) : bq * list (notif bcv) :=
    if 0 <? waiting_empty s then
      (MkQ (waiting_full s) (waiting_empty s - 1) (data s) (q_in s) (q_out s) (cap s) (q_closed s),
       [NOne NotEmpty])
    else (s, []).

  (** 165-173 notify_not_full_if_needed *)
  Definition notify_not_full_if_needed (s : bq) : bq * list (notif bcv) :=
    if 0 <? waiting_full s then
      (MkQ (waiting_full s - 1) (waiting_empty s) (data s) (q_in s) (q_out s) (cap s) (q_closed s),
       [NOne NotFull])
    else (s, []).

  Definition bout := (bq * list (notif bcv) * outcome bk bcv bres)%type.
  Definition ret (s : bq) (r : bres) : bout := (s, [], ORet bk bcv r).
  Definition ub (s : bq) : bout := (s, [], OUB bk bcv bres).

  (** 176-209 pull / ptr_pull / pull_front *)
  Definition pull_front (s : bq) : bout :=
    match nth_error (data s) (q_out s) with
    | None => ub s
    | Some v =>
        let s1 := MkQ (waiting_full s) (waiting_empty s) (data s)
                      (q_in s) (inc s (q_out s)) (cap s) (q_closed s) in
        let '(s2, ns) := notify_not_full_if_needed s1 in
        (s2, [], OFin bk (BGot v) ns)
    end.

  (** 211-215 set_in and 217-227 push_at; [r] is what the caller returns. *)
  Definition push_at (s : bq) (x : V) (in_p_1 : nat) (r : bres) : bout :=
    if q_in s <? length (data s) then
      let s1 := MkQ (waiting_full s) (waiting_empty s) (upd (data s) (q_in s) x)
                    in_p_1 (q_out s) (cap s) (q_closed s) in
      let '(s2, ns) := notify_not_empty_if_needed s1 in
      (s2, [], OFin bk r ns)
    else ub s.

  (** 322-341 try_pull *)
  Definition try_pull (s : bq) : bout :=
    if b_empty s then
      if q_closed s then ret s BThrowClosed else ret s (BBool false)
    else pull_front s.

  (** 351-360 try_pull_front *)
  Definition try_pull_front (s : bq) : bout :=
    if b_empty s then
      if q_closed s then ret s (BSt st_closed) else ret s (BSt st_empty)
    else pull_front s.

  (** 409-429 one iteration of wait_until_not_empty (the version of 409-418
      throws, the version of 420-429 reports by a flag), then 437 / 453 / 471 /
      480 / 489-491. *)
  Definition loop_not_empty (s : bq) (status_version : bool) : bout :=
    if negb (q_out s =? q_in s) then pull_front s
    else if q_closed s then
      ret s (if status_version then BSt st_closed else BThrowClosed)
    else
      (MkQ (waiting_full s) (S (waiting_empty s)) (data s) (q_in s) (q_out s) (cap s) (q_closed s),
       [], OSleep bres NotEmpty (KLoopE status_version)).

  (** 576-589 one iteration of wait_until_not_full, then push_at. *)
  Definition loop_not_full (s : bq) (x : V) (status_version : bool) : bout :=
    if q_closed s then ret s BThrowClosed
    else
      let in_p_1 := inc s (q_in s) in
      if negb (in_p_1 =? q_out s) then
        push_at s x in_p_1 (if status_version then BSt st_success else BVoid)
      else
        (MkQ (S (waiting_full s)) (waiting_empty s) (data s) (q_in s) (q_out s) (cap s) (q_closed s),
         [], OSleep bres NotFull (KLoopF x status_version)).

  (** 484-492 wait_pull_front, up to the first wait *)
  Definition wait_pull_front (s : bq) : bout :=
    if b_empty s && q_closed s then ret s (BSt st_closed)
    else loop_not_empty s true.

  (** 502-512 try_push *)
  Definition try_push (s : bq) (x : V) : bout :=
    if q_closed s then ret s BThrowClosed
    else
      let in_p_1 := inc s (q_in s) in
      if in_p_1 =? q_out s then ret s (BBool false)
      else push_at s x in_p_1 (BBool true).

  (** 523-533 try_push_back *)
  Definition try_push_back (s : bq) (x : V) : bout :=
    if q_closed s then ret s (BSt st_closed)
    else
      let in_p_1 := inc s (q_in s) in
      if in_p_1 =? q_out s then ret s (BSt st_full)
      else push_at s x in_p_1 (BSt st_success).

  (** 543-548 wait_push_back, up to the first wait *)
  Definition wait_push_back (s : bq) (x : V) : bout :=
    if q_closed s then ret s (BSt st_closed) else loop_not_full s x true.

  (** 271-279 close *)
  Definition close (s : bq) : bout :=
    (MkQ (waiting_full s) (waiting_empty s) (data s) (q_in s) (q_out s) (cap s) true,
     [], OFin bk BVoid [NAll NotEmpty; NAll NotFull]).

  (** The first fragment of each operation.  [busy]: try_to_lock found the mutex
      locked (370-397, 558-573), an input from the environment. *)
  Definition run_op (busy : bool) (op : bop) (s : bq) : bout :=
    match op with
    | BPush x => loop_not_full s x false                                (* 593-604 *)
    | BTryPush x => try_push s x                                        (* 514-518 *)
    | BTryPushNB x => if busy then ret s (BBool false) else try_push s x  (* 559-564 *)
    | BTryPushBack x => try_push_back s x                               (* 536-540 *)
    | BNBPushBack x => if busy then ret s (BSt st_busy) else try_push_back s x (* 568-573 *)
    | BWaitPushBack x => wait_push_back s x                             (* 550-554 *)
    | BPull => loop_not_empty s false                                   (* 433-481 *)
    | BTryPull => try_pull s                                            (* 343-347 *)
    | BTryPullNB => if busy then ret s (BBool false) else try_pull s      (* 371-379 *)
    | BTryPullFront => try_pull_front s                                 (* 363-367 *)
    | BNBPullFront => if busy then ret s (BSt st_busy) else try_pull_front s (* 389-397 *)
    | BWaitPullFront => wait_pull_front s                               (* 494-498 *)
    | BClose => close s                                                 (* 271-279 *)
    | BClosed => ret s (BBool (q_closed s))                             (* 282-286 *)
    | BEmpty => ret s (BBool (b_empty s))                               (* 294-298 *)
    | BFull => ret s (BBool (b_full s))                                 (* 300-304 *)
    | BCapacity => ret s (BNat (b_capacity s))                          (* 307-311 *)
    | BSize => ret s (BNat (b_size s))                                  (* 314-318 *)
    end.

  Definition bfrag (_ : nat) (busy : bool) (k : bk) (s : bq) : bout :=
    match k with
    | KGo op => run_op busy op s
    | KLoopE st => loop_not_empty s st
    | KLoopF x st => loop_not_full s x st
    | KIntr => ret s BThrowIntr
    end.

  (** condition_variable.hpp:64-94: wait() is an interruption point; only a
      thread that is in, or has just been woken from, a wait can see it. *)
  Definition b_on_intr (intr : bool) (k : bk) : option bk :=
    if intr then
      match k with KLoopE _ | KLoopF _ _ => Some KIntr | _ => None end
    else None.

  (** The queue as a monitor; [intr]: are blocked threads interrupted? *)
  Definition bprog (intr : bool) : prog bq bk bop bres bcv unit bool :=
    MkProg bcv_eqb KGo bfrag (fun _ => None) (b_on_intr intr)
           (fun _ _ => true) (fun l _ _ => l).

  (** 231-236 the constructor; [d] is the default-constructed element. *)
  Definition bq_new (d : V) (max_elems : nat) : bq :=
    MkQ 0 0 (repeat d (max_elems + 1)) 0 0 (max_elems + 1) false.

End BQ.

Arguments BPull {V}. Arguments BTryPull {V}. Arguments BTryPullNB {V}.
Arguments BTryPullFront {V}. Arguments BNBPullFront {V}. Arguments BWaitPullFront {V}.
Arguments BClose {V}. Arguments BClosed {V}. Arguments BEmpty {V}. Arguments BFull {V}.
Arguments BCapacity {V}. Arguments BSize {V}.
Arguments BVoid {V}. Arguments BBool {V} _. Arguments BSt {V} _. Arguments BNat {V} _.
Arguments BThrowClosed {V}. Arguments BThrowIntr {V}.
Arguments KLoopE {V} _. Arguments KIntr {V}.
