(** * Models of sync_queue, sync_deque and sync_priority_queue

    Source: include/boost/thread/concurrent_queues/detail/sync_queue_base.hpp,
    sync_queue.hpp, sync_deque.hpp (same bodies under the names push_back,
    pull_front, ...; base class detail/sync_deque_base.hpp), sync_priority_queue.hpp,
    and include/boost/thread/csbl/devector.hpp.

    The three classes share one monitor and differ in the container [Queue]
    (template parameter of sync_queue_base), so the monitor is modelled once over
    an abstract container.  Simplification: copying and moving elements and
    allocation do not throw. *)

From Coq Require Export ZArith.
From Verif Require Import Monitor.
Set Implicit Arguments.

(** What the classes use of their container.  [d_pull] is front()/pop_front()
    (sync_queue.hpp:80-90) or pull() (sync_priority_queue.hpp:78-83); [None]:
    undefined behaviour.  [d_moved d]: what is left of [d] after it has been
    moved from. *)
Record container (V D : Type) := MkCont {
  d_new : D;
  d_empty : D -> bool;
  d_size : D -> Z;
  d_push : V -> D -> D;
  d_pull : D -> option (V * D);
  d_moved : D -> D
}.

(** concurrent_queues/queue_op_status.hpp:24-25 *)
Inductive qstatus := qs_success | qs_empty | qs_full | qs_closed | qs_busy | qs_timeout | qs_not_ready.

Section SQ.
  Variables V D : Type.
  Variable ct : container V D.

  (** sync_queue_base.hpp:66-69 *)
  Record sq := MkSQ { q_data : D; q_cl : bool }.

  (** The single condition variable [cond_]. *)
  Inductive scv := Cond.
  Definition scv_eqb (_ _ : scv) : bool := true.

  (** Public operations: sync_queue.hpp:53-69, sync_priority_queue.hpp:123-140,
      sync_queue_base.hpp:52-63.  lvalue/rvalue overloads have the same body;
      operator<< and operator>> are push and pull. *)
  Inductive qop :=
  | QPush (x : V) | QTryPush (x : V) | QWaitPush (x : V) | QNBPush (x : V)
  | QPull | QTryPull | QWaitPull | QNBPull | QPullUntil
  | QClose | QClosed | QEmpty | QFull | QSize | QUnderlying.

  Inductive qres :=
  | QVoid | QSt (s : qstatus) | QGot (v : V) | QBool (b : bool) | QSize_ (n : Z)
  | QMoved (d : D) | QThrowClosed | QThrowIntr.

  (** [KWait op]: top of the predicate loop of cond_.wait / wait_until inside [op];
      [KTimedOut]: the deadline of pull_until has passed; [KIntr]: interrupted. *)
  Inductive qk := KGo (op : qop) | KWait (op : qop) | KTimedOut | KIntr.

  Definition qout := (sq * list (notif scv) * outcome qk scv qres)%type.
  Definition qret (s : sq) (r : qres) : qout := (s, [], ORet qk scv r).

  (** sync_queue.hpp:80-90 / sync_priority_queue.hpp:237-267 *)
  Definition do_pull (s : sq) : qout :=
    match d_pull ct (q_data s) with
    | Some (v, d') => qret (MkSQ d' (q_cl s)) (QGot v)
    | None => (s, [], OUB qk scv qres)
    end.

  (** sync_queue.hpp:92-102 and sync_queue_base.hpp:96-103: notify_all with the lock held *)
  Definition do_push (s : sq) (x : V) (r : qres) : qout :=
    (MkSQ (d_push ct x (q_data s)) (q_cl s), [NAll Cond], ORet qk scv r).

  (** sync_queue.hpp:139-148, sync_priority_queue.hpp:302-324 *)
  Definition sq_try_pull (s : sq) : qout :=
    if d_empty ct (q_data s) then
      qret s (QSt (if q_cl s then qs_closed else qs_empty))
    else do_pull s.

  (** sync_queue.hpp:203-208 try_push, 218-223 wait_push; sync_priority_queue.hpp:217-234 *)
  Definition sq_try_push (s : sq) (x : V) : qout :=
    if q_cl s then qret s (QSt qs_closed) else do_push s x (QSt qs_success).

  (** sync_queue.hpp:241-246, sync_priority_queue.hpp:173-191 *)
  Definition sq_push (s : sq) (x : V) : qout :=
    if q_cl s then qret s QThrowClosed else do_push s x QVoid.

  (** sync_queue_base.hpp:183-186 *)
  Definition not_empty_or_closed (s : sq) : bool := negb (d_empty ct (q_data s)) || q_cl s.

  (** What follows the wait: sync_queue.hpp:187-189 (pull), 152-155 (wait_pull),
      sync_priority_queue.hpp:285-287 (pull_until); sync_queue_base.hpp:192-193, 202-203. *)
  Definition after_wait (op : qop) (s : sq) : qout :=
    if negb (d_empty ct (q_data s)) then do_pull s
    else match op with
         | QPull => if q_cl s then qret s QThrowClosed else do_pull s
         | _ => qret s (QSt qs_closed)
         end.

  (** condition_variable_fwd.hpp:88-95: while (!pred()) wait(m), one iteration *)
  Definition wait_loop (op : qop) (s : sq) : qout :=
    if not_empty_or_closed s then after_wait op s
    else (s, [], OSleep qres Cond (KWait op)).

  (** condition_variable_fwd.hpp:278-312: the deadline passed: return pred(); then
      sync_queue_base.hpp:200-203.  The poll interval of the other-clock version
      (306-309) only adds wake-ups, which the monitor has anyway. *)
  Definition timed_out (s : sq) : qout :=
    if not_empty_or_closed s then after_wait QPullUntil s else qret s (QSt qs_timeout).

  (** sync_queue_base.hpp:120-127 *)
  Definition sq_close (s : sq) : qout :=
    (MkSQ (q_data s) true, [], OFin qk QVoid [NAll Cond]).

  Definition sq_op (busy : bool) (op : qop) (s : sq) : qout :=
    match op with
    | QPush x => sq_push s x
    | QTryPush x => sq_try_push s x
    | QWaitPush x => sq_try_push s x
    | QNBPush x => if busy then qret s (QSt qs_busy) else sq_try_push s x  (* sync_queue.hpp:233-238 *)
    | QPull => wait_loop QPull s                                           (* 184-200 *)
    | QTryPull => sq_try_pull s                                            (* 159-163 *)
    | QWaitPull => wait_loop QWaitPull s                                   (* 166-170 *)
    | QNBPull => if busy then qret s (QSt qs_busy) else sq_try_pull s      (* 173-181 *)
    | QPullUntil => wait_loop QPullUntil s         (* sync_priority_queue.hpp:282-288 *)
    | QClose => sq_close s
    | QClosed => qret s (QBool (q_cl s))                                   (* sync_queue_base.hpp:130-134 *)
    | QEmpty => qret s (QBool (d_empty ct (q_data s)))                     (* 147-151 *)
    | QFull => qret s (QBool false)                                        (* 153-156 *)
    | QSize => qret s (QSize_ (d_size ct (q_data s)))                      (* 159-163 *)
    | QUnderlying => qret (MkSQ (d_moved ct (q_data s)) (q_cl s)) (QMoved (q_data s)) (* 60-63 *)
    end.

  Definition qfrag (_ : nat) (busy : bool) (k : qk) (s : sq) : qout :=
    match k with
    | KGo op => sq_op busy op s
    | KWait op => wait_loop op s
    | KTimedOut => timed_out s
    | KIntr => qret s QThrowIntr
    end.

  (** Only pull_until waits with a deadline. *)
  Definition q_on_timeout (k : qk) : option qk :=
    match k with KWait QPullUntil => Some KTimedOut | _ => None end.
  Definition q_on_intr (k : qk) : option qk :=
    match k with KWait _ | KTimedOut => Some KIntr | _ => None end.

  (** [mv]: may underlying_queue() be called? *)
  Definition q_pre (mv : bool) (_ : unit) (op : qop) : bool :=
    match op with QUnderlying => mv | _ => true end.

  Definition sqprog (mv : bool) : prog sq qk qop qres scv unit bool :=
    MkProg scv_eqb KGo qfrag q_on_timeout q_on_intr (q_pre mv) (fun l _ _ => l).

  (** sync_queue_base.hpp:108-112 *)
  Definition sq_new : sq := MkSQ (d_new ct) false.
End SQ.

Arguments QPull {V}. Arguments QTryPull {V}. Arguments QWaitPull {V}. Arguments QNBPull {V}.
Arguments QPullUntil {V}. Arguments QClose {V}. Arguments QClosed {V}. Arguments QEmpty {V}.
Arguments QFull {V}. Arguments QSize {V}. Arguments QUnderlying {V}.
Arguments QVoid {V D}. Arguments QSt {V D} _. Arguments QGot {V D} _. Arguments QBool {V D} _.
Arguments QSize_ {V D} _. Arguments QMoved {V D} _. Arguments QThrowClosed {V D}. Arguments QThrowIntr {V D}.
Arguments KTimedOut {V}. Arguments KIntr {V}.

(** ** csbl::devector (devector.hpp:22-99), the container of sync_queue and sync_deque *)

Section Devector.
  Variable V : Type.

  (** devector.hpp:25-26 *)
  Record devector := MkDV { dv_data : list V; dv_front : nat }.

  (** 40 *)
  Definition dv_new : devector := MkDV [] 0.
  (** 70-71 *)
  Definition dv_empty (d : devector) : bool := length (dv_data d) =? dv_front d.
  (** 73-74: std::size_t subtraction, 64 bits *)
  Definition dv_size (d : devector) : Z :=
    ((Z.of_nat (length (dv_data d)) - Z.of_nat (dv_front d)) mod 2 ^ 64)%Z.
  (** 30-32, 88 *)
  Definition dv_push_back (x : V) (d : devector) : devector :=
    MkDV (dv_data d ++ [x]) (dv_front d).
  (** 76-80: out of range is undefined behaviour *)
  Definition dv_at_front (d : devector) : option V := nth_error (dv_data d) (dv_front d).
  (** 82-86: data_.back() *)
  Definition dv_back (d : devector) : option V := nth_error (dv_data d) (length (dv_data d) - 1).
  (** 90-97 *)
  Definition dv_pop_front (d : devector) : devector :=
    let d1 := MkDV (dv_data d) (S (dv_front d)) in
    if dv_empty d1 then MkDV [] 0 else d1.
  (** sync_queue.hpp:80-90 *)
  Definition dv_pull (d : devector) : option (V * devector) :=
    match dv_at_front d with
    | Some v => Some (v, dv_pop_front d)
    | None => None
    end.
  (** 45-48 and 60-68: the source's vector is left empty (std::vector's move
      constructor, and boost::container::vector's), its front_index_ is kept. *)
  Definition dv_moved (d : devector) : devector := MkDV [] (dv_front d).

  (** what the target of the move holds: both members are taken over (45-48, 60-68);
      also the copy constructor and assignment (41-44, 50-58) *)
  Definition dv_copy (d : devector) : devector := MkDV (dv_data d) (dv_front d).

  Definition dv_container : container V devector :=
    MkCont dv_new dv_empty dv_size dv_push_back dv_pull dv_moved.
End Devector.

(** ** detail::priority_queue (sync_priority_queue.hpp:34-89)

    std::push_heap and std::pop_heap are the standard library's; they are
    parameters here, and the theorems assume only the C++ standard's contract
    (PQ_contract in SQ_Spec.v). *)
Section PQ.
  Variable V : Type.
  Variables push_heap pop_heap : list V -> list V.

  (** 62-71 *)
  Definition pq_push (x : V) (d : list V) : list V := push_heap (d ++ [x]).
  (** 73-77: pop_heap, then vector::pop_back *)
  Definition pq_pop (d : list V) : list V := removelast (pop_heap d).
  (** 78-83: front() of an empty vector is undefined behaviour.  The moved-from
      first element takes part in pop_heap; the model leaves its value in place
      (pop_heap moves it to the end without comparing it in the standard
      implementations, and pop_back drops it). *)
  Definition pq_pull (d : list V) : option (V * list V) :=
    match d with
    | [] => None
    | v :: _ => Some (v, pq_pop d)
    end.
  (** 57-60, 52-55; implicitly-declared move constructor: moved-from vector is empty *)
  Definition pq_container : container V (list V) :=
    MkCont [] (fun d => match d with [] => true | _ => false end)
           (fun d => (Z.of_nat (length d) mod 2 ^ 64)%Z) pq_push pq_pull (fun _ => []).
End PQ.
