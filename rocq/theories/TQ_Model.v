(** * Model of sync_timed_queue

    Source: include/boost/thread/concurrent_queues/sync_timed_queue.hpp, on top of
    sync_priority_queue.hpp and detail/sync_queue_base.hpp.

    Time points are integers.  The shared state carries the last clock reading;
    every Clock::now() in a fragment consumes the next increment that the
    scheduler chose, so two readings in one critical section may differ.  With
    [steady] (the default Clock, steady_clock) increments are never negative;
    without it (system_clock) the clock may be set back.

    Simplifications: elements are copied and moved without throwing;
    push(elem, duration) is [TPush] with the due time that its clock reading gave
    (sync_timed_queue.hpp:195-214); pull_for is modelled for Clock = steady_clock. *)

From Coq Require Export ZArith.
From Verif Require Import Monitor SQ_Model.
Set Implicit Arguments.

Section TQ.
  Variable V : Type.
  Variables push_heap pop_heap : list (V * Z) -> list (V * Z).
  Variable steady : bool.
  (** BOOST_THREAD_POLL_INTERVAL_MILLISECONDS, in clock units *)
  Variable poll : Z.

  Notation stype := (V * Z)%type.

  (** sync_timed_queue.hpp:58-61: the element due later is the smaller one *)
  Definition s_lt (a b : stype) : bool := (snd b <? snd a)%Z.

  Record tq := MkTQ { t_data : list stype; t_closed : bool; t_now : Z }.

  Inductive top_ :=
  | TPush (x : V) (due : Z) | TTryPush (x : V) (due : Z)
  | TPull | TWaitPull | TTryPull | TNBPull | TPullUntil (tp : Z) | TPullFor (dura : Z)
  | TClose | TClosed | TEmpty | TFull | TSize.

  (** A delivered element is reported with the due time it was pushed with. *)
  Inductive tres :=
  | TVoid | TSt (s : qstatus) | TGot (e : stype) | TBool (b : bool) | TNat (n : Z)
  | TThrowClosed | TThrowIntr.

  (** [TkTop op dl]: top of the for(;;) of wait_to_pull ([dl = None]) or wait_to_pull_until;
      [TkInner op dl]: in wait_until_not_empty_or_closed[_until];
      [TkInnerTO op tp]: that wait has timed out;
      [TkOuter op dl tpmin]: in cond_.wait_until(lk, tpmin). *)
  Inductive tk :=
  | TkGo (op : top_) | TkTop (op : top_) (dl : option Z) | TkInner (op : top_) (dl : option Z)
  | TkInnerTO (op : top_) (tp : Z) | TkOuter (op : top_) (dl : option Z) (tpmin : Z) | TkIntr.

  Definition tout := (tq * list (notif scv) * outcome tk scv tres)%type.
  Definition tret (s : tq) (r : tres) : tout := (s, [], ORet tk scv r).
  Definition tub (s : tq) : tout := (s, [], OUB tk scv tres).

  (** Clock::now() *)
  Definition read_clock (s : tq) (ds : list Z) : Z * tq * list Z :=
    let d := match ds with [] => 0%Z | d :: _ => if steady then Z.max 0 d else d end in
    let now := (t_now s + d)%Z in
    (now, MkTQ (t_data s) (t_closed s) now, tl ds).

  (** 325, 354 over sync_priority_queue.hpp:78-83 *)
  Definition t_pull (s : tq) : tout :=
    match pq_pull pop_heap (t_data s) with
    | Some (e, d') => tret (MkTQ d' (t_closed s) (t_now s)) (TGot e)
    | None => tub s
    end.

  (** 247-257: [(reached?, state, remaining readings)]; the clock is read only if not empty *)
  Definition reached (s : tq) (ds : list Z) : bool * tq * list Z :=
    match t_data s with
    | [] => (false, s, ds)
    | e :: _ => let '(now, s1, ds1) := read_clock s ds in ((snd e <=? now)%Z, s1, ds1)
    end.

  (** Result of a pull that found the queue closed: 345, 441, 284 *)
  Definition closed_res (op : top_) : tres :=
    match op with TPull => TThrowClosed | _ => TSt qs_closed end.

  (** 285, 291: if (clock::now() >= tp) return empty ? timeout : not_ready *)
  Definition past (dl : option Z) (s : tq) (ds : list Z) : bool * tq * list Z :=
    match dl with
    | None => (false, s, ds)
    | Some tp => let '(now, s1, ds1) := read_clock s ds in ((tp <=? now)%Z, s1, ds1)
    end.
  Definition past_res (s : tq) : tres :=
    TSt (match t_data s with [] => qs_timeout | _ => qs_not_ready end).

  (** 265-266, 283-285 and again 270-271, 289-291: the checks made before either wait *)
  Definition checks (op : top_) (dl : option Z) (s : tq) (ds : list Z)
    (k : tq -> list Z -> tout) : tout :=
    let '(b, s1, ds1) := reached s ds in
    if b then t_pull s1
    else if t_closed s1 then tret s1 (closed_res op)
    else let '(p, s2, ds2) := past dl s1 ds1 in
         if p then tret s2 (past_res s2) else k s2 ds2.

  (** 273-274, 293-294 with limit_timepoint (64-81): top() of an empty queue is undefined *)
  Definition outer_wait (op : top_) (dl : option Z) (s : tq) (ds : list Z) : tout :=
    match t_data s with
    | [] => tub s
    | e :: _ =>
        let '(lim, s1) := if steady then (snd e, s)
                          else let '(now, s1, _) := read_clock s ds in (Z.min (snd e) (now + poll), s1) in
        let tpmin := match dl with None => lim | Some tp => Z.min tp lim end in
        (s1, [], OSleep tres Cond (TkOuter op dl tpmin))
    end.

  (** 270-274, 289-294 *)
  Definition part2 (op : top_) (dl : option Z) (s : tq) (ds : list Z) : tout :=
    checks op dl s ds (outer_wait op dl).

  (** 268, 287: the predicate loop of the inner wait *)
  Definition inner_wait (op : top_) (dl : option Z) (s : tq) (ds : list Z) : tout :=
    match t_data s, t_closed s with
    | [], false => (s, [], OSleep tres Cond (TkInner op dl))
    | _, _ => part2 op dl s ds
    end.

  (** 263-275, 281-295 *)
  Definition loop_top (op : top_) (dl : option Z) (s : tq) (ds : list Z) : tout :=
    checks op dl s ds (inner_wait op dl).

  (** The inner timed wait gave up because its deadline had passed by the clock (a wake-up
      before the deadline goes on waiting); its status is ignored (287), so go on with 289. *)
  Definition inner_timed_out (op : top_) (tp : Z) (s : tq) (ds : list Z) : tout :=
    let '(now, s1, ds1) := read_clock s ds in
    if (tp <=? now)%Z then part2 op (Some tp) s1 ds1 else inner_wait op (Some tp) s1 ds1.

  (** 404-427 *)
  Definition t_try_pull (s : tq) (ds : list Z) : tout :=
    let '(b, s1, ds1) := reached s ds in
    if b then t_pull s1
    else if t_closed s1 then tret s1 (TSt qs_closed)
    else tret s1 (TSt (match t_data s1 with [] => qs_empty | _ => qs_not_ready end)).

  (** sync_priority_queue.hpp:172-234 *)
  Definition t_push (s : tq) (x : V) (due : Z) (ok closed : tres) : tout :=
    if t_closed s then tret s closed
    else (MkTQ (pq_push push_heap (x, due) (t_data s)) (t_closed s) (t_now s), [NAll Cond], ORet tk scv ok).

  Definition t_op (busy : bool) (ds : list Z) (op : top_) (s : tq) : tout :=
    match op with
    | TPush x due => t_push s x due TVoid TThrowClosed                         (* 188-214 *)
    | TTryPush x due => t_push s x due (TSt qs_success) (TSt qs_closed)        (* 218-244 *)
    | TPull | TWaitPull => loop_top op None s ds                               (* 341-347, 437-451 *)
    | TTryPull => t_try_pull s ds                                              (* 430-434 *)
    | TNBPull => if busy then tret s (TSt qs_busy) else t_try_pull s ds        (* 455-460 *)
    | TPullUntil tp => loop_top op (Some tp) s ds                              (* 383-389 *)
    | TPullFor dura =>                                                         (* 395-401, 300-302 *)
        let '(now, s1, ds1) := read_clock s ds in loop_top op (Some (now + dura)%Z) s1 ds1
    | TClose => (MkTQ (t_data s) true (t_now s), [], OFin tk TVoid [NAll Cond])
    | TClosed => tret s (TBool (t_closed s))
    | TEmpty => tret s (TBool (match t_data s with [] => true | _ => false end))
    | TFull => tret s (TBool false)
    | TSize => tret s (TNat (Z.of_nat (length (t_data s)) mod 2 ^ 64)%Z)
    end.

  Definition tfrag (_ : nat) (e : bool * list Z) (k : tk) (s : tq) : tout :=
    let (busy, ds) := e in
    match k with
    | TkGo op => t_op busy ds op s
    | TkTop op dl => loop_top op dl s ds
    | TkInner op dl => inner_wait op dl s ds
    | TkInnerTO op tp => inner_timed_out op tp s ds
    | TkOuter op dl _ => loop_top op dl s ds
    | TkIntr => tret s TThrowIntr
    end.

  Definition t_on_timeout (k : tk) : option tk :=
    match k with
    | TkInner op (Some tp) => Some (TkInnerTO op tp)
    | TkOuter op dl _ => Some (TkTop op dl)
    | _ => None
    end.
  Definition t_on_intr (k : tk) : option tk :=
    match k with
    | TkInner _ _ | TkInnerTO _ _ | TkOuter _ _ _ => Some TkIntr
    | _ => None
    end.
  Definition t_pre (_ : unit) (op : top_) : bool :=
    match op with TPullFor _ => steady | _ => true end.

  Definition tqprog : prog tq tk top_ tres scv unit (bool * list Z) :=
    MkProg scv_eqb TkGo tfrag t_on_timeout t_on_intr t_pre (fun l _ _ => l).

  Definition tq_new (now : Z) : tq := MkTQ [] false now.
End TQ.

Arguments TPull {V}. Arguments TWaitPull {V}. Arguments TTryPull {V}. Arguments TNBPull {V}.
Arguments TPullUntil {V} _. Arguments TPullFor {V} _. Arguments TClose {V}. Arguments TClosed {V}.
Arguments TEmpty {V}. Arguments TFull {V}. Arguments TSize {V}.
Arguments TVoid {V}. Arguments TSt {V} _. Arguments TBool {V} _. Arguments TNat {V} _.
Arguments TThrowClosed {V}. Arguments TThrowIntr {V}. Arguments TkIntr {V}.
