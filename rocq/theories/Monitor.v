(** * Monitor: threads sharing an object guarded by one mutex and condition variables

    Most of the concurrent classes of boostorg/thread (queues, latch, barrier,
    once, shared_mutex, timed_mutex, shared_state of futures, ...) are monitors:
    a [boost::mutex], some [boost::condition_variable]s and plain data.  This
    file gives the execution model used for all of them.

    What is modelled (include/boost/thread/pthread/condition_variable.hpp:64-142,
    include/boost/thread/pthread/mutex.hpp:59-152):
    - the code that a thread runs between acquiring the mutex and releasing it
      (by unlocking, or by waiting on a condition variable) is one atomic
      fragment [frag];
    - [wait] releases the mutex and goes to sleep atomically, and on wake-up the
      thread competes again for the mutex (status [Ready]);
    - [notify_one] wakes one sleeper if there is one, chosen by the scheduler,
      [notify_all] wakes all of them;
    - a sleeper may wake spuriously at any time, and a timed sleeper may reach
      its deadline at any time;
    - a sleeping or just-woken thread may be interrupted (thread::interrupt,
      condition_variable.hpp:64-94: the interruption check is made after the
      wake-up, so a notification may be consumed by an interrupted thread);
    - notifications made after unlocking are separate steps (status [Tail]).

    All nondeterminism is in the label, so that [step] is a function and runs
    can be computed.  Number of threads, length of runs and operation arguments
    are unbounded. *)

From Coq Require Export List Arith Lia Bool.
Export ListNotations.

Set Implicit Arguments.

(** Replace the [i]-th element of a list. *)
Fixpoint upd {A} (l : list A) (i : nat) (x : A) : list A :=
  match l, i with
  | [], _ => []
  | _ :: l', 0 => x :: l'
  | y :: l', S i' => y :: upd l' i' x
  end.

(** A notification: [notify_one] or [notify_all] on a condition variable. *)
Inductive notif (C : Type) := NOne (c : C) | NAll (c : C).

(** What a fragment does when it stops holding the mutex. *)
Inductive outcome (K C R : Type) :=
| ORet (r : R)                         (* unlock and return [r] *)
| OFin (r : R) (ns : list (notif C))   (* unlock, make the notifications, return [r] *)
| OSleep (c : C) (k : K)               (* wait on [c]; continue with [k] when woken *)
| OYield (k : K)                       (* unlock, then lock again and continue with [k] *)
| OUB.                                 (* undefined behaviour *)

Inductive tstat (K Op C L : Type) :=
| Idle (l : L)                                  (* outside any call; [l]: what the thread knows *)
| Ready (l : L) (op : Op) (k : K)               (* inside [op], about to run fragment [k] *)
| Asleep (l : L) (op : Op) (c : C) (k : K)      (* inside [op], sleeping on [c] *)
| Tail (l : L) (ns : list (notif C))            (* mutex released, notifications still to make *)
| Crashed.                                      (* undefined behaviour has been executed *)

Inductive event (Op R : Type) :=
| ECall (t : nat) (op : Op)
| EDone (t : nat) (op : Op) (r : R).

Inductive label (Op E : Type) :=
| LCall (t : nat) (op : Op)
| LRun (t : nat) (picks : list nat) (e : E)
| LSpurious (t : nat)
| LTimeout (t : nat)
| LIntr (t : nat).

Record prog (S K Op R C L E : Type) := MkProg {
  ceqb : C -> C -> bool;
  start : Op -> K;
  frag : nat -> E -> K -> S -> S * list (notif C) * outcome K C R;
  on_timeout : K -> option K;
  on_intr : K -> option K;
  pre : L -> Op -> bool;        (* the caller's obligation *)
  next : L -> Op -> R -> L      (* what the caller knows after the call *)
}.

Record cfg (S K Op R C L : Type) := MkCfg {
  sh : S;
  thr : list (tstat K Op C L);
  hist : list (event Op R)      (* newest first *)
}.

Section Machine.
  Variables S K Op R C L E : Type.
  Variable P : prog S K Op R C L E.

  Notation tst := (tstat K Op C L).
  Notation conf := (cfg S K Op R C L).

  Definition asleep_on (c : C) (x : tst) : bool :=
    match x with Asleep _ _ c' _ => ceqb P c c' | _ => false end.

  Definition wake (x : tst) : tst :=
    match x with Asleep l op _ k => Ready C l op k | _ => x end.

  Definition wake_if (c : C) (x : tst) : tst :=
    if asleep_on c x then wake x else x.

  (** Deliver one notification; [pick] is the scheduler's choice of sleeper. *)
  Definition deliver (n : notif C) (pick : nat) (l : list tst) : option (list tst) :=
    match n with
    | NAll c => Some (map (wake_if c) l)
    | NOne c =>
        if existsb (asleep_on c) l then
          match nth_error l pick with
          | Some x => if asleep_on c x then Some (upd l pick (wake x)) else None
          | None => None
          end
        else Some l
    end.

  Fixpoint deliver_all (ns : list (notif C)) (picks : list nat) (l : list tst)
    : option (list tst) :=
    match ns with
    | [] => Some l
    | n :: ns' =>
        match deliver n (hd 0 picks) l with
        | Some l' => deliver_all ns' (tl picks) l'
        | None => None
        end
    end.

  Definition finish (l : L) (ns : list (notif C)) : tst :=
    match ns with [] => Idle K Op C l | _ => Tail K Op l ns end.

  Definition after (t : nat) (l : L) (op : Op) (o : outcome K C R) (h : list (event Op R))
    : tst * list (event Op R) :=
    match o with
    | ORet _ _ r => (Idle K Op C (next P l op r), EDone t op r :: h)
    | OFin _ r ns => (finish (next P l op r) ns, EDone t op r :: h)
    | OSleep _ c k => (Asleep l op c k, h)
    | OYield _ _ k => (Ready C l op k, h)
    | OUB _ _ _ => (Crashed K Op C L, h)
    end.

  Definition step (c : conf) (lb : label Op E) : option conf :=
    match lb with
    | LCall _ t op =>
        match nth_error (thr c) t with
        | Some (Idle _ _ _ l) =>
            if pre P l op then
              Some (MkCfg (sh c) (upd (thr c) t (Ready C l op (start P op)))
                          (ECall R t op :: hist c))
            else None
        | _ => None
        end
    | LRun _ t picks e =>
        match nth_error (thr c) t with
        | Some (Ready _ l op k) =>
            let '(s', ns, o) := frag P t e k (sh c) in
            match deliver_all ns picks (thr c) with
            | Some thr' =>
                let '(x, h) := after t l op o (hist c) in
                Some (MkCfg s' (upd thr' t x) h)
            | None => None
            end
        | Some (Tail _ _ l (n :: ns)) =>
            match deliver n (hd 0 picks) (thr c) with
            | Some thr' => Some (MkCfg (sh c) (upd thr' t (finish l ns)) (hist c))
            | None => None
            end
        | _ => None
        end
    | LSpurious _ _ t =>
        match nth_error (thr c) t with
        | Some (Asleep l op cv k) =>
            Some (MkCfg (sh c) (upd (thr c) t (Ready C l op k)) (hist c))
        | _ => None
        end
    | LTimeout _ _ t =>
        match nth_error (thr c) t with
        | Some (Asleep l op cv k) =>
            match on_timeout P k with
            | Some k' => Some (MkCfg (sh c) (upd (thr c) t (Ready C l op k')) (hist c))
            | None => None
            end
        | _ => None
        end
    | LIntr _ _ t =>
        match nth_error (thr c) t with
        | Some (Asleep l op _ k) | Some (Ready _ l op k) =>
            match on_intr P k with
            | Some k' => Some (MkCfg (sh c) (upd (thr c) t (Ready C l op k')) (hist c))
            | None => None
            end
        | _ => None
        end
    end.

  Fixpoint run (c : conf) (ls : list (label Op E)) : option conf :=
    match ls with
    | [] => Some c
    | lb :: ls' => match step c lb with Some c' => run c' ls' | None => None end
    end.

  (** [n] threads, all idle, all with local knowledge [l0]. *)
  Definition init (n : nat) (s0 : S) (l0 : L) : conf :=
    MkCfg s0 (repeat (Idle K Op C l0) n) [].

  Definition reachable (n : nat) (s0 : S) (l0 : L) (c : conf) : Prop :=
    exists ls, run (init n s0 l0) ls = Some c.

  (** Nothing can happen any more unless some thread makes a new call, a
      deadline passes or a thread wakes without having been notified. *)
  Definition settled (x : tst) : bool :=
    match x with Idle _ _ _ _ | Asleep _ _ _ _ => true | _ => false end.
  Definition quiescent (c : conf) : Prop := forallb settled (thr c) = true.

End Machine.
