(** * Model of thread_executor and inline_executor

    Sources: include/boost/thread/executors/thread_executor.hpp:33-148, include/boost/thread/executors/inline_executor.hpp:28-165,
    include/boost/thread/scoped_thread.hpp:178-190 (the destructor of scoped_thread joins).

    A closure is a list of commands: it submits further closures to the executor that runs it, closes it, asks whether it is closed, or throws.
    Any number of user threads do the same.  The destructor of the executor is called when no user thread uses it any more (the rule for every object);
    closures may still be running then: the documentation says that the destructor waits for them.
    [ub]: the mutex of the executor has been used after its destruction; [term]: std::terminate has been called.
    Simplifications: a critical section of the executor's mutex is one step (the thread is created inside it); no failure of thread creation or allocation;
    everything else that closures do is invisible; user threads handle the exceptions of submit. *)
From Coq Require Export List Arith Lia Bool.
Export ListNotations.
Set Implicit Arguments.

Inductive cmd :=
| Submit (k : list cmd) (catch : bool)   (* ex.submit(k), inside a try block if [catch] *)
| Close | Query
| Throw.                                 (* an exception leaves the closure; no effect in a user thread *)

Inductive who := User (i : nat) | Worker (i : nat) | Dtor.
Inductive event :=
| EAccept (w : who) (i : nat)            (* submit of closure number [i] returns *)
| ERefuse (w : who)                      (* submit throws sync_queue_is_closed *)
| EClose (w : who)                       (* close returns *)
| EQuery (w : who) (b : bool)            (* closed() returns [b] *)
| EEnd (i : nat)                         (* closure [i] has returned *)
| EGone.                                 (* the destructor of the executor returns *)

Fixpoint upd (A : Type) (l : list A) (i : nat) (x : A) : list A :=
  match l, i with [], _ => [] | _ :: r, 0 => x :: r | y :: r, S j => y :: upd r j x end.

(** ** thread_executor *)
(** The destructor: not called; about to destroy mtx_, which is declared last (43-45) and hence destroyed first; destroying element [k] of threads_; returned. *)
Inductive phase := Alive | Closing | Joining (k : nat) | Gone.
Inductive wst := Running (r : list cmd) | Ended.
Record cfg := MkX { closed : bool; ph : phase; users : list (list cmd); workers : list wst; ub : bool; term : bool; hist : list event }.
Definition init (us : list (list cmd)) : cfg := MkX false Alive us [] false false [].

Definition mutex_gone (p : phase) : bool := match p with Joining _ | Gone => true | _ => false end.

(** One command of thread [w] with the closure's remaining commands put back by [put]. *)
Definition do_cmd (w : who) (is_user : bool) (c : cmd) (put : cfg -> cfg) (s : cfg) : cfg :=
  match c with
  | Throw => if is_user then put s else MkX (closed s) (ph s) (users s) (workers s) (ub s) true (hist s)
  | _ =>
      if mutex_gone (ph s) then MkX (closed s) (ph s) (users s) (workers s) true (term s) (hist s)
      else match c with
      (* submit 124-141 *)
      | Submit k ct =>
          if closed s then
            if is_user || ct then put (MkX (closed s) (ph s) (users s) (workers s) (ub s) (term s) (ERefuse w :: hist s))
            else MkX (closed s) (ph s) (users s) (workers s) (ub s) true (ERefuse w :: hist s)
          else put (MkX (closed s) (ph s) (users s) (workers s ++ [Running k]) (ub s) (term s) (EAccept w (length (workers s)) :: hist s))
      (* 85-89, 94-102 *)
      | Close => put (MkX true (ph s) (users s) (workers s) (ub s) (term s) (EClose w :: hist s))
      | _ => put (MkX (closed s) (ph s) (users s) (workers s) (ub s) (term s) (EQuery w (closed s) :: hist s))
      end
  end.
Definition put_user (i : nat) (r : list cmd) (s : cfg) : cfg := MkX (closed s) (ph s) (upd (users s) i r) (workers s) (ub s) (term s) (hist s).
Definition put_worker (i : nat) (r : wst) (s : cfg) : cfg := MkX (closed s) (ph s) (users s) (upd (workers s) i r) (ub s) (term s) (hist s).
Definition all_done (us : list (list cmd)) : bool := forallb (fun u => match u with [] => true | _ => false end) us.

Inductive label := LUser (i : nat) | LWorker (i : nat) | LDtor.
Definition step (s : cfg) (l : label) : option cfg :=
  if ub s || term s then None else
  match l with
  | LUser i =>
      match nth_error (users s) i with
      | Some (c :: r) => Some (do_cmd (User i) true c (put_user i r) s)
      | _ => None
      end
  | LWorker i =>
      match nth_error (workers s) i with
      | Some (Running (c :: r)) => Some (do_cmd (Worker i) false c (put_worker i (Running r)) s)
      | Some (Running []) => Some (MkX (closed s) (ph s) (users s) (upd (workers s) i Ended) (ub s) (term s) (EEnd i :: hist s))
      | _ => None
      end
  | LDtor =>
      match ph s with
      (* 74-79 *)
      | Alive => if all_done (users s) then Some (MkX true Closing (users s) (workers s) (ub s) (term s) (EClose Dtor :: hist s)) else None
      (* the members, in reverse order of declaration *)
      | Closing => Some (MkX (closed s) (Joining 0) (users s) (workers s) (ub s) (term s) (hist s))
      | Joining k =>
          match nth_error (workers s) k with
          | None => Some (MkX (closed s) Gone (users s) (workers s) (ub s) (term s) (EGone :: hist s))
          | Some Ended => Some (MkX (closed s) (Joining (S k)) (users s) (workers s) (ub s) (term s) (hist s))
          | Some (Running _) => None
          end
      | Gone => None
      end
  end.
Inductive reach (us : list (list cmd)) : cfg -> Prop :=
| reach_init : reach us (init us)
| reach_step s l s' : reach us s -> step s l = Some s' -> reach us s'.

(** ** inline_executor
    Every closure runs on the thread that submits it; a thread has a stack of closures.  The check of [closed_] under the mutex and the call of the closure are
    two steps.  A closure gets its number when it begins. *)
Inductive ievent :=
| IAccept (t : nat)                        (* submit has found the executor open *)
| IBegin (t i : nat) | IEnd (t i : nat)    (* closure [i] begins and returns on thread [t]; with [IEnd], submit returns *)
| IRefuse (t : nat) | IClose (t : nat) | IQuery (t : nat) (b : bool).
(** [about]: the closure is about to be called; [stack]: innermost first, the last element is the thread itself ([None]) *)
Record ithr := MkT { about : option (list cmd); stack : list (option nat * list cmd) }.
Record icfg := MkI { iclosed : bool; ithrs : list ithr; inext : nat; iterm : bool; ihist : list ievent }.
Definition iinit (us : list (list cmd)) : icfg := MkI false (map (fun u => MkT None [(None, u)]) us) 0 false [].

(** one step of thread [t] *)
Definition istep (s : icfg) (t : nat) : option icfg :=
  let set x ev := Some (MkI (iclosed s) (upd (ithrs s) t x) (inext s) (iterm s) (ev ++ ihist s)) in
  if iterm s then None else
  match nth_error (ithrs s) t with
  | None => None
  (* closure(); *)
  | Some (MkT (Some k) st) => Some (MkI (iclosed s) (upd (ithrs s) t (MkT None ((Some (inext s), k) :: st))) (S (inext s)) (iterm s) (IBegin t (inext s) :: ihist s))
  | Some (MkT None st) =>
      match st with
      | [] => None
      | (Some i, []) :: st' => set (MkT None st') [IEnd t i]
      | (None, []) :: _ => None
      | (o, c :: r) :: st' =>
          match c with
          (* submit 106-151 *)
          | Submit k ct =>
              if iclosed s then
                if ct || match o with None => true | Some _ => false end then set (MkT None ((o, r) :: st')) [IRefuse t]
                else Some (MkI (iclosed s) (ithrs s) (inext s) true (IRefuse t :: ihist s))
              else set (MkT (Some k) ((o, r) :: st')) [IAccept t]
          (* 75-79, 84-92 *)
          | Close => Some (MkI true (upd (ithrs s) t (MkT None ((o, r) :: st'))) (inext s) (iterm s) (IClose t :: ihist s))
          | Query => set (MkT None ((o, r) :: st')) [IQuery t (iclosed s)]
          (* catch (...) { std::terminate(); } *)
          | Throw => match o with
                     | None => set (MkT None ((o, r) :: st')) []
                     | Some _ => Some (MkI (iclosed s) (ithrs s) (inext s) true (ihist s))
                     end
          end
      end
  end.
Inductive ireach (us : list (list cmd)) : icfg -> Prop :=
| ireach_init : ireach us (iinit us)
| ireach_step s t s' : ireach us s -> istep s t = Some s' -> ireach us s'.
