(** * Model of scheduler, its executors, scheduled_thread_pool and scheduling_adaptor

    Modelled: include/boost/thread/executors/scheduler.hpp (resubmitter 28-46, resubmit_at_executor 58-109, at_executor 164-210, scheduler 215-255),
    scheduled_thread_pool.hpp 25-45, scheduling_adaptor.hpp 26-55, with loop of detail/priority_executor_base.hpp 52-76.

    Simplifications: the queue of the scheduler (sync_timed_queue) is what TQ_Model.v and SC_Model.v show of it: a collection from which a least element is taken when it is due,
    each operation one step; a thread that is woken for nothing goes on sleeping.  The executor below is a flag and the list of what was submitted to it; its submit throws when it is closed
    and has no other effect.  Closures may call anything: the calls of a closure are those of a client.  The clock is steady.  at_executor::is_closed is read and written in one step.
    Clients do not use a scheduler after its destructor has returned. *)
From Coq Require Export List ZArith Lia Bool Arith.
Export ListNotations.
Set Implicit Arguments.

(** A closure: its number (in order of acceptance), its time, and the executor it is to be submitted to, if any *)
Record item := It { iid : nat; due : Z; on : option nat }.

(** A thread in loop(): about to look into the queue; asleep in wait_pull; about to call the work it pulled; inside a closure of the user; ended *)
Inductive wst := WPoll | WSleep | WCall (x : item) | WIn (x : item) | WGone.
Record wk := Wk { ws : wst; flag : bool }.      (* [flag]: an interruption is requested *)

(** at_executor ([won] = None) and resubmit_at_executor *)
Record wrap := Wr { won : option nat; wtp : Z; wcl : bool }.
Record exr := Ex { xcl : bool; xgot : list nat }.

(** A client inside submit: closed() of the wrapper evaluated as far as sch.closed() and ex.closed(); sch.submit_at; inside the destructor: close; interrupt worker k; join *)
Inductive pc := PIdle | PSch (w : nat) | PEx (w : nat) | PPush (it : Z * option nat) | PClose | PIntr (k : nat) | PJoin.

Inductive event :=
| ESub (i : nat) (d : Z) (k : option nat)    (* submit returned normally: closure i, for time d, to be run on the scheduler's thread or to be submitted to an executor *)
| ERej                                       (* submit threw sync_queue_is_closed *)
| ERun (i : nat) (c : Z)                     (* closure i is called by a thread of the scheduler, at c *)
| EResub (i e : nat) (c : Z)                 (* closure i is submitted to executor e, at c *)
| EEnd (i : nat)                             (* closure i returned *)
| EEscape (i : nat)                          (* thread_interrupted left closure i *)
| EThrown                                    (* thread_interrupted was thrown in wait_pull *)
| ETerm (i : nat)                            (* std::terminate, because of closure i *)
| EThrew (i : nat)                           (* closure i let another exception out *)
| ECloseE (e : nat)                          (* executor e is closed *)
| EWClose                                    (* a wrapper is closed *)
| EClose (c : Z)                             (* the scheduler is closed, at c *)
| EDestroy (c : Z)                           (* its destructor is called *)
| EDestroyed.                                (* and has returned *)

Record sys := Sys { now : Z; closed : bool; pend : list item; next : nat; wks : list wk; exs : list exr; wraps : list wrap; cls : list pc; dead : bool; hist : list event }.

Section Modify.
Variable A : Type.
Fixpoint modify (l : list A) (t : nat) (f : A -> A) : list A :=
  match l, t with
  | [], _ => []
  | y :: l', O => f y :: l'
  | y :: l', S t' => y :: modify l' t' f
  end.
Fixpoint remove_nth (l : list A) (t : nat) : list A :=
  match l, t with
  | [], _ => []
  | _ :: l', O => l'
  | y :: l', S t' => y :: remove_nth l' t'
  end.
End Modify.

Definition is_due (s : sys) : bool := existsb (fun x => due x <=? now s)%Z (pend s).
Definition set_w (s : sys) (k : nat) (x : wk) (e : list event) : sys :=
  Sys (now s) (closed s) (pend s) (next s) (modify (wks s) k (fun _ => x)) (exs s) (wraps s) (cls s) (dead s) (e ++ hist s).
Definition set_c (s : sys) (t : nat) (p : pc) (e : list event) : sys :=
  Sys (now s) (closed s) (pend s) (next s) (wks s) (exs s) (wraps s) (modify (cls s) t (fun _ => p)) (dead s) (e ++ hist s).

(** ** A thread in loop() 52-76 *)
(** wait_pull takes element j: it is due and none is due earlier *)
Definition pull (s : sys) (k j : nat) (x : wk) : option sys :=
  match ws x, nth_error (pend s) j with
  | WPoll, Some it =>
      if (due it <=? now s)%Z && forallb (fun y => due it <=? due y)%Z (pend s)
      then Some (Sys (now s) (closed s) (remove_nth (pend s) j) (next s) (modify (wks s) k (fun _ => Wk (WCall it) (flag x))) (exs s) (wraps s) (cls s) (dead s) (hist s))
      else None
  | _, _ => None
  end.
Definition wrun (s : sys) (k : nat) (x : wk) : option sys :=
  match ws x with
  (* nothing is due: closed (61), or wait, which is an interruption point *)
  | WPoll => if is_due s then None
             else if closed s then Some (set_w s k (Wk WGone (flag x)) [])
             else if flag x then Some (set_w s k (Wk WGone false) [EThrown])          (* 64-67 *)
             else Some (set_w s k (Wk WSleep false) [])
  | WSleep => if flag x then Some (set_w s k (Wk WGone false) [EThrown])
              else if is_due s || closed s then Some (set_w s k (Wk WPoll false) []) else None
  (* task() 62: a closure, or resubmitter::operator() (scheduler.hpp 38-41) *)
  | WCall it =>
      match on it with
      | None => Some (set_w s k (Wk (WIn it) (flag x)) [ERun (iid it) (now s)])
      | Some e =>
          match nth_error (exs s) e with
          | Some y =>
              if xcl y
              then Some (Sys (now s) (closed s) (pend s) (next s) (wks s) (exs s) (wraps s) (cls s) true (ETerm (iid it) :: hist s))    (* 70-74 *)
              else Some (Sys (now s) (closed s) (pend s) (next s) (modify (wks s) k (fun _ => Wk WPoll (flag x)))
                           (modify (exs s) e (fun y => Ex (xcl y) (xgot y ++ [iid it]))) (wraps s) (cls s) (dead s) (EResub (iid it) e (now s) :: hist s))
          | None => None
          end
      end
  | WIn _ | WGone => None
  end.
(** What a closure does: it returns; it lets an exception out; it is at an interruption point, and deals with the exception or lets it out *)
Inductive act := AEnd | AThrow | APoint (swallow : bool).
Definition wact (s : sys) (k : nat) (x : wk) (a : act) : option sys :=
  match ws x with
  | WIn it =>
      match a with
      | AEnd => Some (set_w s k (Wk WPoll (flag x)) [EEnd (iid it)])
      | AThrow => Some (Sys (now s) (closed s) (pend s) (next s) (wks s) (exs s) (wraps s) (cls s) true (ETerm (iid it) :: EThrew (iid it) :: hist s))
      | APoint b => if flag x then Some (set_w s k (Wk (if b then WIn it else WGone) false) (if b then [] else [EEscape (iid it)])) else None
      end
  | _ => None
  end.

(** ** The clients *)
Inductive op :=
| OAt (tp : Z) | OOn (e : nat) (tp : Z)      (* scheduler::at 245-248, after 240-243 (tp = now + d), on(ex).at 147-150 *)
| OSubmitAt (tp : Z)                         (* submit_at, submit_after of the base: the closure itself *)
| OSubmit (w : nat)                          (* submit of a wrapper *)
| OCloseW (w : nat) | OClose | OCloseE (e : nat)
| ODestroy.

Definition started (h : list event) : bool := existsb (fun e => match e with EDestroy _ => true | _ => false end) h.
Definition call (s : sys) (t : nat) (o : op) : option sys :=
  match o with
  | OAt tp => Some (Sys (now s) (closed s) (pend s) (next s) (wks s) (exs s) (wraps s ++ [Wr None tp false]) (cls s) (dead s) (hist s))
  | OOn e tp => if e <? length (exs s) then Some (Sys (now s) (closed s) (pend s) (next s) (wks s) (exs s) (wraps s ++ [Wr (Some e) tp false]) (cls s) (dead s) (hist s)) else None
  | OSubmitAt tp => Some (set_c s t (PPush (tp, None)) [])
  | OSubmit w =>
      match nth_error (wraps s) w with
      | Some y => if wcl y then Some (set_c s t PIdle [ERej]) else Some (set_c s t (PSch w) [])
      | None => None
      end
  | OCloseW w => Some (Sys (now s) (closed s) (pend s) (next s) (wks s) (exs s) (modify (wraps s) w (fun y => Wr (won y) (wtp y) true)) (cls s) (dead s) (EWClose :: hist s))
  | OClose => Some (Sys (now s) true (pend s) (next s) (wks s) (exs s) (wraps s) (cls s) (dead s) (EClose (now s) :: hist s))
  | OCloseE e => Some (Sys (now s) (closed s) (pend s) (next s) (wks s) (modify (exs s) e (fun y => Ex true (xgot y))) (wraps s) (cls s) (dead s) (ECloseE e :: hist s))
  | ODestroy => if started (hist s) then None else Some (set_c s t PClose [EDestroy (now s)])
  end.
Definition gone (x : wk) : bool := match ws x with WGone => true | _ => false end.
Definition crun (s : sys) (t : nat) (p : pc) : option sys :=
  match p with
  | PIdle => None
  (* closed() 96-99, 187-190: the wrapper's own flag was read in the call *)
  | PSch w =>
      match nth_error (wraps s) w with
      | Some y => if closed s then Some (set_c s t PIdle [ERej])
                  else match won y with None => Some (set_c s t (PPush (wtp y, None)) []) | Some _ => Some (set_c s t (PEx w) []) end
      | None => None
      end
  | PEx w =>
      match nth_error (wraps s) w with
      | Some y => match won y with
                  | Some e => match nth_error (exs s) e with
                              | Some z => if xcl z then Some (set_c s t PIdle [ERej]) else Some (set_c s t (PPush (wtp y, Some e)) [])
                              | None => None
                              end
                  | None => None
                  end
      | None => None
      end
  (* submit_at: push throws when the queue is closed *)
  | PPush (d, k) =>
      if closed s then Some (set_c s t PIdle [ERej])
      else Some (Sys (now s) (closed s) (pend s ++ [It (next s) d k]) (S (next s)) (wks s) (exs s) (wraps s) (modify (cls s) t (fun _ => PIdle)) (dead s) (ESub (next s) d k :: hist s))
  (* ~scheduler 226-231, ~scheduled_thread_pool, ~scheduling_adaptor: close, interrupt (all), join (all) *)
  | PClose => Some (Sys (now s) true (pend s) (next s) (wks s) (exs s) (wraps s) (modify (cls s) t (fun _ => PIntr 0)) (dead s) (EClose (now s) :: hist s))
  | PIntr k =>
      if k <? length (wks s)
      then Some (Sys (now s) (closed s) (pend s) (next s) (modify (wks s) k (fun x => Wk (ws x) (negb (gone x)))) (exs s) (wraps s) (modify (cls s) t (fun _ => PIntr (S k))) (dead s) (hist s))
      else Some (set_c s t PJoin [])
  | PJoin => if forallb gone (wks s) then Some (set_c s t PIdle [EDestroyed]) else None
  end.

Inductive label := LCall (t : nat) (o : op) | LClient (t : nat) | LPull (k j : nat) | LWork (k : nat) | LAct (k : nat) (a : act) | LTick (d : nat).
Definition exec (s : sys) (l : label) : option sys :=
  if dead s then None else
  match l with
  | LCall t o => match nth_error (cls s) t with Some PIdle => call s t o | _ => None end
  | LClient t => match nth_error (cls s) t with Some p => crun s t p | None => None end
  | LPull k j => match nth_error (wks s) k with Some x => pull s k j x | None => None end
  | LWork k => match nth_error (wks s) k with Some x => wrun s k x | None => None end
  | LAct k a => match nth_error (wks s) k with Some x => wact s k x a | None => None end
  | LTick d => Some (Sys (now s + Z.of_nat d) (closed s) (pend s) (next s) (wks s) (exs s) (wraps s) (cls s) (dead s) (hist s))
  end.

(** [n] threads (1 for scheduler and scheduling_adaptor), [m] executors, [c] clients, the clock reads [z] *)
Definition init (n m c : nat) (z : Z) : sys := Sys z false [] 0 (repeat (Wk WPoll false) n) (repeat (Ex false []) m) [] (repeat PIdle c) false [].
Inductive reach (n m c : nat) (z : Z) : sys -> Prop :=
| r_init : reach n m c z (init n m c z)
| r_step s l s' : reach n m c z s -> exec s l = Some s' -> reach n m c z s'.

(** scheduling_adaptor over executor 0: its clients call submit_at and submit_after (scheduled_executor_base.hpp 49-57), close and the destructor; there are no other classes *)
Definition adaptor_op (o : op) : Prop := match o with OSubmitAt _ | OClose | ODestroy | OCloseE _ => True | _ => False end.
Inductive reach_adaptor (c : nat) (z : Z) : sys -> Prop :=
| ra_init : reach_adaptor c z (init 1 1 c z)
| ra_step s l s' : reach_adaptor c z s -> (forall t o, l = LCall t o -> adaptor_op o) -> exec s l = Some s' -> reach_adaptor c z s'.

Fixpoint runl (s : sys) (ls : list label) : option sys :=
  match ls with
  | [] => Some s
  | l :: ls' => match exec s l with Some s' => runl s' ls' | None => None end
  end.
