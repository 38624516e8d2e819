(** * Model of user_scheduler

    Source: include/boost/thread/user_scheduler.hpp: try_executing_one 39-59, schedule_one_or_yield 65-71, worker_thread 77-86, the destructor 105-109, loop 114,
    close 119-122, closed 127-130, submit 145-166, reschedule_until 174-183, run_queued_closures 187-196; over concurrent_queues/sync_queue.hpp (try_pull, push, closed,
    underlying_queue), whose critical sections are single steps, and csbl/devector.hpp (the container of SQ_Model.v).

    Any number of threads; a closure may do whatever it likes: submit, close, call try_executing_one, reschedule_until, loop or run_queued_closures, return, throw.
    Closures are numbered in the order in which submit accepts them.
    Simplifications: memory does not run out; the destructor is only called when no thread is inside a member function. *)
From Verif Require Export SQ_Model.
From Coq Require Export List Arith Lia Bool.
Export ListNotations.
Set Implicit Arguments.

(** What a thread is doing, innermost first: [FLoop1]: in the first loop of worker_thread, about to call closed(); [FBody]: its body; [FLoop2]: in the second loop; [FTry], [FUntil]: in
    try_executing_one, reschedule_until; [FQueued d]: in run_queued_closures, with its local queue; [FRun k]: in closure [k] *)
Inductive frame := FLoop1 | FBody | FLoop2 | FTry | FUntil | FQueued (d : devector nat) | FRun (k : nat).

Inductive event :=
| EAccept (k : nat) | EReject | EClose | EDestroyed
| EStart (t k : nat) | EEnd (t k : nat) (threw : bool)
| ELoopEnd (t : nat)                      (* loop returns *)
| ETry (t : nat) (r : bool)               (* try_executing_one returns r *)
| EUntil (t : nat) (r : bool)             (* reschedule_until returns r *)
| EQueued (t : nat).                      (* run_queued_closures returns *)

(** [ub]: undefined behaviour has occurred *)
Record us := MkU { q : devector nat; cl : bool; acc : nat; ths : list (list frame); dead : bool; ub : bool; hist : list event }.
Definition us0 (n : nat) : us := MkU (dv_new nat) false 0 (repeat [] n) false false [].

Fixpoint upd {A} (l : list A) (i : nat) (x : A) : list A :=
  match l, i with
  | [], _ => []
  | _ :: l', 0 => x :: l'
  | y :: l', S i' => y :: upd l' i' x
  end.
Definition say (s : us) (e : event) : us := MkU (q s) (cl s) (acc s) (ths s) (dead s) (ub s) (e :: hist s).
Definition set_th (s : us) (t : nat) (fs : list frame) : us := MkU (q s) (cl s) (acc s) (upd (ths s) t fs) (dead s) (ub s) (hist s).
Definition set_q (s : us) (d : devector nat) : us := MkU d (cl s) (acc s) (ths s) (dead s) (ub s) (hist s).
Definition crash (s : us) : us := MkU (q s) (cl s) (acc s) (ths s) (dead s) true (hist s).

(** 44-47: work_queue.try_pull(task), then task() *)
Definition pull_run (s : us) (t : nat) (below : list frame) : us :=
  match dv_pull (q s) with
  | Some (k, d) => say (set_th (set_q s d) t (FRun k :: below)) (EStart t k)
  | None => crash s
  end.

(** calls of member functions: 145-166 (push throws when the queue is closed), 119-122, 39, 174, 114, 187 *)
Inductive op := OSubmit | OClose | OTry | OUntil | OLoop | OQueued.
Definition call (s : us) (t : nat) (fs : list frame) (o : op) : us :=
  match o with
  | OSubmit => if cl s then say s EReject
               else say (MkU (dv_push_back (acc s) (q s)) (cl s) (S (acc s)) (ths s) (dead s) (ub s) (hist s)) (EAccept (acc s))
  | OClose => say (MkU (q s) true (acc s) (ths s) (dead s) (ub s) (hist s)) EClose
  | OTry => set_th s t (FTry :: fs)
  | OUntil => set_th s t (FUntil :: fs)
  | OLoop => set_th s t (FLoop1 :: fs)
  (* 189: underlying_queue() moves the container out *)
  | OQueued => set_th (set_q s (dv_moved (q s))) t (FQueued (dv_copy (q s)) :: fs)
  end.

(** thread t goes on inside a member function: 77-86, 44-50, 174-183 (its first iteration), 190-196 *)
Definition go (s : us) (t : nat) (fs : list frame) : option us :=
  match fs with
  | FLoop1 :: r => Some (set_th s t ((if cl s then FLoop2 else FBody) :: r))
  | FBody :: r => Some (if dv_empty (q s) then set_th s t (FLoop1 :: r) else pull_run s t (FLoop1 :: r))
  | FLoop2 :: r => Some (if dv_empty (q s) then say (set_th s t r) (ELoopEnd t) else pull_run s t (FLoop2 :: r))
  | FTry :: r => Some (if dv_empty (q s) then say (set_th s t r) (ETry t false) else pull_run s t (FTry :: r))
  | FUntil :: r => Some (if dv_empty (q s) then say (set_th s t r) (EUntil t false) else pull_run s t (FUntil :: r))
  (* 190-195: while (q.empty()) { work task = q.front(); ... } *)
  | FQueued d :: r => Some (if dv_empty d then crash s else say (set_th s t r) (EQueued t))
  | _ => None
  end.

(** closure k returns or throws: 47-58 (whatever it throws is caught and try_executing_one returns false), then what the caller of try_executing_one does: 67, 83, 177-182;
    [p]: what pred() says *)
Definition finish (s : us) (t k : nat) (threw p : bool) (below : list frame) : us :=
  let s1 := say s (EEnd t k threw) in
  match below with
  | FLoop2 :: r => if threw then say (set_th s1 t r) (ELoopEnd t) else set_th s1 t below
  | FTry :: r => say (set_th s1 t r) (ETry t (negb threw))
  | FUntil :: r => if threw then say (set_th s1 t r) (EUntil t false) else if p then say (set_th s1 t r) (EUntil t true) else set_th s1 t below
  | _ => set_th s1 t below
  end.

(** [LDestroy]: the destructor, 105-109 *)
Inductive label := LCall (t : nat) (o : op) | LGo (t : nat) | LEnd (t : nat) (threw p : bool) | LDestroy.
Definition idle (fs : list frame) : bool := match fs with [] => true | _ => false end.

Section Exec.
  Variable allowed : op -> bool.
  Definition exec (s : us) (l : label) : option us :=
    if ub s || dead s then None else
    match l with
    | LCall t o =>
        if allowed o then
          match nth_error (ths s) t with
          | Some [] => Some (call s t [] o)
          | Some (FRun k :: r) => Some (call s t (FRun k :: r) o)
          | _ => None
          end
        else None
    | LGo t => match nth_error (ths s) t with Some fs => go s t fs | None => None end
    | LEnd t threw p =>
        match nth_error (ths s) t with Some (FRun k :: r) => Some (finish s t k threw p r) | _ => None end
    | LDestroy => if forallb idle (ths s) then Some (MkU (q s) true (acc s) (ths s) true (ub s) (EDestroyed :: hist s)) else None
    end.
  Fixpoint runl (s : us) (ls : list label) : option us :=
    match ls with
    | [] => Some s
    | l :: ls' => match exec s l with Some s' => runl s' ls' | None => None end
    end.
  Definition reach (n : nat) (s : us) : Prop := exists ls, runl (us0 n) ls = Some s.
End Exec.
Definition all_ops (o : op) : bool := true.
Definition no_queued (o : op) : bool := match o with OQueued => false | _ => true end.
