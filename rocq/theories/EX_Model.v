(** * Model of basic_thread_pool and loop_executor

    Source: include/boost/thread/executors/basic_thread_pool.hpp:30-343, executors/loop_executor.hpp:31-204, over
    concurrent_queues/sync_queue.hpp and csbl/devector.hpp (the container is the one of SQ_Model.v).

    The shared state is the work queue, guarded by its mutex, so the executor is a monitor; closures are run with the mutex released.
    Closures are numbered in the order in which submit accepts them.  What a running closure does next is an input ([act]), so
    closures may do anything: go on, end, submit, close, execute other closures (try_executing_one, reschedule_until), or, in an
    interrupted worker, let thread_interrupted escape.
    Simplifications: a closure that throws anything else ends the program (std::terminate) and is not modelled; close() notifies in the same step in which it sets
    the flag; thread::join waits for the worker's function to return; joining threads are not interrupted; the workers of a pool of [W] threads
    are the first [W] threads that call [OWork] (the constructor starts them). *)

From Verif Require Import Monitor SQ_Model.
Set Implicit Arguments.

(** Ghosts: [accepted]: how many closures submit has accepted; [begun], [ended]: the closures begun and ended, newest first.
    [nw]: workers started; [wend]: workers that have returned; [intr]: workers with a pending interruption request. *)
Record ex := MkEx { q : devector nat; cl : bool; accepted : nat; begun : list nat; ended : list nat;
                    nw : nat; wend : list nat; intr : list nat }.
Definition ex0 : ex := MkEx (dv_new nat) false 0 [] [] 0 [] [].

Inductive ecv := CCond | CEnd.
Definition ecv_eqb (a b : ecv) : bool := match a, b with CCond, CCond | CEnd, CEnd => true | _, _ => false end.

Inductive eop :=
| OSubmit | OClose | OClosed | OTry               (* submit, close, closed, try_executing_one *)
| OWork | OJoin | ODestroy                        (* the pool: a worker thread; join; the destructor *)
| OLoop | ORunQueued.                             (* loop_executor: loop, run_queued_closures *)
Inductive eres := ROk | RThrow | RBool (b : bool).

(** who called the outermost closure this thread runs: a worker, try_executing_one, the two loops of loop_executor::loop, run_queued_closures with its local queue *)
Inductive base := BWork (i : nat) | BTry | BLoop1 | BLoop2 | BBatch (d : devector nat).
(** [KNext b]: back in the caller; [KWake b]: woken in wait_pull; [KRun b stk]: running closures, the innermost first *)
Inductive ek := KStart (op : eop) | KNext (b : base) | KWake (b : base) | KRun (b : base) (stk : list nat) | KJoin | KInt (i : nat) | KIntJoin (i : nat).

Inductive act := AStep | AEnd | ASubmit | AClose | ATry | AIntr.

Notation eout := (ex * list (notif ecv) * outcome ek ecv eres)%type.
Notation ret r := (ORet ek ecv r).
Notation yield k := (OYield ecv eres k).

Definition mem (i : nat) (l : list nat) : bool := existsb (Nat.eqb i) l.
Definition set_q (d : devector nat) (s : ex) : ex := MkEx d (cl s) (accepted s) (begun s) (ended s) (nw s) (wend s) (intr s).
Definition set_cl (s : ex) : ex := MkEx (q s) true (accepted s) (begun s) (ended s) (nw s) (wend s) (intr s).
(** push: sync_queue.hpp:92-102 *)
Definition accept (s : ex) : ex := MkEx (dv_push_back (accepted s) (q s)) (cl s) (S (accepted s)) (begun s) (ended s) (nw s) (wend s) (intr s).
Definition begin_ (x : nat) (s : ex) : ex := MkEx (q s) (cl s) (accepted s) (x :: begun s) (ended s) (nw s) (wend s) (intr s).
Definition end_ (x : nat) (s : ex) : ex := MkEx (q s) (cl s) (accepted s) (begun s) (x :: ended s) (nw s) (wend s) (intr s).
Definition new_worker (s : ex) : ex := MkEx (q s) (cl s) (accepted s) (begun s) (ended s) (S (nw s)) (wend s) (intr s).
Definition end_worker (i : nat) (s : ex) : ex := MkEx (q s) (cl s) (accepted s) (begun s) (ended s) (nw s) (i :: wend s) (intr s).
Definition interrupt (i : nat) (s : ex) : ex := MkEx (q s) (cl s) (accepted s) (begun s) (ended s) (nw s) (wend s) (i :: intr s).

Section Prog.
  (** thread_count *)
  Variable W : nat.
  Variable allowed : eop -> bool.

  (** pull the front element and run it: sync_queue.hpp:80-90, then task() *)
  Definition pull_run (b : base) (stk : list nat) (s : ex) : eout :=
    match dv_pull (q s) with
    | Some (x, d) => (begin_ x (set_q d s), [], yield (KRun b (x :: stk)))
    | None => (s, [], OUB ek ecv eres)
    end.
  (** worker_thread returns: its thread ends *)
  Definition worker_ends (i : nat) (s : ex) : eout := (end_worker i s, [NAll CEnd], ret ROk).

  (** the caller of closures goes on *)
  Definition go_on (b : base) (s : ex) : eout :=
    match b with
    (* worker_thread 84-110: wait_pull; wait_until_not_empty_or_closed (sync_queue_base.hpp:188-194) waits only if there is nothing, and waiting is an interruption point *)
    | BWork i =>
        if negb (dv_empty (q s)) then pull_run b [] s
        else if cl s then worker_ends i s
        else if mem i (intr s) then worker_ends i s
        else (s, [], OSleep eres CCond (KWake b))
    (* try_executing_one (53-72): a task has been executed *)
    | BTry => (s, [], ret (RBool true))
    (* loop_executor::loop, while (execute_one(true)) *)
    | BLoop1 =>
        if negb (dv_empty (q s)) then pull_run b [] s
        else if cl s then (s, [], yield (KNext BLoop2)) else (s, [], OSleep eres CCond (KWake b))
    (* while (try_executing_one()) *)
    | BLoop2 => if negb (dv_empty (q s)) then pull_run b [] s else (s, [], ret ROk)
    (* run_queued_closures 193-202, on the local queue *)
    | BBatch d =>
        if dv_empty d then (s, [], ret ROk)
        else match dv_at_front d with Some x => (begin_ x s, [], yield (KRun b [x])) | None => (s, [], OUB ek ecv eres) end
    end.

  Definition efrag (_ : nat) (a : act) (k : ek) (s : ex) : eout :=
    match k with
    (* submit: sync_queue.hpp:241-246; notify_elem_added notifies all *)
    | KStart OSubmit => if cl s then (s, [], ret RThrow) else (accept s, [NAll CCond], ret ROk)
    | KStart OClose => (set_cl s, [NAll CCond], ret ROk)
    | KStart OClosed => (s, [], ret (RBool (cl s)))
    (* basic_thread_pool.hpp:53-72, loop_executor.hpp try_executing_one *)
    | KStart OTry => if negb (dv_empty (q s)) then pull_run BTry [] s else (s, [], ret (RBool false))
    | KStart OWork => if nw s <? W then (new_worker s, [], yield (KNext (BWork (nw s)))) else (s, [], ret ROk)
    | KStart OJoin => (s, [], yield KJoin)
    | KStart ODestroy => (set_cl s, [NAll CCond], yield (KInt 0))
    | KStart OLoop => (s, [], yield (KNext BLoop1))
    (* 195: underlying_queue() moves the container out *)
    | KStart ORunQueued => (set_q (dv_moved (q s)) s, [], yield (KNext (BBatch (dv_copy (q s)))))
    | KNext b => go_on b s
    | KWake b =>
        match b with
        | BWork i => if mem i (intr s) then worker_ends i s else go_on b s
        | _ => go_on b s
        end
    | KRun b [] => (s, [], yield (KNext b))
    | KRun b (x :: stk) =>
        match a with
        | AStep => (s, [], yield k)
        | AEnd =>
            (end_ x s, [], yield (match stk with
                                  | [] => KNext (match b with BBatch d => BBatch (dv_pop_front d) | _ => b end)
                                  | _ => KRun b stk end))
        | ASubmit => if cl s then (s, [], yield k) else (accept s, [NAll CCond], yield k)
        | AClose => (set_cl s, [NAll CCond], yield k)
        | ATry => if negb (dv_empty (q s)) then pull_run b (x :: stk) s else (s, [], yield k)
        (* thread_interrupted leaves the closure; only a worker catches it (105-108), and only from the closure it called itself *)
        | AIntr => match b, stk with
                   | BWork i, [] => if mem i (intr s) then worker_ends i (end_ x s) else (s, [], yield k)
                   | _, _ => (s, [], yield k) end
        end
    (* join 236-243: all the workers *)
    | KJoin => if forallb (fun i => mem i (wend s)) (seq 0 W) then (s, [], ret ROk) else (s, [], OSleep eres CEnd KJoin)
    (* interrupt_and_join 258-265 *)
    | KInt i => if i <? W then (interrupt i s, [NAll CCond], yield (KIntJoin i)) else (s, [], ret ROk)
    | KIntJoin i => if mem i (wend s) then (s, [], yield (KInt (S i))) else (s, [], OSleep eres CEnd (KIntJoin i))
    end.

  Definition exprog : prog ex ek eop eres ecv unit act :=
    MkProg ecv_eqb KStart efrag (fun _ => None) (fun _ => None) (fun _ op => allowed op) (fun l _ _ => l).
End Prog.

(** the operations of the two classes *)
Definition pool_ops (destroy : bool) (op : eop) : bool :=
  match op with OSubmit | OClose | OClosed | OTry | OWork | OJoin => true | ODestroy => destroy | _ => false end.
Definition loop_ops (batch : bool) (op : eop) : bool :=
  match op with OSubmit | OClose | OClosed | OTry | OLoop => true | ORunQueued => batch | _ => false end.
