(** * Model of the scheduled executors

    Source: include/boost/thread/executors/detail/priority_executor_base.hpp:24-80 and detail/scheduled_executor_base.hpp:29-64, the base of
    scheduler.hpp, scheduled_thread_pool.hpp and scheduling_adaptor.hpp, over sync_timed_queue (TQ_Model.v).

    Any number of threads call loop() (the classes start such threads), submit_at, submit_after, close and closed.  What a running task does is an input:
    go on, end, submit, close, or let thread_interrupted escape.  Sleeping threads may be interrupted at any time (the destructors interrupt the
    threads that loop).
    Simplifications: tasks are moved without throwing; a task that throws anything else ends the program (std::terminate, 70-74) and is not modelled. *)
From Verif Require Import Monitor SQ_Model TQ_Model.
Set Implicit Arguments.

Section SC.
  Variable V : Type.
  Variables push_heap pop_heap : list (V * Z) -> list (V * Z).
  Variable steady : bool.
  Variable poll : Z.

  (** Ghosts: [s_acc]: what was accepted, with its time; [s_start]: what was started, with the clock reading at which it was taken; [s_end]: what has ended.  Newest first. *)
  Record sc := MkSC { s_q : tq V; s_acc : list (V * Z); s_start : list (V * Z * Z); s_end : list (V * Z) }.
  Definition sc_new (now : Z) : sc := MkSC (tq_new V now) [] [] [].

  Inductive sop := SSubmitAt (x : V) (tp : Z) | SSubmitAfter (x : V) (d : Z) | SClose | SClosed | SLoop.
  Inductive sres := SVoid | SThrowClosed | SBool (b : bool).
  (** [SkQ k]: loop() is in wait_pull; [SkRun e]: it is running task [e]; [SkTell r]: close() has set the flag and is about to notify, [r] what goes on afterwards. *)
  Inductive sk := SkGo (op : sop) | SkPush (x : V) (due : Z) | SkQ (k : tk V) | SkRun (e : V * Z) | SkTell (e : option (V * Z)).

  Inductive act := AStep | AEnd | AIntr | AClose | ASubmit (x : V) (tp : Z).

  Notation sout := (sc * list (notif scv) * outcome sk scv sres)%type.
  Notation ret r := (ORet sk scv r).
  Notation yield k := (OYield scv sres k).

  (** sync_timed_queue::push (188-214) *)
  Definition s_push (x : V) (due : Z) (s : sc) (ok bad : outcome sk scv sres) : sout :=
    if t_closed (s_q s) then (s, [], bad)
    else (MkSC (MkTQ (pq_push push_heap (x, due) (t_data (s_q s))) false (t_now (s_q s))) ((x, due) :: s_acc s) (s_start s) (s_end s), [NAll Cond], ok).
  Definition s_close (s : sc) (k : sk) : sout :=
    (MkSC (MkTQ (t_data (s_q s)) true (t_now (s_q s))) (s_acc s) (s_start s) (s_end s), [], yield k).
  Definition ended_task (e : V * Z) (s : sc) : sc := MkSC (s_q s) (s_acc s) (s_start s) (e :: s_end s).

  (** loop 52-76: what wait_pull did; a task that was pulled is called *)
  Definition s_wait (e : list Z) (k : tk V) (s : sc) : sout :=
    let '(q', ns, o) := tfrag push_heap pop_heap steady poll 0 (false, e) k (s_q s) in
    match o with
    | ORet _ _ (TGot x) => (MkSC q' (s_acc s) ((x, t_now q') :: s_start s) (s_end s), ns, yield (SkRun x))
    | ORet _ _ _ => (MkSC q' (s_acc s) (s_start s) (s_end s), ns, ret SVoid)
    | OSleep _ c k' => (MkSC q' (s_acc s) (s_start s) (s_end s), ns, OSleep sres c (SkQ k'))
    | _ => (MkSC q' (s_acc s) (s_start s) (s_end s), ns, OUB sk scv sres)
    end.

  Definition sfrag (_ : nat) (a : act * list Z) (k : sk) (s : sc) : sout :=
    match k with
    (* scheduled_executor_base.hpp:49-52 *)
    | SkGo (SSubmitAt x tp) => (s, [], yield (SkPush x tp))
    (* 54-57: dura + clock::now(), read before the queue's mutex is taken *)
    | SkGo (SSubmitAfter x d) =>
        let '(now, q', _) := read_clock steady (s_q s) (snd a) in (MkSC q' (s_acc s) (s_start s) (s_end s), [], yield (SkPush x (now + d)%Z))
    | SkPush x due => s_push x due s (ret SVoid) (ret SThrowClosed)
    (* priority_executor_base.hpp:42-50 *)
    | SkGo SClose => s_close s (SkTell None)
    | SkGo SClosed => (s, [], ret (SBool (t_closed (s_q s))))
    | SkGo SLoop => (s, [], yield (SkQ (TkGo TWaitPull)))
    | SkTell None => (s, [NAll Cond], ret SVoid)
    | SkTell (Some e) => (s, [NAll Cond], yield (SkRun e))
    | SkQ k => s_wait (snd a) k s
    | SkRun e =>
        match fst a with
        | AStep => (s, [], yield k)
        | AEnd => (ended_task e s, [], yield (SkQ (TkGo TWaitPull)))
        | AIntr => (ended_task e s, [], ret SVoid)                               (* 65-68 *)
        | AClose => s_close s (SkTell (Some e))
        | ASubmit x tp => s_push x tp s (yield k) (yield k)
        end
    end.

  Definition s_on_timeout (k : sk) : option sk := match k with SkQ k => option_map SkQ (t_on_timeout k) | _ => None end.
  Definition s_on_intr (k : sk) : option sk := match k with SkQ k => option_map SkQ (t_on_intr k) | _ => None end.
  Definition scprog : prog sc sk sop sres scv unit (act * list Z) :=
    MkProg scv_eqb SkGo sfrag s_on_timeout s_on_intr (fun _ _ => true) (fun l _ _ => l).
End SC.
Arguments SClose {V}. Arguments SClosed {V}. Arguments SLoop {V}.
Arguments AStep {V}. Arguments AEnd {V}. Arguments AIntr {V}. Arguments AClose {V}. Arguments SkGo {V} _. Arguments SkTell {V} _.
