(** * Model of joining and detaching a thread, and of the end of a thread

    Sources: src/pthread/thread.cpp: thread_proxy 168-202, ~thread_data_base 49-64, join_noexcept 315-361,
    do_try_join_until_noexcept 363-415, joinable 417-420, detach 423-438; include/boost/thread/detail/thread.hpp
    join / try_join_until (which throw invalid_argument when the functions above return false).

    One boost::thread object shared by any number of threads, and the thread it represents.
    Simplifications: reading, swapping and resetting the object's [thread_info] shared_ptr are atomic here (in the code they are not
    synchronised, so concurrent calls on one object are formally a data race); the check for joining oneself, made before
    any of this, is left out (the represented thread does not call join on itself); the thread function and the exit handlers are one step each;
    a timed join may time out at any moment while it waits. *)

From Verif Require Import Monitor.
Set Implicit Arguments.

(** The fields of thread_data_base used here, and ghosts:
    [ph]: how far the represented thread is: 0 not started, 1 running its function, 2 function ended, 3 exit handlers
    run, 4 done set, 5 its own reference to the data dropped, 6 terminated for the operating system;
    [osn]: how many times pthread_join or pthread_detach has been called on the thread;
    [obj]: the boost::thread object holds thread_info; [refs]: shared_ptr references to the data;
    [fired]: how often ~thread_data_base has run (it unlocks the mutexes and notifies the condition variables given to
    notify_all_at_thread_exit, and makes the *_at_thread_exit futures ready); [fown]: run by the represented thread. *)
Record jst := MkJ { ph : nat; dn : bool; js : bool; jd : bool; osn : nat; obj : bool; refs : nat; fired : nat; fown : bool }.
(** start_thread_noexcept 260-270: the object and [self] (taken over by the new thread) refer to the data *)
Definition jinit : jst := MkJ 0 false false false 0 true 2 0 false.

Inductive jcv := CDone | COs.                     (* done_condition; the wait inside pthread_join *)
Definition jcv_eqb (a b : jcv) : bool := match a, b with CDone, CDone | COs, COs => true | _, _ => false end.

Inductive jop := OJoin | OTryJoin | ODetach | OJoinable | OThread.   (* [OThread]: be the represented thread *)
Inductive jres := RJoined | RTimedOut | RInvalid | RInterrupted | RVoid | RBool (b : bool).

(** [tm]: a timed join.  Named after what comes next. *)
Inductive jk :=
| JBegin (op : jop)
| JEnter (tm : bool)         (* lock data_mutex, test done *)
| JWaitDone (tm : bool)      (* in the loop while(!done) *)
| JDeadline                  (* the timed wait returned false *)
| JWaitJoined                (* in the loop while(!joined) *)
| JOs                        (* do_join: call pthread_join *)
| JOsWait                    (* inside pthread_join *)
| JSet                       (* set joined, notify *)
| JReset                     (* if(thread_info==local_thread_info) thread_info.reset() *)
| JDrop (r : jres)           (* local_thread_info goes out of scope *)
| DLock                      (* detach: lock data_mutex *)
| TFun | THandlers | TDone | TRef | TTerm.      (* thread_proxy: run(); tls_destructor; done=true; ~thread_info; return *)

Notation jout := (jst * list (notif jcv) * outcome jk jcv jres)%type.
Notation ret r := (ORet jk jcv r).
Notation yield k := (OYield jcv jres k).
Notation sleep c k := (OSleep jres c k).

Definition set_ph p s := MkJ p (dn s) (js s) (jd s) (osn s) (obj s) (refs s) (fired s) (fown s).
(** a shared_ptr reference is dropped; the last one destroys the data *)
Definition drop_ref (own : bool) (s : jst) : jst :=
  MkJ (ph s) (dn s) (js s) (jd s) (osn s) (obj s) (refs s - 1)
      (if refs s =? 1 then S (fired s) else fired s) (if refs s =? 1 then own else fown s).

(** after done is seen, thread.cpp 328-342, 379-393 *)
Definition seen_done (s : jst) : jout :=
  if js s then (s, [], if jd s then yield JReset else sleep CDone JWaitJoined)
  else (MkJ (ph s) (dn s) true (jd s) (osn s) (obj s) (refs s) (fired s) (fown s), [], yield JOs).

Definition jfrag (_ : nat) (_ : unit) (k : jk) (s : jst) : jout :=
  match k with
  (* get_thread_info: a reference is taken; none: invalid_argument *)
  | JBegin OJoin | JBegin OTryJoin =>
      if obj s then (MkJ (ph s) (dn s) (js s) (jd s) (osn s) (obj s) (S (refs s)) (fired s) (fown s), [],
                     yield (JEnter (match k with JBegin OTryJoin => true | _ => false end)))
      else (s, [], ret RInvalid)
  (* 324-327, 372-375 *)
  | JEnter tm | JWaitDone tm => if dn s then seen_done s else (s, [], sleep CDone (JWaitDone tm))
  (* 376-380 *)
  | JDeadline => if dn s then seen_done s else (s, [], yield (JDrop RTimedOut))
  (* 336-340, 388-392 *)
  | JWaitJoined => (s, [], if jd s then yield JReset else sleep CDone JWaitJoined)
  (* 345-346: joining twice, or a detached thread, is undefined *)
  | JOs => if osn s =? 0 then (MkJ (ph s) (dn s) (js s) (jd s) 1 (obj s) (refs s) (fired s) (fown s), [], yield JOsWait)
           else (s, [], OUB jk jcv jres)
  | JOsWait => (s, [], if ph s =? 6 then yield JSet else sleep COs JOsWait)
  (* 347-349 *)
  | JSet => (MkJ (ph s) (dn s) (js s) true (osn s) (obj s) (refs s) (fired s) (fown s), [NAll CDone], yield JReset)
  (* 352-355 *)
  | JReset => if obj s then (drop_ref false (MkJ (ph s) (dn s) (js s) (jd s) (osn s) false (refs s) (fired s) (fown s)), [], yield (JDrop RJoined))
              else (s, [], yield (JDrop RJoined))
  | JDrop r => (drop_ref false s, [], ret r)
  (* 423-438: the object's reference moves to the local variable *)
  | JBegin ODetach => if obj s then (MkJ (ph s) (dn s) (js s) (jd s) (osn s) false (refs s) (fired s) (fown s), [], yield DLock)
                      else (s, [], ret RVoid)
  | DLock => if js s then (s, [], yield (JDrop RVoid))
             else if osn s =? 0 then (MkJ (ph s) (dn s) true true 1 (obj s) (refs s) (fired s) (fown s), [], yield (JDrop RVoid))
             else (s, [], OUB jk jcv jres)
  | JBegin OJoinable => (s, [], ret (RBool (obj s)))
  (* thread_proxy 168-202 *)
  | JBegin OThread => if ph s =? 0 then (set_ph 1 s, [], yield TFun) else (s, [], ret RVoid)
  | TFun => (set_ph 2 s, [], yield THandlers)
  | THandlers => (set_ph 3 s, [], yield TDone)
  | TDone => (MkJ 4 true (js s) (jd s) (osn s) (obj s) (refs s) (fired s) (fown s), [NAll CDone], yield TRef)
  | TRef => (drop_ref true (set_ph 5 s), [], yield TTerm)
  | TTerm => (set_ph 6 s, [NAll COs], ret RVoid)
  end.

(** condition_variable::wait is an interruption point; pthread_join is not. *)
Definition j_intr (k : jk) : option jk := match k with JWaitDone _ | JWaitJoined => Some (JDrop RInterrupted) | _ => None end.
Definition j_timeout (k : jk) : option jk := match k with JWaitDone true => Some JDeadline | _ => None end.

Definition jnprog : prog jst jk jop jres jcv unit unit :=
  MkProg jcv_eqb JBegin jfrag j_timeout j_intr (fun _ _ => true) (fun l _ _ => l).
