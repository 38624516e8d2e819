(** * Model of thread::id and of the test for joining oneself

    Source: include/boost/thread/detail/thread.hpp 602-757 (thread::id, thread::get_id, this_thread::get_id), 759-767 (join);
    src/pthread/thread.cpp 261-308 (start), 315-361 (join_noexcept), 423-437 (detach), 619-631 (native_handle).

    [basic]: BOOST_THREAD_PROVIDES_BASIC_THREAD_ID (the default, detail/config.hpp 119-123): an id is a pthread_t, 0 for not-any-thread.
    Otherwise it is a shared_ptr to the thread's data, null for not-any-thread.

    The system gives a new thread any handle that is not in use: one is in use while its thread runs, and after that until the thread has
    been joined or detached.  The allocator gives the data of a new thread any address that is not in use: one is in use
    while something refers to it: the thread while it runs ([self], pthread/thread_data.hpp 115), thread objects, calls of join()
    (local_thread_info), and in the second configuration ids.
    Simplifications: pthread_t is a number (thread.hpp compares it so); the data of a thread the library has not started is made
    with the thread, not at the first use; cleanup at the end of such a thread is in TE_Model; timed joins compare ids in the same way (769-773). *)
From Coq Require Export List Arith Lia Bool.
Export ListNotations.
Set Implicit Arguments.

Inductive event :=
| EStarted (t : nat)                    (* thread t has been created *)
| EJoins (u t : nat)                    (* u waits in join() for t *)
| EReaped (u t : nat)                   (* u has called pthread_join for t *)
| EJoined (u t : nat)                   (* join() of u returns *)
| EDeadlock (u : nat) (w : option nat)  (* join() of u throws resource_deadlock_would_occur; the object stands for w *)
| EInvalid (u : nat) (w : option nat).  (* join() of u throws invalid_argument *)

(** A call of join(): the object, the thread it stood for, and whether pthread_join has been done. *)
Record call := MkC { c_obj : nat; c_thread : nat; c_os : bool }.

Record st := MkSt {
  cnt : nat;                       (* threads created so far; thread 0 is the main thread *)
  handle : nat -> nat;             (* pthread_t of each *)
  addr : nat -> nat;               (* address of the data of each *)
  native : nat -> bool;            (* not started by the library *)
  running : nat -> bool;
  reaped : nat -> bool;            (* pthread_join or pthread_detach has been called *)
  objs : nat -> option nat;        (* thread objects: thread_info *)
  pcs : nat -> option call;        (* calls of join() *)
  kept : list (nat * option nat);  (* the ids that exist, each with the thread it was obtained for *)
  hist : list event }.

Definition upd (A : Type) (f : nat -> A) (t : nat) (x : A) : nat -> A := fun u => if u =? t then x else f u.
Definition init : st :=
  MkSt 1 (upd (fun _ => 0) 0 1) (upd (fun _ => 0) 0 1) (fun t => t =? 0) (fun t => t =? 0) (fun _ => false) (fun _ => None) (fun _ => None) [] [].

(** The value of the id of [w]. *)
Definition value (basic : bool) (s : st) (t : nat) : nat := if basic then handle s t else addr s t.
Definition id_of (basic : bool) (s : st) (w : option nat) : nat := match w with Some t => value basic s t | None => 0 end.

Definition in_use (s : st) (t : nat) : Prop := t < cnt s /\ (running s t = true \/ reaped s t = false).
Definition referenced (s : st) (t : nat) : Prop :=
  t < cnt s /\ (running s t = true \/ (exists o, objs s o = Some t) \/ (exists u c, pcs s u = Some c /\ c_thread c = t) \/ exists v, In (v, Some t) (kept s)).

Definition born (s : st) (h a : nat) (nat_ : bool) : st :=
  MkSt (S (cnt s)) (upd (handle s) (cnt s) h) (upd (addr s) (cnt s) a) (upd (native s) (cnt s) nat_) (upd (running s) (cnt s) true) (upd (reaped s) (cnt s) false)
       (objs s) (pcs s) (kept s) (EStarted (cnt s) :: hist s).
Definition set_obj (s : st) (o : nat) (w : option nat) : st :=
  MkSt (cnt s) (handle s) (addr s) (native s) (running s) (reaped s) (upd (objs s) o w) (pcs s) (kept s) (hist s).
Definition set_run (s : st) (t : nat) : st :=
  MkSt (cnt s) (handle s) (addr s) (native s) (upd (running s) t false) (reaped s) (objs s) (pcs s) (kept s) (hist s).
Definition reap (s : st) (t : nat) : st :=
  MkSt (cnt s) (handle s) (addr s) (native s) (running s) (upd (reaped s) t true) (objs s) (pcs s) (kept s) (hist s).
Definition set_pc (s : st) (u : nat) (c : option call) : st :=
  MkSt (cnt s) (handle s) (addr s) (native s) (running s) (reaped s) (objs s) (upd (pcs s) u c) (kept s) (hist s).
Definition keep (s : st) (k : list (nat * option nat)) : st :=
  MkSt (cnt s) (handle s) (addr s) (native s) (running s) (reaped s) (objs s) (pcs s) k (hist s).
Definition log (s : st) (e : event) : st :=
  MkSt (cnt s) (handle s) (addr s) (native s) (running s) (reaped s) (objs s) (pcs s) (kept s) (e :: hist s).

Inductive step (basic : bool) : st -> st -> Prop :=
  (* a thread is created, by the library for object [o], or otherwise *)
| s_start s o h a : objs s o = None -> h <> 0 -> a <> 0 -> (forall t, in_use s t -> handle s t <> h) -> (forall t, referenced s t -> addr s t <> a) ->
    step basic s (set_obj (born s h a false) o (Some (cnt s)))
| s_native s h a : h <> 0 -> a <> 0 -> (forall t, in_use s t -> handle s t <> h) -> (forall t, referenced s t -> addr s t <> a) -> step basic s (born s h a true)
| s_end s t : running s t = true -> pcs s t = None -> step basic s (set_run s t)
| s_reap_native s t : native s t = true -> t < cnt s -> step basic s (reap s t)
  (* detach() 423-437 *)
| s_detach s o t : objs s o = Some t -> step basic s (reap (set_obj s o None) t)
| s_move s o o' : objs s o' = None -> o <> o' -> step basic s (set_obj (set_obj s o' (objs s o)) o None)
  (* thread::get_id() 736-744, this_thread::get_id() 748-756; copies; destruction of ids *)
| s_get_id s o : step basic s (keep s ((id_of basic s (objs s o), objs s o) :: kept s))
| s_my_id s t : running s t = true -> step basic s (keep s ((value basic s t, Some t) :: kept s))
| s_copy s i : In i (kept s) -> step basic s (keep s (i :: kept s))
| s_drop s k1 i k2 : kept s = k1 ++ i :: k2 -> step basic s (keep s (k1 ++ k2))
  (* join() 759-767 *)
| s_deadlock s u o : running s u = true -> pcs s u = None -> value basic s u = id_of basic s (objs s o) -> step basic s (log s (EDeadlock u (objs s o)))
| s_invalid s u o : running s u = true -> pcs s u = None -> value basic s u <> id_of basic s (objs s o) -> objs s o = None -> step basic s (log s (EInvalid u (objs s o)))
| s_join s u o t : running s u = true -> pcs s u = None -> value basic s u <> id_of basic s (objs s o) -> objs s o = Some t ->
    step basic s (log (set_pc s u (Some (MkC o t false))) (EJoins u t))
  (* join_noexcept: when the thread has ended one of the callers calls pthread_join; then thread_info is reset *)
| s_os s u o t : pcs s u = Some (MkC o t false) -> running s t = false -> step basic s (log (reap (set_pc s u (Some (MkC o t true))) t) (EReaped u t))
| s_joined s u o t : pcs s u = Some (MkC o t true) ->
    step basic s (log (set_obj (set_pc s u None) o (match objs s o with Some t' => if t' =? t then None else Some t' | None => None end)) (EJoined u t)).

Inductive reach (basic : bool) : st -> Prop :=
| r_init : reach basic init
| r_step s s' : reach basic s -> step basic s s' -> reach basic s'.
