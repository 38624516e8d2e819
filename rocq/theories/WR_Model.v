(** * Windows: the control blocks of threads and their reference counts, under release/acquire memory

    include/boost/thread/win32/thread_data.hpp 99-204 (thread_data_base, intrusive_ptr_add_ref,
    intrusive_ptr_release), src/win32/thread.cpp 50-65, 256-287, 289-308, 312-355, 363-417, 556-559 and the
    pointers of include/boost/thread/detail/thread.hpp (176, 203-239, 344-345, 365-366; thread::id without
    BOOST_THREAD_PROVIDES_BASIC_THREAD_ID, 602-660). A control block holds the function object of its thread, the
    functions and mutexes registered for the end of the thread, and its thread-specific data.

    A thread has a view: the plain accesses (uses) that it has seen. The interlocked operations are full fences;
    less is used here: the increment is relaxed, the decrement acquires and releases. [long count] is taken to be
    large enough for all references. Access to one pointer object from several threads has to be synchronised by
    the program: who copies or takes over another thread's pointer sees what that thread has seen. *)
From Coq Require Export List Arith Lia Bool.
Export ListNotations.
Set Implicit Arguments.

(** Who refers to a control block: a boost::thread object, a thread::id, a local copy (get_thread_info, 556-559), or the
    thread itself (the pointer in thread-local storage, counted by 330, 350 or 368). *)
Inductive kind := KObj | KId | KLocal | KSelf.
Record ptr := Ptr { p_t : nat; p_b : nat; p_k : kind }.

(** [EvNew t b]: [t] creates control block [b] (access [e]); [EvStart t b u]: it starts thread [u] with it; [EvUse]: an
    access to the block (running the function object is one); [EvEnd u b]: the function and the exit callbacks of the thread are done;
    [EvFree t b]: [t] destroys the block, and with it the function object, after the actions of ~thread_data_base. *)
Inductive ev :=
| EvNew (t b e : nat)
| EvStart (t b u : nat)
| EvUse (t b e : nat) (saw : list nat)
| EvEnd (t b : nat)
| EvFree (t b : nat) (saw : list nat).

(** [ptrs]: the pointers; [dying]: blocks whose count a thread has brought to 0 and which it is about to delete. *)
Record st := MkSt {
  nb : nat; addr : nat -> nat; live : nat -> bool; cnt : nat -> nat; cvw : nat -> list nat;
  ptrs : list ptr; dying : list (nat * nat); known : nat -> bool;
  vw : nat -> list nat; log : list ev; nexte : nat }.
Definition upd {A} (f : nat -> A) (n : nat) (x : A) : nat -> A := fun m => if m =? n then x else f m.

(** intrusive_ptr_add_ref, 150-153 (195-198) *)
Definition add_ref (c : nat) : nat := S c.
(** intrusive_ptr_release, 155-161 (200-206): the new count, and whether to delete the block *)
Definition release (c : nat) : nat * bool := (c - 1, c - 1 =? 0).
(** count(0), 132, then thread_data_ptr adds a reference; ++count in externally_launched_thread, thread.cpp 368 *)
Definition new_count : nat := add_ref 0.
Definition new_ext_count : nat := S 0.

Inductive step (s : st) : st -> Prop :=
(* make_thread_info, thread.hpp 203-239: the allocator returns any address that is not in use *)
| s_new : forall t a, (forall b, b < nb s -> live s b = true -> addr s b <> a) ->
    step s (MkSt (S (nb s)) (upd (addr s) (nb s) a) (upd (live s) (nb s) true) (upd (cnt s) (nb s) new_count) (upd (cvw s) (nb s) [])
                 (Ptr t (nb s) KObj :: ptrs s) (dying s) (known s)
                 (upd (vw s) t (nexte s :: vw s t)) (EvNew t (nb s) (nexte s) :: log s) (S (nexte s)))
(* start_thread_noexcept, thread.cpp 312-355: the new thread is suspended until its reference is counted; if no
   thread can be made, nothing is done *)
| s_start : forall t b u, In (Ptr t b KObj) (ptrs s) -> known s u = false -> (forall t' u', ~ In (EvStart t' b u') (log s)) ->
    step s (MkSt (nb s) (addr s) (live s) (upd (cnt s) b (add_ref (cnt s b))) (cvw s)
                 (Ptr u b KSelf :: ptrs s) (dying s) (upd (known s) u true)
                 (upd (vw s) u (vw s u ++ vw s t)) (EvStart t b u :: log s) (nexte s))
(* make_external_thread_data, 392-405: a thread that the library has not started *)
| s_ext : forall t a, known s t = false -> (forall b, b < nb s -> live s b = true -> addr s b <> a) ->
    step s (MkSt (S (nb s)) (upd (addr s) (nb s) a) (upd (live s) (nb s) true) (upd (cnt s) (nb s) new_ext_count) (upd (cvw s) (nb s) [])
                 (Ptr t (nb s) KSelf :: ptrs s) (dying s) (upd (known s) t true)
                 (upd (vw s) t (nexte s :: vw s t)) (EvStart t (nb s) t :: EvNew t (nb s) (nexte s) :: log s) (S (nexte s)))
(* get_thread_info (556-559), get_id (419-431), this_thread::get_id (831), copies of an id *)
| s_copy : forall t p k, In p (ptrs s) -> k = KId \/ k = KLocal ->
    step s (MkSt (nb s) (addr s) (live s) (upd (cnt s) (p_b p) (add_ref (cnt s (p_b p)))) (cvw s)
                 (Ptr t (p_b p) k :: ptrs s) (dying s) (known s)
                 (upd (vw s) t (vw s t ++ vw s (p_t p))) (log s) (nexte s))
(* a boost::thread object or an id is handed over, moved or swapped (thread.hpp 344, 365, 458) *)
| s_move : forall t l1 l2 p, ptrs s = l1 ++ p :: l2 -> p_k p <> KSelf ->
    step s (MkSt (nb s) (addr s) (live s) (cnt s) (cvw s)
                 (l1 ++ Ptr t (p_b p) (p_k p) :: l2) (dying s) (known s)
                 (upd (vw s) t (vw s t ++ vw s (p_t p))) (log s) (nexte s))
(* any access through a pointer; other synchronisation *)
| s_use : forall p, In p (ptrs s) ->
    step s (MkSt (nb s) (addr s) (live s) (cnt s) (cvw s) (ptrs s) (dying s) (known s)
                 (upd (vw s) (p_t p) (nexte s :: vw s (p_t p))) (EvUse (p_t p) (p_b p) (nexte s) (vw s (p_t p)) :: log s) (S (nexte s)))
| s_sync : forall t t',
    step s (MkSt (nb s) (addr s) (live s) (cnt s) (cvw s) (ptrs s) (dying s) (known s)
                 (upd (vw s) t (vw s t ++ vw s t')) (log s) (nexte s))
(* the thread's function and the exit callbacks have ended (thread.cpp 258-284) *)
| s_end : forall t b, In (Ptr t b KSelf) (ptrs s) -> ~ In (EvEnd t b) (log s) ->
    step s (MkSt (nb s) (addr s) (live s) (cnt s) (cvw s) (ptrs s) (dying s) (known s) (vw s) (EvEnd t b :: log s) (nexte s))
(* a pointer is destroyed or reset (release_handle, join, detach, ~id); that of the thread itself at the end of
   run_thread_exit_callbacks (258: current_thread_data was made without a new reference) *)
| s_drop : forall l1 l2 p c z v, ptrs s = l1 ++ p :: l2 -> (p_k p = KSelf -> In (EvEnd (p_t p) (p_b p)) (log s)) ->
    release (cnt s (p_b p)) = (c, z) -> v = vw s (p_t p) ++ cvw s (p_b p) ->
    step s (MkSt (nb s) (addr s) (live s) (upd (cnt s) (p_b p) c) (upd (cvw s) (p_b p) v)
                 (l1 ++ l2) (if z then (p_t p, p_b p) :: dying s else dying s) (known s)
                 (upd (vw s) (p_t p) v) (log s) (nexte s))
(* heap_delete(p), 159 (204) *)
| s_delete : forall l1 l2 t b, dying s = l1 ++ (t, b) :: l2 ->
    step s (MkSt (nb s) (addr s) (upd (live s) b false) (cnt s) (cvw s) (ptrs s) (l1 ++ l2) (known s)
                 (vw s) (EvFree t b (vw s t) :: log s) (nexte s)).

Definition start : st :=
  MkSt 0 (fun _ => 0) (fun _ => false) (fun _ => 0) (fun _ => []) [] [] (fun _ => false) (fun _ => []) [] 0.
Inductive reach : st -> Prop :=
| r_init : reach start
| r_step : forall s s', reach s -> step s s' -> reach s'.
