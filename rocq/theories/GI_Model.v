(** * thread_group::interrupt_all, beside join_all, create_thread and remove_thread

    include/boost/thread/detail/thread_group.hpp 76-83 (create_thread), 98-106 (remove_thread), 108-122 (join_all), 124-135
    (interrupt_all); pthread/shared_mutex.hpp 168-176 (lock_shared), 241-264 (unlock_shared), 266-275 (lock), unlock.
    TG_Model.v has the rest of the class. Threads that call the group and threads that are members are numbered
    separately. Simplifications: join_all is called by threads that are not members; thread objects are not detached, moved or
    joined outside the group; exclusive sections are one step; joins are not interrupted; every member has been made by create_thread. *)
From Coq Require Export List Arith Lia Bool.
Export ListNotations.
Set Implicit Arguments.

Inductive wop := WCreate (m : nat) | WRemove (m : nat).
(** Where a calling thread is: waiting for the mutex in create_thread or remove_thread, in interrupt_all, in join_all; in the loops of the latter two
    with the rest of the list. *)
Inductive pcs := PIdle | PWr (w : wop) | PIW | PInt (l : list nat) | PJW | PJoin (l : list nat).
(** [IReq t m]: the interruption of [m] is requested by [t]; [EEnd m]: member [m] has ended. *)
Inductive ev := ICall (t : nat) | IReq (t m : nat) | IRet (t : nat) | JCall (t : nat) | JRet (t : nat) | ECreate (m : nat) | ERemove (m : nat) | EEnd (m : nat).
(** [rdrs]: who holds the mutex shared; [xw]: exclusive_waiting_blocked *)
Record st := MkSt { grp : list nat; rdrs : list nat; xw : bool; pc : nat -> pcs; log : list ev }.
Definition upd {A} (f : nat -> A) (n : nat) (x : A) : nat -> A := fun m => if m =? n then x else f m.
(** can_lock_shared: no exclusive owner (exclusive sections are one step), and none waits *)
Definition can_lock_shared (s : st) : bool := negb (xw s).
(** unlock_shared: the last one lets the waiting threads in, 246-263 *)
Definition leave (t : nat) (l : list nat) : list nat := filter (fun u => negb (u =? t)) l.
Definition flag_after (l : list nat) (x : bool) : bool := match l with [] => false | _ => x end.
(** std::find and erase, 101-105 *)
Definition drop (m : nat) (l : list nat) : list nat := filter (fun u => negb (u =? m)) l.
Definition is_in (m : nat) (l : list nat) : bool := existsb (Nat.eqb m) l.
Definition write (w : wop) (g : list nat) : list nat := match w with WCreate m => g ++ [m] | WRemove m => drop m g end.
Definition note (w : wop) (g : list nat) : list ev := match w with WCreate m => [ECreate m] | WRemove m => if is_in m g then [ERemove m] else [] end.

(** New calls. *)
Inductive call (s : st) : st -> Prop :=
| c_int : forall t, pc s t = PIdle -> call s (MkSt (grp s) (rdrs s) (xw s) (upd (pc s) t PIW) (ICall t :: log s))
| c_join : forall t, pc s t = PIdle -> call s (MkSt (grp s) (rdrs s) (xw s) (upd (pc s) t PJW) (JCall t :: log s))
(* lock 272 *)
| c_write : forall t w, pc s t = PIdle -> call s (MkSt (grp s) (rdrs s) true (upd (pc s) t (PWr w)) (log s)).

(** Everything else. [patient m]: member [m] does not end unless its interruption is requested. *)
Inductive go (patient : nat -> bool) (s : st) : st -> Prop :=
| g_int : forall t, pc s t = PIW -> can_lock_shared s = true -> go patient s (MkSt (grp s) (t :: rdrs s) (xw s) (upd (pc s) t (PInt (grp s))) (log s))
| g_req : forall t m l, pc s t = PInt (m :: l) -> go patient s (MkSt (grp s) (rdrs s) (xw s) (upd (pc s) t (PInt l)) (IReq t m :: log s))
| g_iret : forall t, pc s t = PInt [] ->
    go patient s (MkSt (grp s) (leave t (rdrs s)) (flag_after (leave t (rdrs s)) (xw s)) (upd (pc s) t PIdle) (IRet t :: log s))
| g_join : forall t, pc s t = PJW -> can_lock_shared s = true -> go patient s (MkSt (grp s) (t :: rdrs s) (xw s) (upd (pc s) t (PJoin (grp s))) (log s))
| g_wait : forall t m l, pc s t = PJoin (m :: l) -> In (EEnd m) (log s) -> go patient s (MkSt (grp s) (rdrs s) (xw s) (upd (pc s) t (PJoin l)) (log s))
| g_jret : forall t, pc s t = PJoin [] ->
    go patient s (MkSt (grp s) (leave t (rdrs s)) (flag_after (leave t (rdrs s)) (xw s)) (upd (pc s) t PIdle) (JRet t :: log s))
| g_write : forall t w, pc s t = PWr w -> rdrs s = [] -> (forall m, w = WCreate m -> ~ In (ECreate m) (log s)) ->
    go patient s (MkSt (write w (grp s)) [] false (upd (pc s) t PIdle) (note w (grp s) ++ log s))
| g_end : forall m, In (ECreate m) (log s) -> ~ In (EEnd m) (log s) -> (patient m = true -> exists t, In (IReq t m) (log s)) ->
    go patient s (MkSt (grp s) (rdrs s) (xw s) (pc s) (EEnd m :: log s)).

Definition start : st := MkSt [] [] false (fun _ => PIdle) [].
Inductive reach (patient : nat -> bool) : st -> Prop :=
| r_init : reach patient start
| r_call : forall s s', reach patient s -> call s s' -> reach patient s'
| r_go : forall s s', reach patient s -> go patient s s' -> reach patient s'.
