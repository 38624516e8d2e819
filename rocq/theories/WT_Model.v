(** * Windows condition variables under release/acquire memory: the first look at the number of waiting threads

    include/boost/thread/win32/condition_variable.hpp 120-141 (total_count, wake_waiters), 175-195 (get_wait_entry),
    278-318 (notify_one, notify_all). total_count is written only under internal_mutex, but notify_one and notify_all
    first read it without that mutex and return at once if they read 0. What they read may be old. WC_Model.v models
    the generations and semaphores, where memory is sequentially consistent; here is modelled what decides whether a
    notification does anything.

    A thread has a view: how new the writes to total_count are that it has seen, and which beginnings of waits (numbered)
    happen before what it does next. Views are passed on by writes with release that are read with acquire, by internal_mutex, and by
    whatever the program uses for synchronisation ([pub]: what has been released, by any means; reading it acquires).
    Critical sections of internal_mutex are one step; within them total_count is read plainly, so any write that the
    thread's view allows may be returned. Writes are in critical sections, hence ordered: each is newer than all before. *)
From Coq Require Export List Arith Lia Bool.
Export ListNotations.
Set Implicit Arguments.

Record view := V { v_ts : nat; v_ev : list nat }.
Definition join (a b : view) : view := V (max (v_ts a) (v_ts b)) (v_ev a ++ v_ev b).
Definition v0 : view := V 0 [].
(** A write to total_count; the list of them is oldest first. *)
Record msg := Msg { m_val : nat; m_view : view }.

(** [EReg t e]: [t] begins to wait; [ENot t all woke saw]: a notification by [t], to which the beginnings [saw] happened before, and whether it woke anybody. *)
Inductive ev := EReg (t e : nat) | ENot (t : nat) (all woke : bool) (saw : list nat).
(** [pc t]: [t] is in notify_one (Some false) or notify_all (Some true) and has read a number other than 0. [lv]: the view that internal_mutex passes on. *)
Record st := MkSt { mem : list msg; vw : nat -> view; lv : view; pub : list view; pc : nat -> option bool; log : list ev; nexte : nat }.
Definition upd {A} (f : nat -> A) (n : nat) (x : A) : nat -> A := fun m => if m =? n then x else f m.
Definition reads (s : st) (v : view) (k : nat) (m : msg) : Prop := v_ts v <= k /\ nth_error (mem s) k = Some m.

(** get_wait_entry 184: total_count+1 *)
Definition one_more (c : nat) : nat := c + 1.
(** wake_waiters(1), 289; wake_waiters(total_count), 307: total_count-count_to_wake, 138 *)
Definition after_wake (all : bool) (c : nat) : nat := if all then c - c else c - 1.

Inductive step (s : st) : st -> Prop :=
(* get_wait_entry 175-195 *)
| s_reg : forall t k m v v', pc s t = None -> v = join (vw s t) (lv s) -> reads s v k m ->
    v' = V (length (mem s)) (nexte s :: v_ev v) ->
    step s (MkSt (mem s ++ [Msg (one_more (m_val m)) v']) (upd (vw s) t v') v' (pub s) (pc s) (EReg t (nexte s) :: log s) (S (nexte s)))
(* notify_one 280, notify_all 301: interlocked_read_acquire(&total_count) *)
| s_look0 : forall t all k m, pc s t = None -> reads s (vw s t) k m -> m_val m = 0 ->
    step s (MkSt (mem s) (upd (vw s) t (join (join (vw s t) (V k [])) (m_view m))) (lv s) (pub s) (pc s) (ENot t all false (v_ev (vw s t)) :: log s) (nexte s))
| s_look1 : forall t all k m, pc s t = None -> reads s (vw s t) k m -> m_val m <> 0 ->
    step s (MkSt (mem s) (upd (vw s) t (join (join (vw s t) (V k [])) (m_view m))) (lv s) (pub s) (upd (pc s) t (Some all)) (log s) (nexte s))
(* 282-286, 303-306: under internal_mutex, nobody waits any more *)
| s_none : forall t all k m v, pc s t = Some all -> v = join (vw s t) (lv s) -> reads s v k m -> m_val m = 0 ->
    step s (MkSt (mem s) (upd (vw s) t v) v (pub s) (upd (pc s) t None) (ENot t all false (v_ev v) :: log s) (nexte s))
(* 282-295, 303-316: wake_waiters *)
| s_wake : forall t all k m v v', pc s t = Some all -> v = join (vw s t) (lv s) -> reads s v k m -> m_val m <> 0 ->
    v' = V (length (mem s)) (v_ev v) ->
    step s (MkSt (mem s ++ [Msg (after_wake all (m_val m)) v']) (upd (vw s) t v') v' (pub s) (upd (pc s) t None) (ENot t all true (v_ev v) :: log s) (nexte s))
(* the program: unlocking or locking the user's mutex, other synchronisation *)
| s_rel : forall t, step s (MkSt (mem s) (vw s) (lv s) (vw s t :: pub s) (pc s) (log s) (nexte s))
| s_acq : forall t v, In v (pub s) -> step s (MkSt (mem s) (upd (vw s) t (join (vw s t) v)) (lv s) (pub s) (pc s) (log s) (nexte s)).

(** basic_condition_variable() 246: total_count(0) *)
Definition start : st := MkSt [Msg 0 v0] (fun _ => v0) v0 [] (fun _ => None) [] 0.
Inductive reach : st -> Prop :=
| r_init : reach start
| r_step : forall s s', reach s -> step s s' -> reach s'.
