(** * The Windows shared_mutex on a machine whose threads do not see each other's writes at once

    include/boost/thread/win32/shared_mutex.hpp, the whole class. WS_Model.v runs it on a machine in which every
    read of the word returns the latest write. Here the same code ([run], [time_out] and [call] of WS_Model.v)
    runs with the release/acquire memory of OM_Model.v and WV_Model.v: the plain reads old_state=state (124, 150,
    and so on) and compare-exchanges that fail may return any write that the thread is not yet past.

    The state of WS_Model.v is kept in [base], with the newest write in [wd]; the other writes are in [mem]. The
    compare-exchanges (interlocked_compare_exchange, 47-58) are acquire and release. Of the semaphores, only what upgrade_sem passes
    on is used: ReleaseSemaphore releases, the wait acquires. *)
From Verif Require Export WS_Model.
Set Implicit Arguments.

(** ** Memory *)
Record view := MkV { v_ts : nat; v_see : list nat }.
Definition v0 : view := MkV 0 [].
Definition join (a b : view) : view := MkV (Nat.max (v_ts a) (v_ts b)) (v_see a ++ v_see b).
Definition raise (v : view) (n : nat) : view := MkV (Nat.max (v_ts v) n) (v_see v).
Definition see (v : view) (e : nat) : view := MkV (v_ts v) (e :: v_see v).
Record msg := MkMsg { m_ts : nat; m_val : word; m_view : view }.
Definition reads (ms : list msg) (v : view) (m : msg) : Prop := In m ms /\ v_ts v <= m_ts m.
Definition free_ts (ms : list msg) (n : nat) : Prop := forall m, In m ms -> m_ts m <> n.

(** [ULoad]: old_state=state; [UCas old]: a compare-exchange that expects [old]; [UPost n]: ReleaseSemaphore of
    upgrade_sem by [n]; [UPend]: the wait for it; [UNone]: no access (among them the leaving of a loop without exchange). *)
Inductive use := UNone | ULoad | UCas (old : word) | UPost (n : nat) | UPend.
Definition uses (p : pc) : use :=
  match p with
  | PRead _ => ULoad
  | PCas o old => match body_of o old with BReturn _ => UNone | BCas _ _ => UCas old end
  | PGive o old => match give_body o old with GReturn _ => UNone | GCas _ _ _ => UCas old end
  | PRel _ ((SP, n) :: _) _ => UPost n
  | PUp => UPend
  | _ => UNone
  end.

(** A use of the data the mutex protects, by an owner; [w]: it writes; [saw]: what the thread sees. *)
Inductive ev := EvUse (t e : nat) (w : bool) (saw : list nat).

Record st := MkSt { base : sys; mem : list msg; vw : nat -> view; spv : list view; log : list ev; nexte : nat }.
Definition upd {A} (f : nat -> A) (n : nat) (x : A) : nat -> A := fun m => if m =? n then x else f m.
Definition with_wd (b : sys) (w : word) : sys := Sys w (us b) (es b) (ps b) (thrs b) (hist b).

Inductive step (s : st) : st -> Prop :=
(* the user's code: calls, time-outs, uses of the data: writes by the owner of an exclusive lock only, reads by
   any owner; other synchronisation between threads *)
| s_call : forall t o b', exec (base s) (LCall t o) = Some b' ->
    step s (MkSt b' (mem s) (vw s) (spv s) (log s) (nexte s))
| s_late : forall t b', exec (base s) (LTimeout t) = Some b' ->
    step s (MkSt b' (mem s) (vw s) (spv s) (log s) (nexte s))
| s_use : forall t m w, nth_error (thrs (base s)) t = Some (Thr PIdle m) -> m <> MNone -> (w = true -> m = MExcl) ->
    step s (MkSt (base s) (mem s) (upd (vw s) t (see (vw s t) (nexte s))) (spv s)
                 (EvUse t (nexte s) w (v_see (vw s t)) :: log s) (S (nexte s)))
| s_sync : forall t t' m, nth_error (thrs (base s)) t = Some (Thr PIdle m) ->
    step s (MkSt (base s) (mem s) (upd (vw s) t (join (vw s t) (vw s t'))) (spv s) (log s) (nexte s))
(* steps without access to the word *)
| s_none : forall t x b', nth_error (thrs (base s)) t = Some x -> uses (t_pc x) = UNone -> exec (base s) (LRun t) = Some b' ->
    step s (MkSt b' (mem s) (vw s) (spv s) (log s) (nexte s))
(* the plain read *)
| s_load : forall t x m b', nth_error (thrs (base s)) t = Some x -> uses (t_pc x) = ULoad -> reads (mem s) (vw s t) m ->
    exec (with_wd (base s) (m_val m)) (LRun t) = Some b' ->
    step s (MkSt (with_wd b' (wd (base s))) (mem s) (upd (vw s) t (raise (vw s t) (m_ts m))) (spv s) (log s) (nexte s))
(* a compare-exchange that fails *)
| s_fail : forall t x old m b', nth_error (thrs (base s)) t = Some x -> uses (t_pc x) = UCas old -> reads (mem s) (vw s t) m ->
    word_eqb (m_val m) old = false -> exec (with_wd (base s) (m_val m)) (LRun t) = Some b' ->
    step s (MkSt (with_wd b' (wd (base s))) (mem s) (upd (vw s) t (join (raise (vw s t) (m_ts m)) (m_view m))) (spv s) (log s) (nexte s))
(* one that succeeds: its write is next to the one it has read *)
| s_cas : forall t x old m b' v, nth_error (thrs (base s)) t = Some x -> uses (t_pc x) = UCas old -> reads (mem s) (vw s t) m ->
    word_eqb (m_val m) old = true -> free_ts (mem s) (S (m_ts m)) -> exec (with_wd (base s) (m_val m)) (LRun t) = Some b' ->
    v = raise (join (raise (vw s t) (m_ts m)) (m_view m)) (S (m_ts m)) ->
    step s (MkSt b' (MkMsg (S (m_ts m)) (wd b') v :: mem s) (upd (vw s) t v) (spv s) (log s) (nexte s))
(* upgrade_sem *)
| s_post : forall t x n b', nth_error (thrs (base s)) t = Some x -> uses (t_pc x) = UPost n -> exec (base s) (LRun t) = Some b' ->
    step s (MkSt b' (mem s) (vw s) (repeat (vw s t) n ++ spv s) (log s) (nexte s))
| s_pend : forall t x b' v l1 l2, nth_error (thrs (base s)) t = Some x -> uses (t_pc x) = UPend -> exec (base s) (LRun t) = Some b' ->
    spv s = l1 ++ v :: l2 ->
    step s (MkSt b' (mem s) (upd (vw s) t (join (vw s t) v)) (l1 ++ l2) (log s) (nexte s)).

(** The constructor, 93-111, for a program of [n] threads. *)
Definition start (n : nat) : st := MkSt (init n) [MkMsg 0 (wd (init n)) v0] (fun _ => v0) [] [] 0.
Inductive reaches (n : nat) : st -> Prop :=
| x_init : reaches n (start n)
| x_step : forall s s', reaches n s -> step s s' -> reaches n s'.
