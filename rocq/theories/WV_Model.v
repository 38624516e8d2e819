(** * The Windows mutex on a machine whose threads do not see each other's writes at once

    include/boost/thread/win32/basic_timed_mutex.hpp:33-255. WM_Model.v runs this code on a machine in which
    every read returns the latest write. Here the same code ([wfrag] of WM_Model.v, one access to active_count
    at a time) runs with the release/acquire memory of OM_Model.v: a read may return any write that the
    reading thread is not yet past, and what a thread knows of the effects of others is carried by
    active_count only. *)
From Coq Require Import List Arith Lia Bool.
Import ListNotations.
From Verif Require Import Monitor WM_Model.
Set Implicit Arguments.

(** ** Memory: one location, active_count

    A view: the newest write of active_count the thread is past, and the effects it sees. *)
Record view := MkV { v_ts : nat; v_see : list nat }.
Definition v0 : view := MkV 0 [].
Definition join (a b : view) : view := MkV (Nat.max (v_ts a) (v_ts b)) (v_see a ++ v_see b).
Definition raise (v : view) (n : nat) : view := MkV (Nat.max (v_ts v) n) (v_see v).
Definition see (v : view) (e : nat) : view := MkV (v_ts v) (e :: v_see v).
Record msg := MkMsg { m_ts : nat; m_val : word; m_view : view }.

(** A read by a thread with view [v] may return any write it is not past. *)
Definition reads (ms : list msg) (v : view) (m : msg) : Prop := In m ms /\ v_ts v <= m_ts m.
Definition free_ts (ms : list msg) (n : nat) : Prop := forall m, In m ms -> m_ts m <> n.

(** How a step accesses active_count. The interlocked operations are full barriers: acquire and release. *)
Inductive access := ANone | APlain | ARmw.
Definition accesses (k : wkk) : access :=
  match k with
  | KB _ => ARmw       (* 67: interlocked_bit_test_and_set; 244: BOOST_INTERLOCKED_EXCHANGE_ADD *)
  | KRead _ => APlain  (* 76, 162: a plain read *)
  | KMark _ _ => ARmw  (* 102: BOOST_INTERLOCKED_COMPARE_EXCHANGE *)
  | KClr _ _ => ARmw   (* 127: BOOST_INTERLOCKED_COMPARE_EXCHANGE *)
  | KDec => ARmw       (* 178: BOOST_INTERLOCKED_DECREMENT *)
  | KEvt => ARmw       (* 249: interlocked_bit_test_and_set *)
  | KTime _ | KWait _ _ | KSet => ANone
  end.
(** A compare-exchange that fails does not write; the other interlocked operations always do. *)
Definition stores (k : wkk) (w : word) : bool :=
  match k with KMark _ old | KClr _ old => word_eqb w old | _ => true end.

(** ** Threads *)

(** [PIdle l]: in the user's code, [l]: it owns the mutex; [PIn op k]: in a call; [PBad]: undefined
    behaviour ([wfrag] has none). *)
Inductive pc := PIdle (l : bool) | PIn (op : wop) (k : wkk) | PBad.

(** What happens, for the specification. *)
Inductive ev :=
| EvGot (t : nat)                        (* lock, try_lock or a timed lock takes the mutex *)
| EvNo (t : nat)                         (* try_lock returns false *)
| EvGive (t : nat)                       (* unlock releases the mutex *)
| EvDo (t e : nat) (saw : list nat).     (* [t], owning the mutex, does effect [e]; it sees [saw] *)

Record st := MkSt { mem : list msg; vw : nat -> view; pcs : nat -> pc; log : list ev; nexte : nat }.
Definition upd {A} (f : nat -> A) (n : nat) (x : A) : nat -> A := fun m => if m =? n then x else f m.

(** Where a call is after a step: with the result [true] of a locking function the caller owns the mutex. *)
Definition after (op : wop) (o : outcome wkk unit bool) : pc :=
  match o with
  | OYield _ _ k => PIn op k
  | OSleep _ _ k => PIn op k
  | ORet _ _ r => PIdle (wnext (match op with OUnlock => true | _ => false end) op r)
  | OFin _ r _ => PIdle (wnext (match op with OUnlock => true | _ => false end) op r)
  | OUB _ _ _ => PBad
  end.
(** What the step says. *)
Definition says (t : nat) (op : wop) (k : wkk) (o : outcome wkk unit bool) : list ev :=
  match op, k, o with
  | OUnlock, KB _, _ => [EvGive t]
  | OUnlock, _, _ => []
  | _, _, ORet _ _ true => [EvGot t]
  | OTry, _, ORet _ _ false => [EvNo t]
  | _, _, _ => []
  end.

Inductive step (s : st) : st -> Prop :=
(* the user's code: calls (unlock by the owner only, no second lock by the owner), effects under the mutex,
   synchronisation of any other kind between threads *)
| s_call : forall t l op, pcs s t = PIdle l -> wpre l op = true ->
    step s (MkSt (mem s) (vw s) (upd (pcs s) t (PIn op (KB op))) (log s) (nexte s))
| s_do : forall t, pcs s t = PIdle true ->
    step s (MkSt (mem s) (upd (vw s) t (see (vw s t) (nexte s))) (pcs s)
                 (EvDo t (nexte s) (v_see (vw s t)) :: log s) (S (nexte s)))
| s_sync : forall t t' l, pcs s t = PIdle l ->
    step s (MkSt (mem s) (upd (vw s) t (join (vw s t) (vw s t'))) (pcs s) (log s) (nexte s))
(* steps that do not access active_count: the clock, the event. The event is not tracked: a wait may end at
   any time, and what SetEvent and the wait synchronise is not used. *)
| s_none : forall t op k w e past s' ns o, pcs s t = PIn op k -> accesses k = ANone ->
    wfrag t past k (MkM w e) = (s', ns, o) ->
    step s (MkSt (mem s) (vw s) (upd (pcs s) t (after op o)) (says t op k o ++ log s) (nexte s))
(* the plain read *)
| s_read : forall t op k m e past s' ns o, pcs s t = PIn op k -> accesses k = APlain -> reads (mem s) (vw s t) m ->
    wfrag t past k (MkM (m_val m) e) = (s', ns, o) ->
    step s (MkSt (mem s) (upd (vw s) t (raise (vw s t) (m_ts m))) (upd (pcs s) t (after op o))
                 (says t op k o ++ log s) (nexte s))
(* a compare-exchange that fails *)
| s_fail : forall t op k m e past s' ns o, pcs s t = PIn op k -> accesses k = ARmw -> reads (mem s) (vw s t) m ->
    stores k (m_val m) = false ->
    wfrag t past k (MkM (m_val m) e) = (s', ns, o) ->
    step s (MkSt (mem s) (upd (vw s) t (join (raise (vw s t) (m_ts m)) (m_view m))) (upd (pcs s) t (after op o))
                 (says t op k o ++ log s) (nexte s))
(* an interlocked operation that writes: next to the write it has read *)
| s_rmw : forall t op k m e past s' ns o v, pcs s t = PIn op k -> accesses k = ARmw -> reads (mem s) (vw s t) m ->
    stores k (m_val m) = true -> free_ts (mem s) (S (m_ts m)) ->
    wfrag t past k (MkM (m_val m) e) = (s', ns, o) ->
    v = raise (join (raise (vw s t) (m_ts m)) (m_view m)) (S (m_ts m)) ->
    step s (MkSt (MkMsg (S (m_ts m)) (wd s') v :: mem s) (upd (vw s) t v) (upd (pcs s) t (after op o))
                 (says t op k o ++ log s) (nexte s)).

(** initialize 42-46 *)
Definition init : st := MkSt [MkMsg 0 (MkW false false 0) v0] (fun _ => v0) (fun _ => PIdle false) [] 0.

Inductive reach : st -> Prop :=
| r_init : reach init
| r_step : forall s s', reach s -> step s s' -> reach s'.
