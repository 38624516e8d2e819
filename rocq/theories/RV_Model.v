(** * The Windows recursive mutex on a machine whose threads do not see each other's writes at once

    include/boost/thread/win32/basic_recursive_mutex.hpp:26-172. lock, try_lock and the timed locks read
    locking_thread_id without owning the mutex, and recursion_count is a plain variable. WM_Model.v runs this
    code ([wrfrag]) on a machine in which every read returns the latest write; here the same code runs with
    the release/acquire memory of OM_Model.v and WV_Model.v: a read of locking_thread_id may return any write
    that the reading thread is not yet past.

    The underlying mutex is a mutex that passes on what its owners see, as C156 says. recursion_count has one
    value, the last one written; a thread that uses it without seeing the uses before it is a data race, and
    that this does not happen is proved, not assumed. Thread [t] has the system id [S t]: system ids are not
    used again. *)
From Coq Require Import List Arith Lia Bool.
Import ListNotations.
From Verif Require Import Monitor WM_Model.
Set Implicit Arguments.

(** ** Memory: a view is the newest write of locking_thread_id the thread is past, and the effects it sees *)
Record view := MkV { v_ts : nat; v_see : list nat }.
Definition v0 : view := MkV 0 [].
Definition join (a b : view) : view := MkV (Nat.max (v_ts a) (v_ts b)) (v_see a ++ v_see b).
Definition raise (v : view) (n : nat) : view := MkV (Nat.max (v_ts v) n) (v_see v).
Definition see (v : view) (e : nat) : view := MkV (v_ts v) (e :: v_see v).
Record msg := MkMsg { m_ts : nat; m_val : nat; m_view : view }.
Definition reads (ms : list msg) (v : view) (m : msg) : Prop := In m ms /\ v_ts v <= m_ts m.
Definition free_ts (ms : list msg) (n : nat) : Prop := forall m, In m ms -> m_ts m <> n.

(** What a step uses. *)
Inductive use := UId | UXchg | UCnt | UMx | UNone.
Definition uses (k : wrk) : use :=
  match k with
  | RB RUnlock => UCnt   (* 91: --recursion_count *)
  | RB _ => UId          (* 101: interlocked_read_acquire(&locking_thread_id) *)
  | RInc => UCnt         (* 103: ++recursion_count *)
  | RAcq _ => UMx        (* 56, 111 and so on: the underlying mutex *)
  | RGive => UNone
  | RId => UXchg         (* 57, 113 and so on: BOOST_INTERLOCKED_EXCHANGE *)
  | RCnt => UCnt         (* 58, 114 and so on: recursion_count=1 *)
  | RClr => UXchg        (* 93: BOOST_INTERLOCKED_EXCHANGE(&locking_thread_id,0) *)
  | RRel => UMx          (* 94: mutex.unlock() *)
  end.

(** ** Threads *)

(** [PIdle l]: in the user's code, it has locked the mutex [l] times more than unlocked it; [PIn op l k]: in a
    call. *)
Inductive pc := PIdle (l : nat) | PIn (op : wrop) (l : nat) (k : wrk) | PBad.

Inductive ev :=
| EvGot (t : nat)                        (* the mutex is taken by a thread that does not own it *)
| EvIn (t : nat)                         (* a locking call by the owner succeeds *)
| EvNo (t : nat)                         (* try_lock returns false *)
| EvOut (t : nat)                        (* unlock; the mutex is still owned *)
| EvGive (t : nat)                       (* unlock; the mutex is free *)
| EvDo (t e : nat) (saw : list nat)      (* [t], owning the mutex, does effect [e]; it sees [saw] *)
| EvCnt (t e : nat) (saw : list nat).    (* a use of recursion_count, number [e] *)

Record st := MkSt { idm : list msg; hold : option nat; mxv : view; cnt : nat; vw : nat -> view; pcs : nat -> pc;
                    log : list ev; nexte : nat }.
Definition upd {A} (f : nat -> A) (n : nat) (x : A) : nat -> A := fun m => if m =? n then x else f m.
Definition taken (s : st) : bool := match hold s with Some _ => true | None => false end.

Definition after (op : wrop) (l : nat) (o : outcome wrk unit bool) : pc :=
  match o with
  | OYield _ _ k => PIn op l k
  | OSleep _ _ k => PIn op l k
  | ORet _ _ r => PIdle (wrnext l op r)
  | OFin _ r _ => PIdle (wrnext l op r)
  | OUB _ _ _ => PBad
  end.
(** What a step says. *)
Definition says (t : nat) (op : wrop) (k : wrk) (o : outcome wrk unit bool) : list ev :=
  match k, o with
  | RRel, _ => [EvGive t]
  | RInc, _ => [EvIn t]
  | RB RUnlock, ORet _ _ _ => [EvOut t]
  | RAcq _, OYield _ _ _ => [EvGot t]
  | RAcq _, ORet _ _ _ => [EvNo t]
  | _, _ => []
  end.

Section Step.
  Variables W D : nat.  (* the number of values of recursion_count; how deep the calls nest *)

  Inductive step (s : st) : st -> Prop :=
  (* the user's code *)
  | s_call : forall t l op, pcs s t = PIdle l -> wrpre D l op = true ->
      step s (MkSt (idm s) (hold s) (mxv s) (cnt s) (vw s) (upd (pcs s) t (PIn op l (RB op))) (log s) (nexte s))
  | s_do : forall t l, pcs s t = PIdle (S l) ->
      step s (MkSt (idm s) (hold s) (mxv s) (cnt s) (upd (vw s) t (see (vw s t) (nexte s))) (pcs s)
                   (EvDo t (nexte s) (v_see (vw s t)) :: log s) (S (nexte s)))
  | s_sync : forall t t' l, pcs s t = PIdle l ->
      step s (MkSt (idm s) (hold s) (mxv s) (cnt s) (upd (vw s) t (join (vw s t) (vw s t'))) (pcs s) (log s) (nexte s))
  (* a timed lock of the underlying mutex gives up *)
  | s_late : forall t l, pcs s t = PIn RTimed l (RAcq RTimed) ->
      step s (MkSt (idm s) (hold s) (mxv s) (cnt s) (vw s) (upd (pcs s) t (PIn RTimed l RGive)) (log s) (nexte s))
  | s_none : forall t op l k past s' ns o, pcs s t = PIn op l k -> uses k = UNone ->
      wrfrag W t past k (MkR (cnt s) 0 (taken s)) = (s', ns, o) ->
      step s (MkSt (idm s) (hold s) (mxv s) (cnt s) (vw s) (upd (pcs s) t (after op l o)) (says t op k o ++ log s) (nexte s))
  (* the read of locking_thread_id: acquire *)
  | s_id : forall t op l k m past s' ns o, pcs s t = PIn op l k -> uses k = UId -> reads (idm s) (vw s t) m ->
      wrfrag W t past k (MkR (cnt s) (m_val m) (taken s)) = (s', ns, o) ->
      step s (MkSt (idm s) (hold s) (mxv s) (cnt s) (upd (vw s) t (join (raise (vw s t) (m_ts m)) (m_view m)))
                   (upd (pcs s) t (after op l o)) (says t op k o ++ log s) (nexte s))
  (* the exchanges: acquire and release, next to the write they have read *)
  | s_xchg : forall t op l k m past s' ns o v, pcs s t = PIn op l k -> uses k = UXchg -> reads (idm s) (vw s t) m ->
      free_ts (idm s) (S (m_ts m)) ->
      wrfrag W t past k (MkR (cnt s) (m_val m) (taken s)) = (s', ns, o) ->
      v = raise (join (raise (vw s t) (m_ts m)) (m_view m)) (S (m_ts m)) ->
      step s (MkSt (MkMsg (S (m_ts m)) (rid s') v :: idm s) (hold s) (mxv s) (cnt s) (upd (vw s) t v)
                   (upd (pcs s) t (after op l o)) (says t op k o ++ log s) (nexte s))
  (* recursion_count *)
  | s_cnt : forall t op l k past s' ns o, pcs s t = PIn op l k -> uses k = UCnt ->
      wrfrag W t past k (MkR (cnt s) 0 (taken s)) = (s', ns, o) ->
      step s (MkSt (idm s) (hold s) (mxv s) (rcount s') (upd (vw s) t (see (vw s t) (nexte s))) (upd (pcs s) t (after op l o))
                   (says t op k o ++ EvCnt t (nexte s) (v_see (vw s t)) :: log s) (S (nexte s)))
  (* the underlying mutex: a locking call that takes it, one that does not, and unlock *)
  | s_take : forall t op l k past s' ns o, pcs s t = PIn op l k -> uses k = UMx -> taken s = false ->
      wrfrag W t past k (MkR (cnt s) 0 (taken s)) = (s', ns, o) -> held s' = true ->
      step s (MkSt (idm s) (Some t) (mxv s) (cnt s) (upd (vw s) t (join (vw s t) (mxv s))) (upd (pcs s) t (after op l o))
                   (says t op k o ++ log s) (nexte s))
  | s_busy : forall t op l k past s' ns o, pcs s t = PIn op l k -> uses k = UMx -> taken s = true ->
      wrfrag W t past k (MkR (cnt s) 0 (taken s)) = (s', ns, o) -> held s' = true ->
      step s (MkSt (idm s) (hold s) (mxv s) (cnt s) (vw s) (upd (pcs s) t (after op l o)) (says t op k o ++ log s) (nexte s))
  | s_give : forall t op l k past s' ns o, pcs s t = PIn op l k -> uses k = UMx ->
      wrfrag W t past k (MkR (cnt s) 0 (taken s)) = (s', ns, o) -> held s' = false ->
      step s (MkSt (idm s) None (vw s t) (cnt s) (vw s) (upd (pcs s) t (after op l o)) (says t op k o ++ log s) (nexte s)).

  (** initialize 33-38 *)
  Definition init : st := MkSt [MkMsg 0 0 v0] None v0 0 (fun _ => v0) (fun _ => PIdle 0) [] 0.
  Inductive reach : st -> Prop :=
  | r_init : reach init
  | r_step : forall s s', reach s -> step s s' -> reach s'.
End Step.
