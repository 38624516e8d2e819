(** * Model of wait_for_any

    Source: include/boost/thread/future.hpp:1120-1330 (future_waiter, wait_for_any), 267-278 and 335-345 (notify_when_ready,
    unnotify_when_ready, mark_finished_internal).  futures/wait_for_any.hpp has the same algorithm.

    Shared states are numbered; a call is given the list of the states of its futures (futures without a state are skipped, 1181, but counted, 1191: the model has none).  The mutexes of
    the shared states are explicit: [own f] is the thread that holds the mutex of state [f].
    Simplifications: a critical section that takes one mutex, changes the state and releases it is one step; the mutexes of all the states are released in one step
    (1163-1169, in condition_variable_any::wait and in the destructor of the locks); taking them all again (boost::lock, 1158-1161) is one
    step, taken when all are free (that boost::lock neither deadlocks nor keeps some while it waits is the subject of LA_Props.v); allocation does not fail;
    deferred futures are not modelled. *)
From Coq Require Export List Arith Lia Bool.
From Verif Require Export Monitor.
Import ListNotations.
Set Implicit Arguments.

Record wa := MkWa { own : nat -> option nat; done : nat -> bool; reg : nat -> list nat }.
Definition wa0 : wa := MkWa (fun _ => None) (fun _ => false) (fun _ => []).

(** [CW t]: the condition variable of thread [t]'s future_waiter; [CMut]: some mutex is released *)
Inductive wcv := CW (t : nat) | CMut.
Definition wcv_eqb (a b : wcv) : bool := match a, b with CW t, CW u => t =? u | CMut, CMut => true | _, _ => false end.

Inductive wop := WWait (fs : list nat) | WSet (f : nat).
Inductive wres := RIdx (i : nat) | RIntr | ROk.

Inductive wk :=
| KStart (op : wop)
| KReg (fs : list nat) (j : nat)                    (* add: registering with the states from the j-th on *)
| KLock (fs : list nat) (j : nat)                   (* all_futures_lock's constructor: holds the first j mutexes *)
| KCheck (fs : list nat)                            (* wait: holds all of them *)
| KRelock (fs : list nat) (i : bool)                (* woken in cv.wait ([i]: interrupted), taking all of them again *)
| KUnreg (fs : list nat) (j : nat) (r : wres).      (* the destructor *)

Notation wout := (wa * list (notif wcv) * outcome wk wcv wres)%type.
Notation yield k := (OYield wcv wres k).

Definition fupd {A} (g : nat -> A) (i : nat) (x : A) : nat -> A := fun j => if j =? i then x else g j.
Definition mem (i : nat) (l : list nat) : bool := existsb (Nat.eqb i) l.
Definition free (s : wa) (f : nat) : bool := match own s f with None => true | Some _ => false end.
Definition acquire (t f : nat) (s : wa) : wa := MkWa (fupd (own s) f (Some t)) (done s) (reg s).
Definition acquire_all (t : nat) (fs : list nat) (s : wa) : wa := MkWa (fun f => if mem f fs then Some t else own s f) (done s) (reg s).
Definition release_all (fs : list nat) (s : wa) : wa := MkWa (fun f => if mem f fs then None else own s f) (done s) (reg s).
(** std::list::erase of the element the handle designates *)
Fixpoint remove1 (t : nat) (l : list nat) : list nat := match l with [] => [] | u :: l' => if u =? t then l' else u :: remove1 t l' end.
(** 1205-1211: the position of the first state that is done *)
Fixpoint first_done (s : wa) (fs : list nat) (i : nat) : option nat :=
  match fs with [] => None | f :: fs' => if done s f then Some i else first_done s fs' (S i) end.

Definition wfrag (t : nat) (_ : unit) (k : wk) (s : wa) : wout :=
  match k with
  | KStart (WWait fs) => (s, [], yield (KReg fs 0))
  (* mark_finished_internal 335-345 with do_notify: all the registered condition variables are notified, under the state's mutex *)
  | KStart (WSet f) =>
      if free s f then (MkWa (own s) (fupd (done s) f true) (reg s), map (fun u => NAll (CW u)) (reg s f), ORet wk wcv ROk)
      else (s, [], OSleep wres CMut k)
  (* 1178-1192, notify_when_ready *)
  | KReg fs j =>
      match nth_error fs j with
      | None => (s, [], yield (KLock fs 0))
      | Some f => if free s f then (MkWa (own s) (done s) (fupd (reg s) f (t :: reg s f)), [], yield (KReg fs (S j))) else (s, [], OSleep wres CMut k)
      end
  (* 1149-1156 *)
  | KLock fs j =>
      match nth_error fs j with
      | None => (s, [], yield (KCheck fs))
      | Some f => if free s f then (acquire t f s, [], yield (KLock fs (S j))) else (s, [], OSleep wres CMut k)
      end
  (* 1201-1214 *)
  | KCheck fs =>
      match first_done s fs 0 with
      | Some i => (release_all fs s, [NAll CMut], yield (KUnreg fs 0 (RIdx i)))
      | None => (release_all fs s, [NAll CMut], OSleep wres (CW t) (KRelock fs false))
      end
  | KRelock fs i =>
      if forallb (free s) fs then
        if i then (s, [], yield (KUnreg fs 0 RIntr)) else (acquire_all t fs s, [], yield (KCheck fs))
      else (s, [], OSleep wres CMut k)
  (* 1216-1222, unnotify_when_ready *)
  | KUnreg fs j r =>
      match nth_error fs j with
      | None => (s, [], ORet wk wcv r)
      | Some f => if free s f then (MkWa (own s) (done s) (fupd (reg s) f (remove1 t (reg s f))), [], yield (KUnreg fs (S j) r)) else (s, [], OSleep wres CMut k)
      end
  end.

(** cv.wait is an interruption point; the mutexes are taken again before the exception leaves *)
Definition w_on_intr (k : wk) : option wk := match k with KRelock fs false => Some (KRelock fs true) | _ => None end.

Section Prog.
  Variable allowed : wop -> bool.
  Definition waprog : prog wa wk wop wres wcv unit unit :=
    MkProg wcv_eqb KStart wfrag (fun _ => None) w_on_intr (fun _ op => allowed op) (fun l _ _ => l).
End Prog.

(** the arguments of every call are given in the order of a common numbering *)
Fixpoint increasing (fs : list nat) : bool := match fs with f :: ((g :: _) as fs') => (f <? g) && increasing fs' | _ => true end.
Definition ordered (op : wop) : bool := match op with WWait fs => increasing fs | WSet _ => true end.
