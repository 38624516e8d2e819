(** * Specification of the lock objects (independent of how they work) *)

From Verif Require Import Monitor MonitorLemmas.
From Verif Require Export LK_Model.
Set Implicit Arguments.

(** Does the object, as reported by its owns_lock() and mutex(), own a lock of [m] in mode [k]? *)
Definition lk_owns (l : lk) (m : nat) (k : kind) : bool :=
  l_own l && match l_mx l with Some m' => m' =? m | None => false end && kind_eqb (l_kind l) k.

Definition obj_owns (m : nat) (k : kind) (o : option obj) : bool :=
  match o with
  | Some (OLock l) | Some (OUp _ l) | Some (ONest _ l) => lk_owns l m k
  | Some (OGuard k' m') => (m' =? m) && kind_eqb k' k
  | Some (ORev _ _) | None => false
  end.

(** Number of live lock objects that own mutex [m] in mode [k]. *)
Definition owners (s : lstate) (m : nat) (k : kind) : nat := length (filter (obj_owns m k) (s_objs s)).

(** All lock objects have been destroyed. *)
Definition all_destroyed (s : lstate) : Prop := Forall (fun o => o = None) (s_objs s).

(** reverse_lock is only used with unique_lock (see the finding for the other lock classes). *)
Definition rev_unique (ow : lop * ans) : Prop := match fst ow with LRev k _ => k = KU | _ => True end.

(** The program never takes a lock over from, or hands one to, a lock object by hand. *)
Definition no_manual (ow : lop * ans) : Prop :=
  match fst ow with LUserLock _ _ | LUserUnlock _ _ | LRelease _ => False | _ => True end.

(** The lock object [a] is alive with mutex [mx] and owns_lock() = [own]. *)
Definition is_lock (s : lstate) (a : nat) (k : kind) (mx : option nat) (own : bool) : Prop :=
  get s a = Some (OLock (MkLk k mx own)).
