(** * What programs rely on for the notifications of Windows condition variables, with stale reads

    The history is newest first. *)
From Verif Require Import WT_Model.

(** How many of the threads that have begun to wait have not been given a wake-up. *)
Fixpoint waiting (h : list ev) : nat :=
  match h with
  | [] => 0
  | EReg _ _ :: r => S (waiting r)
  | ENot _ all true _ :: r => if all then 0 else waiting r - 1
  | ENot _ _ false _ :: r => waiting r
  end.
(** A notification that wakes nobody overlooks nobody it could know of: there was a moment at which all the threads whose beginning to
    wait happened before the notification had begun to wait, and at which nobody was left to wake. *)
Definition overlooks_nobody (h : list ev) : Prop :=
  forall later t all saw before, h = later ++ ENot t all false saw :: before ->
    exists mid old, before = mid ++ old /\ (forall e, In e saw -> exists t', In (EReg t' e) old) /\ waiting old = 0.
(** A wake-up is given only when there is somebody to wake. *)
Definition no_surplus (h : list ev) : Prop :=
  forall later t all saw before, h = later ++ ENot t all true saw :: before -> 1 <= waiting before.
(** If all that have begun to wait did so in a way that happened before the notification (as when all waiting and notifying is done under one mutex), it wakes somebody if anybody waits. *)
Definition wakes_if_all_known (h : list ev) : Prop :=
  forall later t all woke saw before, h = later ++ ENot t all woke saw :: before ->
    (forall t' e, In (EReg t' e) before -> In e saw) -> 1 <= waiting before -> woke = true.
(** Not guaranteed: a notification wakes somebody if anybody waits. *)
Definition wakes_if_any (h : list ev) : Prop :=
  forall later t all woke saw before, h = later ++ ENot t all woke saw :: before -> 1 <= waiting before -> woke = true.
