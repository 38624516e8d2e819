(** * What a user of boost::barrier observes *)

From Verif Require Import Monitor BR_Model.

Notation bevent := (event bop bres).
Notation brconf := (cfg barrier bk bop bres bcv unit).

Definition is_call (e : bevent) : bool := match e with ECall _ _ _ => true | _ => false end.
Definition is_true (e : bevent) : bool := match e with EDone _ _ (BRet true) => true | _ => false end.
Definition is_false (e : bevent) : bool := match e with EDone _ _ (BRet false) => true | _ => false end.

(** Calls of wait() made, and returns with true / with false. *)
Definition calls (h : list bevent) : nat := length (filter is_call h).
Definition trues (h : list bevent) : nat := length (filter is_true h).
Definition falses (h : list bevent) : nat := length (filter is_false h).

(** Threads blocked in wait(). *)
Definition blocked_threads (c : brconf) : nat :=
  length (filter (fun x => match x with Asleep _ _ _ _ => true | _ => false end) (thr c)).

(** Thread [t] is inside wait() at the end of the history [h]. *)
Definition in_wait (t : nat) (h : list bevent) : Prop :=
  exists h1 h2, h = h1 ++ ECall bres t BWait :: h2 /\ forall op r, ~ In (EDone t op r) h1.

(** No thread is left behind by [W] or more groups: at every moment, since the call of wait() that a
    thread is inside of, fewer than [W] groups have been completed.  (A history is newest first: [h2] is
    the history up to that moment.) *)
Definition patient (W : nat) (h : list bevent) : Prop :=
  forall h1 h2, h = h1 ++ h2 -> forall a b t op, h2 = a ++ ECall bres t op :: b ->
    (forall op r, ~ In (EDone t op r) a) -> trues a < W.
