(** * What a user of boost::latch observes

    Only the calls and returns are used here; nothing refers to how the latch is
    implemented. *)

From Verif Require Import Monitor LT_Model.

Notation levent := (event lop lres).
Notation ltconf := (cfg latch lk lop lres lcv unit).

Definition counts_down (op : lop) : bool :=
  match op with LCountDown | LTryCountDown | LSync => true | _ => false end.
Definition waits (op : lop) : bool :=
  match op with LWait | LWaitTimed | LSync => true | _ => false end.

(** Calls that count down and have been started / have returned. *)
Definition started (h : list levent) : nat :=
  length (filter (fun e => match e with ECall _ _ op => counts_down op | _ => false end) h).
Definition returned (h : list levent) : nat :=
  length (filter (fun e => match e with EDone _ op _ => counts_down op | _ => false end) h).

(** The latch is never reset in this history. *)
Definition no_reset (h : list levent) : Prop :=
  forall t n, ~ In (ECall lres t (LReset n)) h.

(** The result says that the count has reached zero / has not. *)
Definition says_open (op : lop) (r : lres) : bool :=
  match op, r with
  | LWait, RVoid | LSync, RVoid | LWaitTimed, RTimeout false
  | LTryWait, RBool true | LTryCountDown, RBool true => true
  | _, _ => false
  end.
Definition says_closed (op : lop) (r : lres) : bool :=
  match op, r with
  | LWaitTimed, RTimeout true | LTryWait, RBool false | LTryCountDown, RBool false => true
  | _, _ => false
  end.

(** Thread [t] is blocked in the latch. *)
Definition blocked (c : ltconf) (t : nat) : Prop :=
  exists l op cv k, nth_error (thr c) t = Some (Asleep l op cv k).
(** Thread [t] is inside a call of [op]. *)
Definition inside (c : ltconf) (t : nat) (op : lop) : Prop :=
  exists l k, nth_error (thr c) t = Some (Ready lcv l op k) \/
              exists cv, nth_error (thr c) t = Some (Asleep l op cv k).
(** Thread [t] returns from a call in the events [h]. *)
Definition returns_in (t : nat) (h : list levent) : Prop := exists op r, In (EDone t op r) h.
