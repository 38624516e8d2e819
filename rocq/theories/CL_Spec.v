(** * What a user of boost::completion_latch observes *)

From Verif Require Import Monitor CL_Model.

Notation cevent := (event cop cres).
Notation clconf := (cfg clatch ck cop cres ccv unit).

Definition c_counts (op : cop) : bool := match op with CCountDown | CSync => true | _ => false end.
Definition c_waits (op : cop) : bool := match op with CWait | CTryWait | CWaitTimed => true | _ => false end.

(** Calls that count down / that wait, and runs of a completion function. *)
Definition downs (h : list cevent) : nat :=
  length (filter (fun e => match e with ECall _ _ op => c_counts op | _ => false end) h).
Definition wait_calls (h : list cevent) : nat :=
  length (filter (fun e => match e with ECall _ _ op => c_waits op | _ => false end) h).
Definition completions (h : list cevent) : nat :=
  length (filter (fun e => match e with EDone _ _ (CCompleted _) => true | _ => false end) h).

Definition c_no_reset (h : list cevent) : Prop := forall t n, ~ In (ECall cres t (CReset n)) h.

(** The result says that the count is zero. *)
Definition c_says_open (op : cop) (r : cres) : bool :=
  match op, r with
  | CWait, CVoid | CSync, CVoid | CSync, CCompleted _ | CCountDown, CCompleted _
  | CWaitTimed, CTimeout false | CTryWait, CBool true => true
  | _, _ => false
  end.

(** The completion function in force: that of the last completed then(), else the initial one. *)
Fixpoint stored (f : nat) (h : list cevent) : nat :=
  match h with
  | nil => f
  | cons (EDone _ (CThen g) _) _ => g
  | cons _ h' => stored f h'
  end.

(** Thread [t] is blocked in a call of [op]. *)
Definition c_blocked (c : clconf) (t : nat) (op : cop) : Prop :=
  exists l cv k, nth_error (thr c) t = Some (Asleep l op cv k).
Definition c_returns_in (t : nat) (h : list cevent) : Prop := exists op r, In (EDone t op r) h.
