(** * Specification of thread_executor and inline_executor *)
From Verif Require Export TX_Model.
Set Implicit Arguments.

(** A sequence of steps from [s]. *)
Inductive steps : cfg -> nat -> cfg -> Prop :=
| steps_nil s : steps s 0 s
| steps_cons s l s1 n s2 : step s l = Some s1 -> steps s1 n s2 -> steps s (S n) s2.
Inductive isteps : icfg -> nat -> icfg -> Prop :=
| isteps_nil s : isteps s 0 s
| isteps_cons s t s1 n s2 : istep s t = Some s1 -> isteps s1 n s2 -> isteps s (S n) s2.

(** Nothing can happen any more. *)
Definition stuck (s : cfg) : Prop := forall l, step s l = None.
Definition istuck (s : icfg) : Prop := forall t, istep s t = None.

(** A closure that does not use its executor and does not throw: no commands at all. *)
Definition independent (c : cmd) : Prop := match c with Submit k _ => k = [] | _ => True end.
(** ... and one that may query its executor, submit to it and close it, but does not throw and is prepared for refusals. *)
Fixpoint careful (c : cmd) : Prop :=
  match c with
  | Submit k ct => ct = true /\ (fix all (l : list cmd) : Prop := match l with [] => True | x :: r => careful x /\ all r end) k
  | Throw => False
  | _ => True
  end.
Definition user_careful (c : cmd) : Prop := match c with Submit k _ => Forall careful k | _ => True end.

(** The closures that run on thread [t], innermost first, as the events tell (newest event first). *)
Fixpoint running (t : nat) (h : list ievent) : list nat :=
  match h with
  | [] => []
  | IBegin u i :: h' => if u =? t then i :: running t h' else running t h'
  | IEnd u _ :: h' => if u =? t then tl (running t h') else running t h'
  | _ :: h' => running t h'
  end.
Definition accepts (t : nat) (h : list ievent) : nat := length (filter (fun e => match e with IAccept u => u =? t | _ => false end) h).
Definition begins (t : nat) (h : list ievent) : nat := length (filter (fun e => match e with IBegin u _ => u =? t | _ => false end) h).
