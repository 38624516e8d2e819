(** * Specification: unwrap(), in terms of what has been observed *)
From Verif Require Import UW_Model.
Set Implicit Arguments.

(** What the future of state i has to deliver, given what has happened; [inv]: the exception for an outer future that holds a future without state *)
Inductive resolves (inv : nat) (h : list event) : nat -> outcome -> Prop :=
| R_set i o : In (ESet i o) h -> resolves inv h i o
| R_outer_failed i u e : In (EUnwrap i u) h -> resolves inv h i (Exc e) -> resolves inv h u (Exc e)
| R_inner_invalid i u : In (EUnwrap i u) h -> resolves inv h i (Fut None) -> resolves inv h u (Exc inv)
| R_inner i u j o : In (EUnwrap i u) h -> resolves inv h i (Fut (Some j)) -> resolves inv h j o -> resolves inv h u o.

(** Future i cannot be ready before the promise or deferred function p, which has not delivered anything *)
Inductive needs (inv : nat) (h : list event) : nat -> nat -> Prop :=
| N_self i n d : In (ENew i n d) h -> (forall o, ~ In (ESet i o) h) -> needs inv h i i
| N_outer i u p : In (EUnwrap i u) h -> needs inv h i p -> needs inv h u p
| N_inner i u j p : In (EUnwrap i u) h -> resolves inv h i (Fut (Some j)) -> needs inv h j p -> needs inv h u p.

Definition is_promise (h : list event) (p : nat) : Prop := exists n, In (ENew p n false) h.

(** The future that thread t waits for *)
Fixpoint waits (t : nat) (h : list event) : option nat :=
  match h with
  | [] => None
  | EWaits u i :: h' => if u =? t then Some i else waits t h'
  | EWaited u i :: h' => if u =? t then None else waits t h'
  | _ :: h' => waits t h'
  end.

(** No thread can go on by itself *)
Definition at_rest (s : sys) : Prop := forall t, exec s (LRun t) = None /\ forall o, exec s (LDef t o) = None.

Definition unwraps (h : list event) : nat := length (filter (fun e => match e with EUnwrap _ _ => true | _ => false end) h).
