(** * Specification: where continuations are carried out, in terms of what has been observed *)
From Verif Require Import EC_Model.
Set Implicit Arguments.

(** The function of state k has to be given to executor o (None: to a new thread): the one that the program named, otherwise the one of the future that it continues *)
Inductive belongs (h : list event) : nat -> option nat -> Prop :=
| B_async k e : In (ECreate k (OAsync e)) h -> belongs h k (Some e)
| B_promise k oe : In (ECreate k (OPromise oe)) h -> belongs h k oe
| B_named k i e : In (ECreate k (OThen i (Some e))) h -> belongs h k (Some e)
| B_inherits k i o : In (ECreate k (OThen i None)) h -> belongs h i o -> belongs h k o.

(** k continues the future of state i without naming an executor, and i has one *)
Definition inherits (h : list event) (k i : nat) : Prop := In (ECreate k (OThen i None)) h /\ exists e, belongs h i (Some e).
