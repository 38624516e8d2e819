(** * Specification: user_scheduler, in terms of what has been observed (newest first) *)
From Verif Require Import US_Model.
Set Implicit Arguments.

(** the closures accepted, and those started, oldest first *)
Fixpoint accepted (h : list event) : list nat := match h with [] => [] | EAccept k :: h' => accepted h' ++ [k] | _ :: h' => accepted h' end.
Fixpoint started (h : list event) : list nat := match h with [] => [] | EStart _ k :: h' => started h' ++ [k] | _ :: h' => started h' end.
Definition prefix (a b : list nat) : Prop := exists c, b = a ++ c.
Definition nothing_thrown (h : list event) : Prop := forall t k, ~ In (EEnd t k true) h.
