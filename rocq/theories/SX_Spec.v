(** * Specification of a serial executor *)
From Verif Require Import Monitor SX_Model.
Set Implicit Arguments.
Notation sxconf := (cfg sx xk xop xres xcv unit).

Definition act_eqb (a b : act) : bool := match a, b with Beg i, Beg j | End i, End j => i =? j | _, _ => false end.
(** how often something happened *)
Fixpoint times (a : act) (l : list act) : nat := match l with [] => 0 | b :: l' => (if act_eqb a b then 1 else 0) + times a l' end.
(** closures 0 .. m-1 have run one after the other, in order (newest first) *)
Fixpoint serial (m : nat) : list act := match m with 0 => [] | S m' => End m' :: Beg m' :: serial m' end.
(** the number of accepted submissions *)
Fixpoint accepted (h : list (event xop xres)) : nat :=
  match h with [] => 0 | EDone _ OSubmit ROk :: h' => S (accepted h') | _ :: h' => accepted h' end.
