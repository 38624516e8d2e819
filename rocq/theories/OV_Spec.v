(** * Vocabulary for visible outcomes *)
From Coq Require Import List Arith.
From Verif Require Export OV_Model.
Import ListNotations.
Set Implicit Arguments.

(** Histories have the latest event first.  Once a thread has found an outcome, every thread finds the same. *)
Definition stable (h : list event) : Prop :=
  forall h1 h2 h3 t o t' o', h = h1 ++ EObs t' o' :: h2 ++ EObs t (Some o) :: h3 -> o' = Some o.
(** No thread finds an outcome that the producer did not produce before. *)
Definition honest (h : list event) : Prop :=
  forall h1 h2 t o, h = h1 ++ EObs t (Some o) :: h2 -> In (EFun o) h2.
(** A launch of a continuation has thrown *)
Definition failed (h : list event) : Prop := exists n e, In (EFail n e) h.
(** What can change: a value is replaced by the exception of a launch that failed after the function had returned *)
Definition value_then_failure (h : list event) : Prop :=
  forall h1 h2 h3 t o t' o', h = h1 ++ EObs t' o' :: h2 ++ EObs t (Some o) :: h3 ->
  o' = Some o \/ exists v n e, o = Val v /\ o' = Some (Exc e) /\ In (EFun (Val v)) h3 /\ In (EFail n e) (h2 ++ h3).
(** How often continuation [n] was launched or a launch of it was attempted *)
Definition try_of (n : nat) (x : event) : bool := match x with ELaunch m | EFail m _ | EThen m _ => m =? n | _ => false end.
Definition tries (n : nat) (h : list event) : nat := length (filter (try_of n) h).
(** What may happen after a state *)
Inductive later (k : kind) (s : sys) : sys -> Prop :=
  | l_refl : later k s s
  | l_step s' s'' : later k s s' -> step k s' s'' -> later k s s''.
(** The producer has ended *)
Definition ended (s : sys) : Prop := pc s = PEnd \/ exists e, pc s = PGone e.
