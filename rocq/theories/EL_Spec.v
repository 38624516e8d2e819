(** * Specification: access to cloaked objects, in terms of what has been observed (newest first) *)
From Verif Require Import EL_Model.
Set Implicit Arguments.

(** how many uses of cloaked object [o] by thread [t], through guard [g], are in progress *)
Definition same (t g o t' g' o' : nat) : bool := (t =? t') && (g =? g') && (o =? o').
Fixpoint uses (t g o : nat) (h : list event) : nat :=
  match h with
  | [] => 0
  | EBegin t' g' o' :: h' => if same t g o t' g' o' then S (uses t g o h') else uses t g o h'
  | EEnd t' g' o' :: h' => if same t g o t' g' o' then pred (uses t g o h') else uses t g o h'
  | _ :: h' => uses t g o h'
  end.
(** [g] was constructed as a lock that others may share: directly or by moves *)
Fixpoint origin (g : nat) (h : list event) : option (nat * nat * bool) :=   (* thread, mutex, shared *)
  match h with
  | [] => None
  | EHeld g' t m sh :: h' => if g' =? g then Some (t, m, sh) else origin g h'
  | EMoved g0 g' :: h' => if g' =? g then origin g0 h' else origin g h'
  | _ :: h' => origin g h'
  end.
(** the guard that guard [g] has been moved to, after [h] *)
Fixpoint current (g : nat) (h : list event) : nat :=
  match h with
  | [] => g
  | EMoved a b :: h' => if current g h' =? a then b else current g h'
  | _ :: h' => current g h'
  end.
(** the guard, or what it was moved to, is destroyed in the course of [h] *)
Definition destroyed (g : nat) (h : list event) : Prop := exists a b, h = a ++ EDropped (current g b) :: b.
(** objects that refer to the same thing are associated with the same mutex *)
Definition coherent (objs : list obj) : Prop := forall a b, In a objs -> In b objs -> ox a = ox b -> om a = om b.
