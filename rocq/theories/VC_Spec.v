(** * Vocabulary for arguments *)
From Coq Require Import List Arith.
From Verif Require Export VC_Model.
Import ListNotations.
Set Implicit Arguments.

Section S.
Variable V : Type.
(** The value the call has to deliver when its argument has value [v]: get_or and fallback_to deliver their argument only if there is an exception *)
Definition due (c : call V) (v : V) : V :=
  match c with GetOr (Some r) | FallbackTo (Some r) => r | _ => v end.
(** A call with an lvalue (const if [k]) as argument is rejected by the compiler, or delivers a new object with the right value and changes no object that was there *)
Definition copies (c : call V) (k : bool) : Prop :=
  forall h x v h' r, x < length h -> content h x = Some v -> perform c (Expr x k LV) h = Some (h', r) ->
  length h <= r /\ content h' r = Some (due c v) /\ (forall y, y < length h -> content h' y = content h y).
(** With an rvalue it delivers a new object with the right value and changes no object except, if not const, its argument *)
Definition takes (c : call V) : Prop :=
  forall h x k v h' r, x < length h -> content h x = Some v -> perform c (Expr x k XV) h = Some (h', r) ->
  length h <= r /\ content h' r = Some (due c v) /\ (forall y, y < length h -> y <> x \/ k = true -> content h' y = content h y).
(** The compiler accepts the call *)
Definition accepts (c : call V) (k : bool) (t : category) : Prop :=
  forall h x, exists h' r, perform c (Expr x k t) h = Some (h', r).
(** The value delivered is right, whatever becomes of the argument *)
Definition delivers (c : call V) : Prop :=
  forall h e v h' r, obj e < length h -> content h (obj e) = Some v -> perform c e h = Some (h', r) -> content h' r = Some (due c v).
(** The four functions that use boost::move on a parameter that can be the caller's object (a const object is copied all the same), and the one that keeps a reference
    to a const object *)
Definition careless (c : call V) (k : bool) : bool :=
  match c, k with
  | GetOr None, false | FallbackTo _, false | UserSchedulerSubmit _, false | SchedulerOnSubmit _, false | TaskRun _, true => true
  | _, _ => false
  end.

(** A program that makes calls one after the other, each with one of its objects as an lvalue *)
Inductive runs : heap V -> list (call V * nat * bool) -> heap V -> list nat -> Prop :=
  | runs_nil h : runs h [] h []
  | runs_cons h c x k l h1 r h2 rs : perform c (Expr x k LV) h = Some (h1, r) -> runs h1 l h2 rs -> runs h ((c, x, k) :: l) h2 (r :: rs).
End S.
