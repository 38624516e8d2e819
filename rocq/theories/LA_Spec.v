(** * Specification of the lock algorithms *)

From Verif Require Export LA_Model.
Set Implicit Arguments.
Local Open Scope Z_scope.

(** How often mutex [x] is held by the caller after the actions of the trace, if it did not hold it before. *)
Definition effect (x : nat) (e : act * ans) : Z :=
  match e with
  | (ALock m, AThrow) | (ATry m, AThrow) | (ATry m, AFail) => 0
  | (ALock m, _) | (ATry m, AOk) => if Nat.eqb m x then 1 else 0
  | (AUnlock m, _) => if Nat.eqb m x then -1 else 0
  end.
Fixpoint held (x : nat) (tr : trace) : Z := match tr with [] => 0 | e :: tr' => effect x e + held x tr' end.

(** How often [x] is among the arguments. *)
Definition occurs (ms : list nat) (x : nat) : Z := Z.of_nat (count_occ Nat.eq_dec ms x).

(** No mutex is unlocked that is not held. *)
Fixpoint unlocks_held (tr : trace) : Prop :=
  match tr with
  | [] => True
  | (AUnlock m, _) :: tr' => 0 < held m tr' /\ unlocks_held tr'
  | _ :: tr' => unlocks_held tr'
  end.

Definition trace_of {A} (o : out A) : trace := match o with Val _ _ tr | Exn _ tr | Pend _ tr => tr | OutOfFuel => [] end.

(** The lockable at which the latest attempt failed, if nothing but unlocks has happened since. *)
Fixpoint busy (tr : trace) : option nat :=
  match tr with
  | (AUnlock _, _) :: tr' => busy tr'
  | (ATry m, AFail) :: _ => Some m
  | _ => None
  end.
