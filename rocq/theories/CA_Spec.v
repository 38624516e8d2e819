(** * Specification of condition_variable_any, in terms of histories (newest event first) *)
From Verif Require Export CA_Model.
Set Implicit Arguments.

(** Who owns mutex [m] after [h]: wait() releases it and takes it back like unlock() and lock(). *)
Fixpoint owner (h : list event) (m : nat) : option nat :=
  match h with
  | [] => None
  | e :: h' =>
      match e with
      | ELocked t m' | EReturn t m' _ | EFailed t m' _ => if m' =? m then Some t else owner h' m
      | EUnlocked _ m' | EReleased _ m' _ => if m' =? m then None else owner h' m
      | _ => owner h' m
      end
  end.
(** the call [n] of wait() has ended *)
Definition ends (n : nat) (e : event) : bool :=
  match e with EReturn _ _ n' | ENotOwned _ _ n' | EFailed _ _ n' => n' =? n | _ => false end.
(** [e] may happen after [h]: a mutex is taken only when it is free, released only by its owner; wait() returns, or throws because
    of lock(), only after it has released the mutex, and takes it at that moment; it throws because of unlock() only if
    the caller does not own the mutex, and has then not released it; a call ends once; a notification wakes a thread that is
    in wait() and has released its mutex. *)
Definition legal (e : event) (h : list event) : Prop :=
  match e with
  | ELocked t m => owner h m = None
  | EUnlocked t m => owner h m = Some t
  | EReleased t m n => owner h m = Some t /\ In (EWait t m n) h /\ ~ In (EReleased t m n) h
  | EReturn t m n | EFailed t m n => owner h m = None /\ In (EReleased t m n) h /\ existsb (ends n) h = false
  | ENotOwned t m n => owner h m <> Some t /\ In (EWait t m n) h /\ ~ In (EReleased t m n) h /\ existsb (ends n) h = false
  | EWoke n w k => (exists m, In (EReleased w m k) h) /\ existsb (ends k) h = false /\ exists t, In (ENotify t false n) h /\ ~ In (ENotified t false n) h
  | ENotified t all n => In (ENotify t all n) h /\ ~ In (ENotified t all n) h
  | _ => True
  end.

(** [a] happened before [b] *)
Definition before (h : list event) (a b : event) : Prop := exists h1 h2 h3, h = h3 ++ b :: h2 ++ a :: h1.

Definition woken_by (n : nat) (e : event) : bool := match e with EWoke n' _ _ => n' =? n | _ => false end.
Definition count (p : event -> bool) (h : list event) : nat := length (filter p h).

(** the steps of the calls in progress, as opposed to new calls, time-outs and exceptions of the user's lock *)
Definition inner (l : label) : Prop := match l with LStep _ | LSignal _ _ | LMiss _ => True | _ => False end.

(** ** Destruction *)
(** every thread that waits has been notified: the documented precondition (doc/condition_variables.qbk 165-169, 509-513) *)
Definition all_notified (s : st) : Prop := forall t,
  match pcs s t with WEnter _ _ | WHold _ _ | WThrow _ _ | WGo _ _ | WSleep _ _ | NEnter _ _ | NHold _ _ | NLeave _ _ => False | _ => True end.
(** no call is in progress, except that it may be locking the user's lock again *)
Definition all_out (s : st) : Prop := forall t,
  match pcs s t with Idle | WRelock _ _ | WAgain _ _ => True | _ => False end.

(** Executions in which the object is destroyed at most once, only when [ok], and not used by a new call after that. *)
Inductive reach_if (ok : st -> Prop) : st -> Prop :=
| ri_init : reach_if ok init
| ri_step s l s' : reach_if ok s -> ub s = false -> dead s = false -> step s l s' ->
    (forall t, l = LDestroy t -> ok s) ->
    (match l with LDestroy _ | LWait _ _ | LNotify _ _ => alive s = true | _ => True end) -> reach_if ok s'.
