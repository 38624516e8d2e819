(** * Specification of thread objects *)
From Verif Require Export TH_Model.
Set Implicit Arguments.

(** The threads that are represented by some object, with repetitions. *)
Definition held (o : obj) : list nat := match o with OThr _ (Some j) => [j] | _ => [] end.
Definition boxed (h : option nat) : list nat := match h with Some j => [j] | None => [] end.
Definition represented (s : cfg) : list nat := flat_map (fun x => flat_map held (loc x)) (ths s) ++ flat_map boxed (box s).

(** [j] has been joined, or detached. *)
Definition released (h : list event) (j : nat) : Prop := exists t, In (EJoined t j) h \/ In (EDetached t j) h.
Definition started (h : list event) (j : nat) : Prop := exists t, In (EStart t j) h.

(** [j] was created by [t], or by a thread that was created by [t], and so on. *)
Inductive descendant (h : list event) (t : nat) : nat -> Prop :=
| desc_child j : In (EStart t j) h -> descendant h t j
| desc_more i j : descendant h t i -> In (EStart i j) h -> descendant h t j.

(** Thread [t] is inside a destructor of a scoped_thread or thread_guard, as the events tell (newest first). *)
Fixpoint in_dtor (t : nat) (h : list event) : bool :=
  match h with
  | [] => false
  | EDtor u _ _ :: h' => if u =? t then true else in_dtor t h'
  | EDestroyed u _ _ :: h' => if u =? t then false else in_dtor t h'
  | _ :: h' => in_dtor t h'
  end.

(** The thread that performs an event. *)
Definition actor (e : event) : nat :=
  match e with
  | EStart t _ | EFail t | EEnd t | EJoined t _ | ETimeout t _ | EDeadlock t | EInvalid t | EDetached t _ | ERequest t _ | EIntr t
  | EDtor t _ _ | EDestroyed t _ _ | EAssigned t _ _ => t
  end.

(** A predicate on all commands of a program, those of the threads it creates included. *)
Fixpoint every (P : cmd -> Prop) (c : cmd) : Prop :=
  P c /\ match c with New _ _ b _ => (fix all (l : list cmd) : Prop := match l with [] => True | x :: r => every P x /\ all r end) b | _ => True end.
(** Thread objects are handed over only to new threads. *)
Definition no_exchange (c : cmd) : Prop := match c with Exchange _ _ => False | _ => True end.
Definition joins (f : functor) : Prop := match f with FJoin | FIntJoin => True | _ => False end.
(** All threads belong to scoped_threads that join. *)
Definition structured (c : cmd) : Prop :=
  match c with
  | New k _ _ _ | MoveNew k _ => match k with KScoped f => joins f | KPlain => False end
  | Guard f _ => joins f
  | Detach _ | Exchange _ _ => False
  | _ => True
  end.
(** Failures of thread creation are handled. *)
Definition handles_failure (c : cmd) : Prop := match c with New _ _ _ ct => ct = true | _ => True end.

Inductive steps (v3 : bool) : cfg -> nat -> cfg -> Prop :=
| steps_nil s : steps v3 s 0 s
| steps_cons s t ch s1 n s2 : step v3 s t ch = Some s1 -> steps v3 s1 n s2 -> steps v3 s (S n) s2.
Definition stuck (v3 : bool) (s : cfg) : Prop := forall t ch, step v3 s t ch = None.
