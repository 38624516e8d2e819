(** * Specification for threads the library has not started: counting *)
From Verif Require Export TE_Model TS_Spec.
Set Implicit Arguments.

(** [v], installed in [k] before, is among the data tls_destructor is working off *)
Definition waiting (k v : nat) (c : conf) : nat := length (filter (fun n => (n_key n =? k) && (n_val n =? v)) (c_old c)).

Definition xcount (p : xevent -> bool) (h : list xevent) : nat := length (filter p h).
Definition asked_with (m : nat) (e : xevent) : bool := match e with VAsked _ m' => m' =? m | _ => false end.
Definition asked_for (c : nat) (e : xevent) : bool := match e with VAsked c' _ => c' =? c | _ => false end.
Definition unlocked (m : nat) (e : xevent) : bool := match e with VUnlocked m' => m' =? m | _ => false end.
Definition notified (c : nat) (e : xevent) : bool := match e with VNotified c' => c' =? c | _ => false end.
Definition promised (p : nat) (e : xevent) : bool := match e with VPromised p' => p' =? p | _ => false end.
Definition made_ready (p : nat) (e : xevent) : bool := match e with VReady p' => p' =? p | _ => false end.

(** Everything asked for the end of the thread has been done, exactly once. *)
Definition all_done (h : list xevent) : Prop :=
  (forall m, xcount (unlocked m) h = xcount (asked_with m) h) /\
  (forall c, xcount (notified c) h = xcount (asked_for c) h) /\
  (forall p, xcount (made_ready p) h = xcount (promised p) h).
