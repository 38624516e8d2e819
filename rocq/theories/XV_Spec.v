(** * What a shared_mutex promises about the data it protects

    The history of the uses, newest first. *)
From Verif Require Import WS_Spec XV_Model.

(** No data race: a write sees all uses before it, and a read sees all writes before it. *)
Definition race_free (h : list ev) : Prop :=
  forall later t e w saw before, h = later ++ EvUse t e w saw :: before ->
    forall t' e' w' saw', In (EvUse t' e' w' saw') before -> w = true \/ w' = true -> In e' saw.

(** Nobody holds the mutex, and nobody is in a call. *)
Definition unused (s : st) : Prop := forall u, holds u (hist (base s)) = HNone /\ calling u (hist (base s)) = None.
(** A call of try_lock() by thread [t], from [s] to [s'], during which nobody else calls a function of the mutex
    or returns from one; it returns [r]. *)
Definition tries (s : st) (t : nat) (r : bool) (s' : st) : Prop :=
  exists s1 s2, step s s1 /\ step s1 s2 /\ step s2 s' /\ hist (base s1) = ECall t TryLock :: hist (base s) /\
    hist (base s2) = hist (base s1) /\ hist (base s') = ERet t TryLock (RBool r) :: hist (base s2).
(** [t] has synchronised with every thread: it is past whatever write they are past. *)
Definition synchronised (s : st) (t : nat) : Prop := forall u, v_ts (vw s u) <= v_ts (vw s t).

(** No call has thrown lock_error (they do when more threads hold the mutex or wait than the word can count). *)
Definition nothrow (h : list event) : Prop := forall u o, ~ In (ERet u o RThrow) h.
