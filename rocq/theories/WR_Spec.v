(** * What programs rely on for the control blocks of threads (Windows)

    The history is newest first. *)
From Verif Require Import WR_Model.

Definition freed (b : nat) (h : list ev) : Prop := exists t saw, In (EvFree t b saw) h.
(** A block is destroyed at most once, and not used or started after that. *)
Definition no_use_after_free (h : list ev) : Prop :=
  forall later x before, h = later ++ x :: before ->
    match x with
    | EvUse _ b _ _ | EvStart _ b _ | EvFree _ b _ | EvEnd _ b => ~ freed b before
    | EvNew _ b _ => True
    end.
(** Who destroys a block has seen all accesses to it (no data race with the destruction). *)
Definition frees_see (h : list ev) : Prop :=
  forall later t b saw before, h = later ++ EvFree t b saw :: before ->
    (forall t' e saw', In (EvUse t' b e saw') before -> In e saw) /\ (forall t' e, In (EvNew t' b e) before -> In e saw).
(** The function object of a thread is destroyed only when the thread has ended. *)
Definition free_after_end (h : list ev) : Prop :=
  forall later t b saw before, h = later ++ EvFree t b saw :: before ->
    forall t' u, In (EvStart t' b u) before -> In (EvEnd u b) before.
(** Nothing leaks: a block that has been created is still referred to, or about to be destroyed, or destroyed. *)
Definition no_leak (s : st) : Prop :=
  forall t b e, In (EvNew t b e) (log s) ->
    freed b (log s) \/ (exists p, In p (ptrs s) /\ p_b p = b) \/ (exists t', In (t', b) (dying s)).
(** Two ids (or thread objects) are equal if and only if they belong to the same thread. *)
Definition ids_distinct (s : st) : Prop :=
  forall p q, In p (ptrs s) -> In q (ptrs s) -> (addr s (p_b p) = addr s (p_b q) <-> p_b p = p_b q).
(** The function object of a thread that has ended is destroyed, if no boost::thread object refers to the thread and nobody is in a call. *)
Definition gone_with_object (s : st) : Prop :=
  forall u b, In (EvEnd u b) (log s) -> (forall p, In p (ptrs s) -> p_b p = b -> p_k p = KId) -> dying s = [] -> freed b (log s).
(** It is destroyed, and what was registered for the end of the thread is done, by the thread itself. *)
Definition freed_by_itself (h : list ev) : Prop :=
  forall t b saw t' u, In (EvFree t b saw) h -> In (EvStart t' b u) h -> t = u.
