(** * What a mutex promises about what is done under it

    Histories are lists of events, newest first. *)
From Coq Require Import List.
Import ListNotations.
From Verif Require Import WV_Model.

(** [t] owns the mutex: it has taken it and not released it since. *)
Definition owns (h : list ev) (t : nat) : Prop :=
  exists later before, h = later ++ EvGot t :: before /\ ~ In (EvGive t) later.

(** The mutex is taken only when nobody owns it. *)
Definition exclusive (h : list ev) : Prop :=
  forall later t before, h = later ++ EvGot t :: before -> forall t', ~ owns before t'.

(** try_lock fails only when somebody owns it. *)
Definition try_fails_if_owned (h : list ev) : Prop :=
  forall later t before, h = later ++ EvNo t :: before -> exists t', owns before t'.

(** Whoever does something while owning the mutex sees everything that was done under it before, by any
    thread: two accesses under the mutex are never a data race. *)
Definition effects_seen (h : list ev) : Prop :=
  forall later t e saw before, h = later ++ EvDo t e saw :: before ->
    owns before t /\ forall t' e' saw', In (EvDo t' e' saw') before -> In e' saw.
