(** * What a recursive mutex promises, also about what is done under it

    Histories are lists of events, newest first. *)
From Coq Require Import List Arith.
Import ListNotations.
From Verif Require Import RV_Model.

(** How often [t] has locked the mutex more than unlocked it. *)
Fixpoint level (t : nat) (h : list ev) : nat :=
  match h with
  | [] => 0
  | (EvGot u | EvIn u) :: r => if u =? t then S (level t r) else level t r
  | (EvOut u | EvGive u) :: r => if u =? t then level t r - 1 else level t r
  | _ :: r => level t r
  end.

(** A locking call succeeds only if no other thread owns the mutex. The owner's calls go the short way, the
    calls of the others take the mutex. *)
Definition exclusive (h : list ev) : Prop :=
  (forall later t before, h = later ++ EvGot t :: before -> forall t', level t' before = 0) /\
  (forall later t before, h = later ++ EvIn t :: before -> 0 < level t before /\ forall t', t' <> t -> level t' before = 0).

(** unlock frees the mutex with the last unlock of its owner, not before and not later. *)
Definition balanced (h : list ev) : Prop :=
  (forall later t before, h = later ++ EvGive t :: before -> level t before = 1) /\
  (forall later t before, h = later ++ EvOut t :: before -> 1 < level t before).

(** try_lock fails only if another thread owns the mutex. *)
Definition try_fails_if_owned (h : list ev) : Prop :=
  forall later t before, h = later ++ EvNo t :: before -> exists t', t' <> t /\ 0 < level t' before.

(** Whoever does something while owning the mutex sees everything that was done under it before, by any
    thread. *)
Definition effects_seen (h : list ev) : Prop :=
  forall later t e saw before, h = later ++ EvDo t e saw :: before ->
    0 < level t before /\ forall t' e' saw', In (EvDo t' e' saw') before -> In e' saw.

(** recursion_count is free of data races: each use sees all uses before it. *)
Definition count_safe (h : list ev) : Prop :=
  forall later t e saw before, h = later ++ EvCnt t e saw :: before ->
    forall t' e' saw', In (EvCnt t' e' saw') before -> In e' saw.
