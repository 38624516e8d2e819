(** * What call_once promises about the effects of the function

    Histories are lists of events, newest first. *)
From Coq Require Import List.
Import ListNotations.
From Verif Require Import OM_Model.

(** The function of flag [g] has returned normally. *)
Definition completed (g : nat) (h : list ev) : Prop := exists t e, In (EvEnd t g e true) h.

(** [saw] contains every execution of the function of [g] that has ended, normally or not. *)
Definition sees_all (g : nat) (saw : list nat) (h : list ev) : Prop :=
  forall t e ok, In (EvEnd t g e ok) h -> In e saw.

(** A thread that returns from call_once sees everything the function has done, whichever thread executed it. *)
Definition returns_see (h : list ev) : Prop :=
  forall later t g saw before, h = later ++ EvRet t g saw :: before ->
    completed g before /\ sees_all g saw before.

(** An execution begins only when no other is in progress or has completed, and it sees what the failed ones
    have done. *)
Definition starts_see (h : list ev) : Prop :=
  forall later t g e saw before, h = later ++ EvStart t g e saw :: before ->
    ~ completed g before /\ sees_all g saw before /\
    (forall t' e' saw', In (EvStart t' g e' saw') before -> exists ok, In (EvEnd t' g e' ok) before).

(** The function of a flag returns normally at most once. *)
Definition completes_once (h : list ev) : Prop :=
  forall later t g e before, h = later ++ EvEnd t g e true :: before -> ~ completed g before.

(** How often a function has returned normally, over all flags. *)
Definition completions (h : list ev) : nat :=
  length (filter (fun x => match x with EvEnd _ _ _ true => true | _ => false end) h).
