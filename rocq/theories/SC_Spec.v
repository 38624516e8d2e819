(** * Specification vocabulary for the scheduled executors *)
From Coq Require Export List.
From Verif Require Export Monitor SC_Model.
From Verif Require Import TQ_Model SQ_Model.
Import ListNotations.
Set Implicit Arguments.

(** the tasks accepted and not yet started, with their times *)
Definition pending {V} (s : sc V) : list (V * Z) := t_data (s_q s).
Definition clock {V} (s : sc V) : Z := t_now (s_q s).
(** the tasks this thread is running *)
Definition runs {V} (x : tstat (sk V) (sop V) scv unit) : list (V * Z) :=
  match x with Ready _ _ _ (SkRun e) => [e] | Ready _ _ _ (SkTell (Some e)) => [e] | _ => [] end.
(** the time at which a sleeping thread wakes up by itself *)
Definition wakes {V} (k : sk V) : option Z :=
  match k with SkQ (TkInner _ dl) => dl | SkQ (TkOuter _ _ tp) => Some tp | _ => None end.
