(** * Vocabulary for constructors that fail *)
From Coq Require Import List Arith.
From Verif Require Export RC_Model.
Import ListNotations.
Set Implicit Arguments.

(** Nothing was left behind: when the caller has got the exception, or the object is destroyed, no thread is running; no destroyed queue was used; the program was not terminated. *)
Definition clean (s : sys) : Prop :=
  (In EThrown (hist s) \/ In EDestroyed (hist s) -> forall w, run s w <> Running) /\ (forall w, ~ In (EDead w) (hist s)) /\ ~ In ETerm (hist s).
(** The failure came after a thread had been started. *)
Definition late_failure (s : sys) : Prop := exists c, In (EFail (S c)) (hist s).
(** If the call throws, no thread was started; if it returns, one was, and is kept. *)
Definition all_or_nothing (s : sys) : Prop :=
  (In EThrown (hist s) -> forall w, ~ In (EStart w) (hist s)) /\ (In EBuilt (hist s) -> exists w, In (EStart w) (hist s) /\ In w (thr s)) /\ ~ In ETerm (hist s).
