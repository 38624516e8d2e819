(** * Specification of futures: what every call may return, given the calls completed before it *)
From Verif Require Import Monitor FU_Model.
Set Implicit Arguments.

Notation fuconf := (cfg fst_ fk fop res fcv unit).
Notation fevent := (event fop res).

(** What an event, made while no outcome is there, decides the outcome to be: a successful set_value or set_exception; a promise or task destroyed;
    the end of the packaged or deferred function. *)
Definition decides (ev : fevent) : option outc :=
  match ev with
  | EDone _ (OSet o) (_, ROk) => Some o
  | EDone _ ODestroy _ => Some (Exc EBroken)
  | EDone _ OTaskDestroy (_, RBroke) => Some (Exc EBroken)
  | EDone _ _ (Some o, _) => Some o
  | _ => None
  end.
(** The outcome: given by the oldest deciding event ([h] is newest first). *)
Fixpoint decided (h : list fevent) : option outc :=
  match h with
  | [] => None
  | ev :: h' => match decided h' with Some o => Some o | None => decides ev end
  end.

Definition is_some {A} (x : option A) : bool := match x with Some _ => true | None => false end.

(** [legal d op (ran, r)]: the call [op] may return [r] when the outcome decided before is [d]; if the function was called in [op],
    there was no outcome and what the function returned is the outcome [op] sees. *)
Definition legal (d : option outc) (op : fop) (x : res) : Prop :=
  let d' := match fst x with Some o => Some o | None => d end in
  (fst x <> None -> d = None) /\
  match op, snd x with
  | OSet _, ROk => d = None
  | OSet _, RAlready => d <> None
  | ODestroy, RBroke => d = None
  | ODestroy, ROk => d <> None
  | OTaskDestroy, RBroke => d = None
  | OTaskDestroy, ROk => True
  | OAssign, ROk => True
  | ORun, ROk => fst x <> None
  | ORun, RStarted => True
  | OWait, RReady => d' <> None
  | OWaitUntil, RReady => d <> None
  | OWaitUntil, RTimeout => d = None
  | OWaitUntil, RDeferred => d = None
  | (OGet | OGetSh), RVal v => d' = Some (Val v)
  | (OGet | OGetSh), RExc e => d' = Some (Exc e)
  | OGetOr w, RVal v => d' = Some (Val v) \/ (v = w /\ exists e, d' = Some (Exc e))
  | OGetOrSh _, RVal v => d' = Some (Val v)
  | OGetOrSh _, RExc e => d' = Some (Exc e)
  | (OGet | OGetOr _ | OGetSh | OGetOrSh _), RMoved => exists v, d' = Some (Val v)
  | (OGet | OGetOr _), RUninit => True
  | OExcPtr, RPtr x => match d' with None => False | Some (Val _) => x = None | Some (Exc e) => x = Some e end
  | OReady, RBool b => b = is_some d
  | OHasValue, RBool b => b = match d with Some (Val _) => true | _ => false end
  | OHasExc, RBool b => b = match d with Some (Exc _) => true | _ => false end
  | ORunIf b, RBool b' => match fst x with Some _ => b' = true | None => b' = b && is_some d end
  | (OWait | OWaitUntil | OGet | OGetSh | OGetOr _ | OGetOrSh _ | OExcPtr), RIntr => True
  | _, _ => False
  end.
