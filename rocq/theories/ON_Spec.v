(** * What a user of boost::call_once observes *)

From Verif Require Import Monitor ON_Model.

Definition is_start (g : nat) (e : cbev) : bool := match e with CbStart _ g' => g' =? g | _ => false end.
Definition is_end (g : nat) (e : cbev) : bool := match e with CbEnd _ g' => g' =? g | _ => false end.
Definition is_throw (g : nat) (e : cbev) : bool := match e with CbThrow _ g' => g' =? g | _ => false end.

(** How often a callable for flag [g] was started / ended normally / threw. *)
Definition starts (g : nat) (log : list cbev) : nat := length (filter (is_start g) log).
Definition ends (g : nat) (log : list cbev) : nat := length (filter (is_end g) log).
Definition throws (g : nat) (log : list cbev) : nat := length (filter (is_throw g) log).
(** Completed initialisations of all flags. *)
Definition inits (log : list cbev) : nat :=
  length (filter (fun e => match e with CbEnd _ _ => true | _ => false end) log).

(** The newest event of flag [g]. *)
Definition ev_flag (e : cbev) : nat := match e with CbStart _ g | CbEnd _ g | CbThrow _ g => g end.
Definition last_ev (g : nat) (log : list cbev) : option cbev := find (fun e => ev_flag e =? g) log.

(** No overlap, and nothing after a normal end: when a callable of [g] starts, none of [g] has ended normally
    and all that were started have thrown. *)
Definition well_nested (log : list cbev) : Prop := forall l1 t g l2, log = l1 ++ CbStart t g :: l2 ->
  ends g l2 = 0 /\ starts g l2 = throws g l2.

Section Obs.
  Variable S : Type.
  Notation conf := (cfg S okp oop ores unit unit).

  Definition executing (c : conf) (t g : nat) : Prop :=
    exists l op, nth_error (thr c) t = Some (Ready unit l op (KBody g)).
  Definition stuck (c : conf) (t g : nat) : Prop :=
    exists l cv k, nth_error (thr c) t = Some (Asleep l (Once g) cv k).
  (** Nothing can happen without a new call or the end of a running callable. *)
  Definition only_callables_run (c : conf) : Prop :=
    forall t x, nth_error (thr c) t = Some x ->
      match x with
      | Idle _ _ _ _ | Asleep _ _ _ _ | Ready _ _ _ (KBody _) => True
      | _ => False
      end.
End Obs.
Arguments executing {S}. Arguments stuck {S}. Arguments only_callables_run {S}.
