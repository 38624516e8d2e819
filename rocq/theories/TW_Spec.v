(** * Specification of timed waiting *)
From Verif Require Import TW_Model.
Import ListNotations.

(** What the operating system promises, for a call that starts when the internal clock reads [now]: that clock never goes back, a timed wait ends with a time-out only
    when it has reached the deadline, and is rejected only as [os_rejects] says (it does not time out then); nanosleep ends, unless a signal handler has run ([Woken]), after at least the duration.  Nothing is said about the clock of the call. *)
Fixpoint honest (now : Z) (p : pc) (tr : list moment) : Prop :=
  match tr with
  | [] => True
  | m :: tr' =>
      now <= im m /\
      match ask p with
      | QWait ts => (wm m = TimedOut -> ts <= im m /\ os_rejects ts = false) /\ (wm m = Rejected -> os_rejects ts = true)
      | QSleep d => (wm m = TimedOut -> now + d <= im m) /\ (wm m = TimedOut \/ wm m = Woken)
      | QForever => wm m = Woken \/ wm m = Interrupted
      | _ => True
      end /\ honest (im m) (tell p m) tr'
  end.

(** The system is fast enough: an answer comes at most [lat] after the request, in case of a timed call at most [lat] after its deadline. *)
Fixpoint prompt (lat now : Z) (p : pc) (tr : list moment) : Prop :=
  match tr with
  | [] => True
  | m :: tr' =>
      match ask p with
      | QWait ts => im m <= Z.max now ts + lat
      | QSleep d => im m <= now + Z.max 0 d + lat
      | QForever => True
      | _ => im m <= now + lat
      end /\ prompt lat (im m) (tell p m) tr'
  end.

(** The call returned [r] at the last of the moments [tr]. *)
Definition returns (p : pc) (tr : list moment) (r : res) : Prop := run p tr = Some (Done r).
Definition last_moment (tr : list moment) (m : moment) : Prop := exists tr', tr = tr' ++ [m].
(** At some moment of the call its clock showed at least [t]. *)
Definition reached (t : Z) (tr : list moment) : Prop := exists m, In m tr /\ t <= um m.
Definition never_true (tr : list moment) : Prop := forall m, In m tr -> pm m = false.
Definition no_signal (tr : list moment) : Prop := forall m, In m tr -> wm m <> Woken.
Definition fits (z : Z) : Prop := - 2 ^ 63 <= z <= 2 ^ 63 - 1.

(** The predicate does not turn false between two evaluations that follow each other immediately (the caller's mutex is held). *)
Fixpoint stable (p : pc) (tr : list moment) : Prop :=
  match tr with
  | m :: (m' :: _) as tr' => (ask p = QPred -> pm m = true -> ask (tell p m) = QPred -> pm m' = true) /\ stable (tell p m) tr'
  | _ => True
  end.

(** The waits of a mutex that end neither with the mutex nor with a time-out (spurious wake-ups) end before their deadline, and none is rejected. *)
Fixpoint quiet (p : pc) (tr : list moment) : Prop :=
  match tr with
  | [] => True
  | m :: tr' => match ask p with QWait ts => (wm m = Interrupted -> im m < ts) /\ wm m <> Rejected | _ => True end /\ quiet (tell p m) tr'
  end.

(** How many times the call tried to get what it waits for. *)
Fixpoint attempts (p : pc) (tr : list moment) : nat :=
  match tr with
  | [] => 0
  | m :: tr' => (match ask p with QWait _ => 1 | _ => 0 end + attempts (tell p m) tr')%nat
  end.

(** The calls that wait for the time [t] of a clock of their own and poll. *)
Inductive polled (t : Z) : pc -> Prop :=
| Polled_wait : polled t (wait_until_pred t)
| Polled_timed_wait : polled t (timed_wait_abs_pred t)
| Polled_lock : polled t (try_lock_until t)
| Polled_join : polled t (try_join_until t)
| Polled_sleep : polled t (sleep_until t)
| Polled_nip_sleep : polled t (nip_sleep_until t).
