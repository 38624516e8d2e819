(** * Interruption, sleeping and joining on Windows: specification *)
From Verif Require Export WI_Model.
Set Implicit Arguments.

(** A request to interrupt t has been made and t has not thrown thread_interrupted since. *)
Fixpoint pending (t : nat) (h : list event) : bool :=
  match h with
  | [] => false
  | EReq j :: h' => if (j =? t)%nat then true else pending t h'
  | EThrow u :: h' => if (u =? t)%nat then false else pending t h'
  | _ :: h' => pending t h'
  end.

(** The number of disable_interruption objects of t in scope *)
Fixpoint disabled (t : nat) (h : list event) : nat :=
  match h with
  | [] => 0
  | EDis u :: h' => if (u =? t)%nat then S (disabled t h') else disabled t h'
  | EUndis u :: h' => if (u =? t)%nat then pred (disabled t h') else disabled t h'
  | _ :: h' => disabled t h'
  end.
(** t is a thread of the library and has interruption enabled *)
Definition interruptible (boost : list bool) (t : nat) (h : list event) : bool :=
  nth t boost false && (disabled t h =? 0)%nat.

(** What t is doing: nothing of interest; a call that waits; throwing from interruption_point() *)
Inductive activity := Nothing | Waits (k : kind) | AtPoint.
Fixpoint doing (t : nat) (h : list event) : activity :=
  match h with
  | [] => Nothing
  | EWait u k _ _ :: h' => if (u =? t)%nat then Waits k else doing t h'
  | ERet u _ _ _ _ :: h' => if (u =? t)%nat then Nothing else doing t h'
  | EThrow u :: h' => if (u =? t)%nat then Nothing else doing t h'
  | EInvalid u :: h' => if (u =? t)%nat then Nothing else doing t h'
  | EDeadlock u :: h' => if (u =? t)%nat then Nothing else doing t h'
  | EPoint u :: h' => if (u =? t)%nat then AtPoint else doing t h'
  | _ :: h' => doing t h'
  end.

(** Each time thread_interrupted is thrown in t: a request is pending, t has interruption enabled, and is at an interruption point.
    Each time t passes interruption_point(), one of the first two is not so.
    What interruption_requested() and interruption_enabled() tell is the case. *)
Fixpoint interruptions_ok (boost : list bool) (h : list event) : Prop :=
  match h with
  | [] => True
  | e :: h' =>
      match e with
      | EThrow t =>
          pending t h' = true /\ interruptible boost t h' = true /\
          match doing t h' with Nothing => False | Waits k => k_ipt k = true | AtPoint => True end
      | EPass t => pending t h' = false \/ interruptible boost t h' = false
      | EAsk j b => b = pending j h'
      | EEnabled t b => b = interruptible boost t h'
      | _ => True
      end /\ interruptions_ok boost h'
  end.

(** Each time a join or a sleep returns: it is the call that the thread is in; with true only if the awaited thread has ended, with false only if
    the time has come. *)
Definition has_ended (j : nat) (h : list event) : Prop := In (EFin j) h.
Fixpoint returns_ok (h : list event) : Prop :=
  match h with
  | [] => True
  | e :: h' =>
      match e with
      | ERet t k b n r =>
          doing t h' = Waits k /\
          (b = true -> exists j, k_obj k = Some j /\ has_ended j h') /\
          (b = false -> match k_dl k with Never => False | Mono d => d <= n | Real d => d <= r end)
      | _ => True
      end /\ returns_ok h'
  end.

(** The time of a call is less than 49 days and 17 hours (2^32 - 1 ms) ahead when it is made. *)
Definition soon (e : event) : Prop :=
  match e with EWait _ k n _ => match k_dl k with Mono d => d - n <= 4294967294 * 1000000 | _ => True end | _ => True end.

(** Steps of thread t itself; the Windows API does not return early. *)
Definition own (fallible : bool) (t : nat) (l : label) : Prop :=
  match l with LRun u => u = t | LEnter u ok => u = t /\ (fallible = true \/ ok = true) | _ => False end.
(** t cannot take a step *)
Definition stuck (s : sys) (t : nat) : Prop := exec s (LRun t) = None /\ exec s (LEnter t true) = None /\ exec s (LEnter t false) = None.
(** [t] runs, alone and for as long as it can, from s to s' *)
Definition settles (fallible : bool) (t : nat) (s s' : sys) : Prop :=
  exists ls, Forall (own fallible t) ls /\ runl s ls = Some s' /\ stuck s' t.

(** No other thread's join or detach has taken the thread from object j. *)
Definition kept (t j : nat) (h : list event) : Prop := forall u, In (ERel j u) h -> u = t.
