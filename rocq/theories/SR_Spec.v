(** * Specification: schedulers, in terms of what has been observed *)
From Verif Require Import SR_Model.
Set Implicit Arguments.

(** Closure i was called by a thread of the scheduler, or submitted to its executor *)
Definition begun (h : list event) (i : nat) : Prop := exists c, In (ERun i c) h \/ exists e, In (EResub i e c) h.
(** how often *)
Definition starts (i : nat) (h : list event) : nat :=
  length (filter (fun e => match e with ERun j _ => j =? i | EResub j _ _ => j =? i | _ => false end) h).
(** It was called and has not ended *)
Definition being_run (h : list event) (i : nat) : Prop := (exists c, In (ERun i c) h) /\ ~ In (EEnd i) h /\ ~ In (EEscape i) h.
(** No thread_interrupted has ended a thread of the scheduler, from the wait for work or out of a closure *)
Definition undisturbed (h : list event) : Prop := ~ In EThrown h /\ forall i, ~ In (EEscape i) h.
Definition terminated (h : list event) : Prop := exists i, In (ETerm i) h.
(** What executor e was given, in order *)
Definition given (e : nat) (h : list event) : list nat := rev (flat_map (fun x => match x with EResub i e' _ => if e' =? e then [i] else [] | _ => [] end) h).

(** Nothing goes on by itself: neither the threads of the scheduler nor the calls; closures that are being executed and the clock aside *)
Definition at_rest (s : sys) : Prop := (forall k j, exec s (LPull k j) = None) /\ (forall k, exec s (LWork k) = None) /\ forall t, exec s (LClient t) = None.
(** Some thread of the scheduler is not inside a closure *)
Definition thread_free (s : sys) : Prop := exists k x, nth_error (wks s) k = Some x /\ forall it, ws x <> WIn it.

(** What the program has asked for, from its calls (oldest first): the executors it has obtained from at, after and on, each with its time and executor; the last call of client t *)
Definition obtained (ls : list label) : list (Z * option nat) :=
  flat_map (fun l => match l with LCall _ (OAt tp) => [(tp, None)] | LCall _ (OOn e tp) => [(tp, Some e)] | _ => [] end) ls.
Definition last_call (t : nat) (ls : list label) : option op :=
  fold_left (fun a l => match l with LCall t' o => if t' =? t then Some o else a | _ => a end) ls None.
Definition asked (ls : list label) (t : nat) (d : Z) (o : option nat) : Prop :=
  match last_call t ls with
  | Some (OSubmitAt tp) => d = tp /\ o = None
  | Some (OSubmit w) => nth_error (obtained ls) w = Some (d, o)
  | _ => False
  end.
