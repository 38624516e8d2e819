(** * What notifications of a condition variable owe to a waiting thread *)
From Verif Require Import Monitor WC_Model.
Set Implicit Arguments.
Notation wcconf := (cfg cv ck cop cres nat unit).

(** Thread [t] is blocked in a wait. *)
Definition wc_blocked (c : wcconf) (t : nat) : Prop := exists l op g k, nth_error (thr c) t = Some (Asleep l op g k).

(** [log] is newest first.  The number of waits for which there has not been a notification. *)
Fixpoint unserved (log : list act) : nat :=
  match log with
  | [] => 0
  | AReg _ :: log' => S (unserved log')
  | AOne :: log' => unserved log' - 1
  | AAll :: _ => 0
  | AWoke _ :: log' => unserved log'
  end.
(** The number of calls of notify_one since thread [t] began its present wait that have not been followed by a wake-up (of any thread), each wake-up counting for one call.
    A call at a time when there has been a notification for every wait counts for nothing. *)
Fixpoint owed (t : nat) (log : list act) : nat :=
  match log with
  | [] => 0
  | AReg u :: log' => if u =? t then 0 else owed t log'
  | AOne :: log' => if unserved log' =? 0 then owed t log' else S (owed t log')
  | AWoke _ :: log' => owed t log' - 1
  | AAll :: log' => owed t log'
  end.
(** notify_all has been called since thread [t] began its present wait; [served]: at a time when there had not been a notification for every wait. *)
Fixpoint all_since (t : nat) (log : list act) : bool :=
  match log with
  | [] => false
  | AReg u :: log' => if u =? t then false else all_since t log'
  | AAll :: _ => true
  | _ :: log' => all_since t log'
  end.
Fixpoint all_since_served (t : nat) (log : list act) : bool :=
  match log with
  | [] => false
  | AReg u :: log' => if u =? t then false else all_since_served t log'
  | AAll :: log' => negb (unserved log' =? 0) || all_since_served t log'
  | _ :: log' => all_since_served t log'
  end.
(** Thread [t] began a wait, and had not been woken again. *)
Fixpoint waiting_at (log : list act) (t : nat) : bool :=
  match log with
  | [] => false
  | AReg u :: log' => (u =? t) || waiting_at log' t
  | AWoke u :: log' => negb (u =? t) && waiting_at log' t
  | _ :: log' => waiting_at log' t
  end.
(** The number of waits for which there has been a notification: one for a notify_one, all those that began and were not yet provided for, for a notify_all. *)
Fixpoint granted (log : list act) : nat :=
  match log with
  | [] => 0
  | AOne :: log' => if unserved log' =? 0 then granted log' else S (granted log')
  | AAll :: log' => unserved log' + granted log'
  | _ :: log' => granted log'
  end.
(** The number of waits that ended with a wake-up. *)
Fixpoint woken_waits (log : list act) : nat :=
  match log with [] => 0 | AWoke _ :: log' => S (woken_waits log') | _ :: log' => woken_waits log' end.
(** The number of waits that returned as woken. *)
Fixpoint woken_returns (h : list (event cop cres)) : nat :=
  match h with [] => 0 | EDone _ _ RWoken :: h' => S (woken_returns h') | _ :: h' => woken_returns h' end.
