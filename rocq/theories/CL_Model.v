(** * Model of boost::completion_latch

    Source: include/boost/thread/completion_latch.hpp:32-219 and
    include/boost/thread/detail/counter.hpp:24-92.
    Simplifications: the counters are unbounded naturals; calling count_down
    when the count is zero violates BOOST_ASSERT (completion_latch.hpp:66) and is
    undefined behaviour here; completion functions are named by numbers and do not
    throw; funct_ is read in the same step in which the mutex is released. *)

From Verif Require Import Monitor.
Set Implicit Arguments.

(** completion_latch.hpp:214-218; [c_funct]: the stored completion function. *)
Record clatch := MkCL { c_count : nat; c_wait : nat; c_leave : nat; c_funct : nat }.

(** The condition variables of the three counters count_, waiters_ and leavers_. *)
Inductive ccv := CVCount | CVWait | CVLeave.
Definition ccv_eqb (a b : ccv) : bool :=
  match a, b with CVCount, CVCount | CVWait, CVWait | CVLeave, CVLeave => true | _, _ => false end.

(** The public operations, completion_latch.hpp:110-211 ([CWaitTimed]: wait_for, wait_until;
    [CCountDown]: count_down, signal; [CSync]: count_down_and_wait, sync; [CThen]: then). *)
Inductive cop := CWait | CTryWait | CWaitTimed | CCountDown | CSync | CReset (n : nat) | CThen (f : nat).

(** [CCompleted f]: returned after having run the completion function [f]; [CTimeout b]: the cv_status. *)
Inductive cres := CVoid | CBool (b : bool) | CTimeout (b : bool) | CCompleted (f : nat) | CFun (f : nat) | CInterrupted.

(** Program points: start; the waits of around_wait's constructor (54 and 56); the body of the waiting
    operation (its wait on count_.cond_); its deadline; interrupted there; the two waits of count_down
    (69, 72); interrupted elsewhere. *)
Inductive ck :=
| CStart (op : cop) | CEnter (op : cop) | CInside (op : cop) | CBody (op : cop) | CDeadline
| CBodyIntr | CFirst | CSecond | CIntr.

Notation cout := (clatch * list (notif ccv) * outcome ck ccv cres)%type.
Notation cret r := (ORet ck ccv r).
Notation csleep cv k := (OSleep cres cv k).

(** completion_latch.hpp:58-61: the destructor of around_wait, then the return. *)
Definition c_leave_with (s : clatch) (r : cres) : cout :=
  (MkCL (c_count s) (c_wait s - 1) (c_leave s) (c_funct s), [NAll CVWait], cret r).

(** The bodies between constructor and destructor of around_wait: completion_latch.hpp:114, 122, 132-134,
    144-146, 172. *)
Definition c_body (op : cop) (s : clatch) : cout :=
  match op with
  | CTryWait => c_leave_with s (CBool (c_count s =? 0))
  | CWaitTimed =>
      if c_count s =? 0 then c_leave_with s (CTimeout false) else (s, [], csleep CVCount (CBody op))
  | _ => if c_count s =? 0 then c_leave_with s CVoid else (s, [], csleep CVCount (CBody op))
  end.

(** completion_latch.hpp:56: the second wait of the constructor. *)
Definition c_inside (op : cop) (s : clatch) : cout :=
  if c_leave s =? 0 then (s, [], csleep CVLeave (CInside op)) else c_body op s.

(** completion_latch.hpp:51-57: the constructor of around_wait; [ns0] were made before. *)
Definition c_enter (op : cop) (s : clatch) : cout :=
  if c_leave s =? 0 then
    let s' := MkCL (c_count s) (S (c_wait s)) (c_leave s) (c_funct s) in
    let '(s2, ns, o) := c_inside op s' in (s2, NAll CVWait :: ns, o)
  else (s, [], csleep CVLeave (CEnter op)).

(** completion_latch.hpp:72-76 *)
Definition c_second (s : clatch) : cout :=
  if c_wait s =? 0 then
    (MkCL (c_count s) (c_wait s) 0 (c_funct s), [NAll CVLeave], cret (CCompleted (c_funct s)))
  else (s, [], csleep CVWait CSecond).

(** completion_latch.hpp:69-71 *)
Definition c_first (s : clatch) : cout :=
  if c_wait s =? 0 then (s, [], csleep CVWait CFirst)
  else
    let '(s2, ns, o) := c_second (MkCL (c_count s) (c_wait s) (c_wait s) (c_funct s)) in
    (s2, [NAll CVLeave; NAll CVCount] ++ ns, o).

Section CL.
  Variable intr : bool.     (* may the threads be interrupted? *)

  Definition cfrag (_ : nat) (_ : unit) (k : ck) (s : clatch) : cout :=
    match k with
    (* completion_latch.hpp:110-147 *)
    | CStart CWait => c_enter CWait s
    | CStart CTryWait => c_enter CTryWait s
    | CStart CWaitTimed => c_enter CWaitTimed s
    (* completion_latch.hpp:151-155, 64-79 *)
    | CStart CCountDown =>
        match c_count s with
        | 0 => (s, [], OUB ck ccv cres)
        | S c =>
            let s' := MkCL c (c_wait s) (c_leave s) (c_funct s) in
            if c =? 0 then c_first s' else (s', [], cret CVoid)
        end
    (* completion_latch.hpp:164-173 *)
    | CStart CSync =>
        match c_count s with
        | 0 => (s, [], OUB ck ccv cres)
        | S c =>
            let s' := MkCL c (c_wait s) (c_leave s) (c_funct s) in
            if c =? 0 then c_first s' else c_enter CSync s'
        end
    (* completion_latch.hpp:181-186 *)
    | CStart (CReset n) => (MkCL n (c_wait s) (c_leave s) (c_funct s), [], cret CVoid)
    (* completion_latch.hpp:205-211 *)
    | CStart (CThen f) => (MkCL (c_count s) (c_wait s) (c_leave s) f, [], cret (CFun (c_funct s)))
    | CEnter op => c_enter op s
    | CInside op => c_inside op s
    | CBody op => c_body op s
    | CDeadline => c_leave_with s (CTimeout (negb (c_count s =? 0)))
    (* an exception in the body runs the destructor of around_wait *)
    | CBodyIntr => c_leave_with s CInterrupted
    | CFirst => c_first s
    | CSecond => c_second s
    (* an exception in the constructor of around_wait or in count_down runs no destructor *)
    | CIntr => (s, [], cret CInterrupted)
    end.

  (** Only the wait on count_.cond_ in wait_for and wait_until has a deadline (132, 144). *)
  Definition c_timeout (k : ck) : option ck :=
    match k with CBody CWaitTimed => Some CDeadline | _ => None end.

  Definition c_intr (k : ck) : option ck :=
    if intr then
      match k with
      | CEnter _ | CInside _ | CFirst | CSecond => Some CIntr
      | CBody _ => Some CBodyIntr
      | _ => None
      end
    else None.

  Definition clprog : prog clatch ck cop cres ccv unit unit :=
    MkProg ccv_eqb CStart cfrag c_timeout c_intr (fun _ _ => true) (fun l _ _ => l).
End CL.

(** completion_latch.hpp:85-102 *)
Definition clatch_new (count f : nat) : clatch := MkCL count 0 0 f.
