(** * Model of attaching continuations to a shared state and launching them

    Source: include/boost/thread/future.hpp: do_continuation 304-315, set_continuation_ptr 327-333, mark_finished_internal 335-345, then 4979-5341 (each overload locks
    the mutex of the parent's state, makes the state of the continuation and calls set_continuation_ptr), launch_continuation in continuation_shared_state's variants
    4604-4841, future_unwrap_shared_state 5400-5480.

    One parent state and any number of threads that attach continuations to it (several can only be attached through a shared_future), make it ready or look at it.
    Continuations are numbered in the order they are attached.  A launch is a step of the launching thread, which the environment lets succeed or throw (a thread
    cannot be created, an executor is closed); a continuation that runs in the launching thread (launch::sync, inline executors) may attach further continuations to
    the same parent, to any depth.  Simplifications: what an asynchronous continuation does afterwards is not part of this model (it is FD_Model.v's subject);
    setting a second time is refused, as in FU_Model.v. *)
From Verif Require Import Monitor.
Set Implicit Arguments.

(** [conts]: the continuations attached and not taken for launching.  Ghosts: [nxt]: how many were attached; [launched]: those whose launch succeeded, newest first;
    [lost]: those whose launch threw or was skipped because an earlier one in the same round threw. *)
Record fcs := MkC { ready : bool; conts : list nat; nxt : nat; launched : list nat; lost : list nat }.
Definition fc0 : fcs := MkC false [] 0 [] [].

Inductive cop := OThen | OSet | OReady.
Inductive cres := ROk | RAlready | RThrow | RBool (b : bool).
Inductive ccv := CNone.
Definition ccv_eqb (a b : ccv) : bool := true.
(** the choices of the environment: [AGo]: the launch succeeds, or the running continuation ends; [AThrow]: the launch throws; [AAttach]: the continuation that runs in this
    thread attaches another *)
Inductive cact := AGo | AThrow | AAttach.

(** [KLoop fs]: in the loop 310-312 of do_continuation; [KIn fs]: inside launch_continuation.  [fs]: the continuations still to be launched by this loop and by the loops
    it is nested in. *)
Inductive ck := KStart (op : cop) | KLoop (fs : list (list nat)) | KIn (fs : list (list nat)).

Notation cout := (fcs * list (notif ccv) * outcome ck ccv cres)%type.
Notation ret r := (ORet ck ccv r).
Notation yield k := (OYield ccv cres k).

(** do_continuation 304-315: takes all the continuations *)
Definition take_all (s : fcs) : fcs := MkC (ready s) [] (nxt s) (launched s) (lost s).
Definition do_cont (s : fcs) (fs : list (list nat)) : cout :=
  match conts s, fs with
  | [], [] => (s, [], ret ROk)
  | [], _ :: _ => (s, [], yield (KIn fs))
  | l, _ => (take_all s, [], yield (KLoop (l :: fs)))
  end.
(** set_continuation_ptr 327-333 *)
Definition attach (s : fcs) (fs : list (list nat)) : cout :=
  let s1 := MkC (ready s) (conts s ++ [nxt s]) (S (nxt s)) (launched s) (lost s) in
  if ready s1 then do_cont s1 fs else (s1, [], match fs with [] => ret ROk | _ => yield (KIn fs) end).

Definition cfrag (_ : nat) (a : cact) (k : ck) (s : fcs) : cout :=
  match k with
  | KStart OThen => attach s []
  (* mark_finished_internal 335-345 *)
  | KStart OSet => if ready s then (s, [], ret RAlready) else do_cont (MkC true (conts s) (nxt s) (launched s) (lost s)) []
  | KStart OReady => (s, [], ret (RBool (ready s)))
  | KLoop [] => (s, [], ret ROk)
  | KLoop ([] :: fs) => (s, [], match fs with [] => ret ROk | _ => yield (KIn fs) end)
  | KLoop ((x :: l) :: fs) =>
      match a with
      | AThrow =>     (* the exception leaves do_continuation, then or set_value; a continuation around it, if any, goes on *)
          (MkC (ready s) (conts s) (nxt s) (launched s) (x :: l ++ lost s), [], match fs with [] => ret RThrow | _ => yield (KIn fs) end)
      | _ => (MkC (ready s) (conts s) (nxt s) (x :: launched s) (lost s), [], yield (KIn (l :: fs)))
      end
  | KIn fs => match a with AAttach => attach s fs | _ => (s, [], yield (KLoop fs)) end
  end.

Definition fcprog : prog fcs ck cop cres ccv unit cact :=
  MkProg ccv_eqb KStart cfrag (fun _ => None) (fun _ => None) (fun _ _ => true) (fun l _ _ => l).
