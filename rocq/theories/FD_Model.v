(** * Model of waiting for a continuation: a parent state and the state of one continuation attached to it

    Source: include/boost/thread/future.hpp: wait_internal 387-399, future_deferred_shared_state::execute 1055-1068, basic_future::wait 1444-1451,
    continuation_shared_state 4482-4599 (call 4502-4530), the variants' launch_continuation 4604-4841 and the deferred ones' execute 4806-4811, 4832-4837,
    then 4979-5042, future_unwrap_shared_state 5400-5480 (its first launch_continuation behaves as launch::sync).

    The parent is deferred, or is made ready by a promise, a task or a thread.  Its continuation was attached before anything else happens.
    The mutex of the continuation's state is explicit ([own]) because the deferred variants keep it while they wait for the parent.
    Simplifications: results are not modelled (they are FU_Model.v's subject); functions end; an asynchronous continuation (a new thread or an executor) is a task that some thread running
    [OWork] carries out. *)
From Verif Require Import Monitor.
Set Implicit Arguments.

Inductive policy := PAsync | PSync | PDeferred.      (* launch::async, none or executor; launch::sync, unwrap; launch::deferred *)
Inductive cstate := CNone | CTask | CDone.

(** [pdef], [cdef]: is_deferred_ of the parent and of the continuation *)
Record fds := MkD { pdef : bool; pdone : bool; cdef : bool; cst : cstate; own : option nat }.

(** [OWait]: wait (or get) on the continuation's future; [OSet]: the parent is made ready; [OWaitP]: wait on the parent, by another owner of the same shared_future; [OWork]: see above *)
Inductive dop := OWait | OSet | OWaitP | OWork.
Inductive dres := ROk | RAlready | RIntr.
(** [VMut]: the continuation's mutex; [VPar], [VCon]: the condition variables of the two states; [VTask]: a task to carry out *)
Inductive dcv := VMut | VPar | VCon | VTask.
Definition dcv_eqb (a b : dcv) : bool :=
  match a, b with VMut, VMut | VPar, VPar | VCon, VCon | VTask, VTask => true | _, _ => false end.

Inductive dk :=
| KStart (op : dop)
| KPar                      (* execute: in parent.wait(), holding the continuation's mutex *)
| KParFun                   (* the same, calling the parent's function *)
| KIntr                     (* thread_interrupted leaves parent.wait() *)
| KFun (op : dop)           (* calling the continuation's function *)
| KPFun                     (* OWaitP: calling the parent's function *).

Notation dout := (fds * list (notif dcv) * outcome dk dcv dres)%type.
Notation ret r := (ORet dk dcv r).
Notation yield k := (OYield dcv dres k).
Notation sleep v k := (OSleep dres v k).

Section Prog.
  Variable pol : policy.
  (** the operations used, and whether threads are interrupted *)
  Variable allowed : dop -> bool.
  Variable intr : bool.

  Definition finit (def : bool) : fds := MkD def false (match pol with PDeferred => true | _ => false end) CNone None.

  (** mark_finished_internal on the parent, and launch_continuation *)
  Definition parent_done (op : dop) (s : fds) : dout :=
    let s1 := MkD (pdef s) true (cdef s) (cst s) (own s) in
    match pol with
    | PAsync => (MkD (pdef s) true (cdef s) CTask (own s), [NAll VPar; NAll VTask], ret ROk)
    | PSync => (s1, [NAll VPar], yield (KFun op))
    | PDeferred => (s1, [NAll VPar], ret ROk)
    end.

  Definition dfrag (t : nat) (_ : unit) (k : dk) (s : fds) : dout :=
    match k with
    (* wait_internal on the continuation's state *)
    | KStart OWait =>
        match own s with
        | Some _ => (s, [], sleep VMut k)
        | None =>
            if cdef s then (MkD (pdef s) (pdone s) false (cst s) (Some t), [], yield KPar)
            else match cst s with CDone => (s, [], ret ROk) | _ => (s, [], sleep VCon k) end
        end
    (* 4807: parent.wait() *)
    | KPar =>
        if pdef s then (MkD false (pdone s) (cdef s) (cst s) (own s), [], yield KParFun)
        else if pdone s then (MkD (pdef s) (pdone s) (cdef s) (cst s) None, [NAll VMut], yield (KFun OWait))
        else (s, [], sleep VPar k)
    (* the parent's function has returned: it is ready; launch_continuation of the deferred variants does nothing (4813) *)
    | KParFun => (MkD (pdef s) true (cdef s) (cst s) (own s), [NAll VPar], yield KPar)
    | KIntr => (MkD (pdef s) (pdone s) (cdef s) (cst s) None, [NAll VMut], ret RIntr)
    | KFun op => (MkD (pdef s) (pdone s) (cdef s) CDone (own s), [NAll VCon], ret ROk)
    | KStart OSet => if pdone s then (s, [], ret RAlready) else parent_done OSet s
    | KStart OWaitP =>
        if pdef s then (MkD false (pdone s) (cdef s) (cst s) (own s), [], yield KPFun)
        else if pdone s then (s, [], ret ROk) else (s, [], sleep VPar k)
    | KPFun => parent_done OWaitP s
    | KStart OWork => match cst s with CTask => (MkD (pdef s) (pdone s) (cdef s) CNone (own s), [], yield (KFun OWork)) | _ => (s, [], sleep VTask k) end
    end.

  (** waiting on a state is an interruption point *)
  Definition d_intr (k : dk) : option dk := if intr then match k with KPar => Some KIntr | _ => None end else None.

  Definition fdprog : prog fds dk dop dres dcv unit unit :=
    MkProg dcv_eqb KStart dfrag (fun _ => None) d_intr (fun _ op => allowed op) (fun l _ _ => l).
End Prog.
