(** * Model of serial_executor_cont

    Source: include/boost/thread/executors/serial_executor_cont.hpp:33-169.

    Every submission attaches a continuation, to be run by the underlying executor, to the future of the previous one (fut_ = fut_.then(ex_, ...)); that future is the
    new fut_.  Closures are numbered in the order of submission; [dn i]: the future of closure [i] is ready; [at_ i]: closure [i+1] is attached to it.
    then() on a ready future gives the closure to the executor at once, otherwise the thread that makes it ready does (future.hpp, the subject of FC_Model.v).
    [log] records, newest first, when closures begin and end.
    Simplifications: submit is one step: it holds mtx_, and then() the parent's mutex; submissions to the underlying executor succeed and do not run the closure inline
    (excluded by the notes at 80-85); a closure that throws terminates the program (57-61) and is outside the model. *)
From Verif Require Import Monitor SX_Model.
Set Implicit Arguments.

Record sy := MkY { yclos : bool; ynsub : nat; dn : nat -> bool; at_ : nat -> bool; ypend : list nat; ylog : list act }.
Definition sy0 : sy := MkY false 0 (fun _ => false) (fun _ => false) [] [].
Inductive yop := YSubmit | YClose | YExec | YDestroy.
Inductive yres := YOk | YClosed.
(** idle executor threads *)
Inductive ycv := VP.
Definition ycv_eqb (a b : ycv) : bool := true.
Inductive yk := YStart (op : yop) | YRun (i : nat) | YFin (i : nat) | YLaunch (i : nat).
Notation yout := (sy * list (notif ycv) * outcome yk ycv yres)%type.
Definition yupd (g : nat -> bool) (i : nat) : nat -> bool := fun j => if j =? i then true else g j.
Definition launch (i : nat) (s : sy) : sy := MkY (yclos s) (ynsub s) (dn s) (at_ s) (ypend s ++ [i]) (ylog s).

Definition yfrag (_ : nat) (e : nat) (k : yk) (s : sy) : yout :=
  match k with
  (* 140-165 *)
  | YStart YSubmit =>
      if yclos s then (s, [], ORet yk ycv YClosed)
      else let n := ynsub s in let s1 := MkY false (S n) (dn s) (at_ s) (ypend s) (ylog s) in
           match n with
           | 0 => (launch 0 s1, [NAll VP], ORet yk ycv YOk)
           | S p => if dn s p then (launch n s1, [NAll VP], ORet yk ycv YOk)
                    else (MkY false (S n) (dn s) (yupd (at_ s) p) (ypend s) (ylog s), [], ORet yk ycv YOk)
           end
  (* 106-110; and the destructor 96-100, which does nothing else *)
  | YStart YClose | YStart YDestroy => (MkY true (ynsub s) (dn s) (at_ s) (ypend s) (ylog s), [], ORet yk ycv YOk)
  (* a thread of the underlying executor *)
  | YStart YExec =>
      match take_nth e (ypend s) with
      | Some (i, l) => (MkY (yclos s) (ynsub s) (dn s) (at_ s) l (Beg i :: ylog s), [], OYield ycv yres (YRun i))
      | None => (s, [], OSleep yres VP k)
      end
  | YRun i => (MkY (yclos s) (ynsub s) (dn s) (at_ s) (ypend s) (End i :: ylog s), [], OYield ycv yres (YFin i))
  (* the continuation's future becomes ready: the closure attached to it, if any, is taken *)
  | YFin i => (MkY (yclos s) (ynsub s) (yupd (dn s) i) (at_ s) (ypend s) (ylog s), [], OYield ycv yres (if at_ s i then YLaunch (S i) else YStart YExec))
  | YLaunch i => (launch i s, [NAll VP], OYield ycv yres (YStart YExec))
  end.
Definition syprog : prog sy yk yop yres ycv unit nat :=
  MkProg ycv_eqb YStart yfrag (fun _ => None) (fun _ => None) (fun _ _ => true) (fun l _ _ => l).
