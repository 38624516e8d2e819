(** * Model of async

    Source: include/boost/thread/future.hpp:906-1012 (the shared state of launch::async), 3844-3854 (make_future_async_shared_state), 3859-3988 (async), and
    4001-4140 (async on an executor); boost/smart_ptr's shared_ptr is its documented counting.

    One call of async with launch::async, the thread it starts, and any number of client threads that copy, wait for and drop the futures.
    A future is a handle; a copy of a handle (of a shared_future, or a handle moved to another thread and copied there) may be given to any client.
    The count of owners of the shared state is explicit ([refs]), so is its destruction ([freed]).
    [waits]: the destructor of the state waits until it is ready (938-947): BOOST_THREAD_VERSION 4 (variadic overloads, config.hpp:265-277, and BOOST_THREAD_ASYNC_FUTURE_WAITS, config.hpp:347-350).
    Without it: version 5; versions 2 and 3, whose overload without variadic templates uses a packaged_task (3890-3916, 3946-3986), and async on an executor (4101-4118).
    Simplifications: a critical section is one step; the function ends; the started thread is not interrupted (it is detached); allocation does not fail;
    the stored result is what the function returned or threw ([res]). *)
From Coq Require Export List Arith Lia Bool.
Import ListNotations.
Set Implicit Arguments.

Inductive res := RVal (v : nat) | RExc (e : nat).

(** A client: outside; in async with the state allocated ([Alloc]) or with the thread started ([Started]); waiting for a future; having dropped the last
    owner of the state, in the state's destructor ([leaving]: as async's exception propagates; otherwise in the destructor of a future). *)
Inductive cpc := Idle | Alloc | Started | Waiting | Destroying (leaving : bool).
Record client := MkC { own : nat; pc : cpc }.

(** The started thread: run() entered; the function is running; storing its outcome; dropping its shared_ptr; in the state's destructor; ended. *)
Inductive wpc := WNone | WBegin | WCall | WStore (r : res) | WDrop | WDestroy | WEnd.

Inductive ev :=
| EReturn (i : nat) | EThrow (i : nat)       (* async returns its future, throws *)
| EStart | EEnd (r : res)                    (* the function begins, ends *)
| EGot (i : nat) (r : res)                   (* a wait (or get) returns *)
| EGone (i : nat)                            (* the destructor of a future returns *)
| EFree.                                     (* the state is destroyed *)

(** [bad]: the state has been used after its destruction *)
Record as_ := MkA { cls : list client; refs : nat; wk : wpc; don : option res; freed : nat; called : bool; bad : bool; hist : list ev }.
Definition as0 (n : nat) : as_ := MkA (repeat (MkC 0 Idle) n) 0 WNone None 0 false false [].

Fixpoint upd {A} (l : list A) (i : nat) (x : A) : list A :=
  match l, i with
  | [], _ => []
  | _ :: l', 0 => x :: l'
  | y :: l', S i' => y :: upd l' i' x
  end.

Inductive label :=
| LAsync (i : nat) | LSpawn (i : nat) | LFail (i : nat) | LReturn (i : nat)
| LCopy (i j : nat) | LWait (i : nat) | LGot (i : nat) | LDrop (i : nat) | LDestroy (i : nat)
| LWork (r : res).

(** every access to the state *)
Definition touch (c : as_) : bool := bad c || negb (freed c =? 0).
Definition seti (c : as_) (i : nat) (x : client) : list client := upd (cls c) i x.

Section Async.
Variable waits : bool.

(** the destructor of the state (938-947) can go on *)
Definition dtor_ready (c : as_) : bool := if waits then match don c with Some _ => true | None => false end else true.

Definition work_step (r : res) (c : as_) : option as_ :=
  match wk c with
  | WNone | WEnd => None
  (* 977-987: f() *)
  | WBegin => Some (MkA (cls c) (refs c) WCall (don c) (freed c) (called c) (bad c) (EStart :: hist c))
  | WCall => Some (MkA (cls c) (refs c) (WStore r) (don c) (freed c) (called c) (bad c) (EEnd r :: hist c))
  (* mark_finished_with_result, mark_exceptional_finish *)
  | WStore r' => Some (MkA (cls c) (refs c) WDrop (Some r') (freed c) (called c) (touch c) (hist c))
  (* the end of run(): its parameter [that] is destroyed *)
  | WDrop =>
      if refs c =? 1 then Some (MkA (cls c) 0 WDestroy (don c) (freed c) (called c) (bad c) (hist c))
      else Some (MkA (cls c) (refs c - 1) WEnd (don c) (freed c) (called c) (bad c) (hist c))
  | WDestroy =>
      if dtor_ready c then Some (MkA (cls c) (refs c) WEnd (don c) (S (freed c)) (called c) (touch c) (EFree :: hist c)) else None
  end.

Definition step (l : label) (c : as_) : option as_ :=
  match l with
  (* 3846-3850: the state is allocated; [h] owns it *)
  | LAsync i =>
      match nth_error (cls c) i with
      | Some (MkC o Idle) =>
          if called c then None
          else Some (MkA (seti c i (MkC o Alloc)) 1 (wk c) (don c) (freed c) true (bad c) (hist c))
      | _ => None
      end
  (* 970: the thread starts, with a shared_ptr of its own *)
  | LSpawn i =>
      match nth_error (cls c) i with
      | Some (MkC o Alloc) => Some (MkA (seti c i (MkC o Started)) (S (refs c)) WBegin (don c) (freed c) (called c) (touch c) (hist c))
      | _ => None
      end
  (* boost::thread's constructor throws: [h] is destroyed as the exception propagates *)
  | LFail i =>
      match nth_error (cls c) i with
      | Some (MkC o Alloc) => Some (MkA (seti c i (MkC o (Destroying true))) (refs c - 1) (wk c) (don c) (freed c) (called c) (bad c) (hist c))
      | _ => None
      end
  (* 3851: the future takes over *)
  | LReturn i =>
      match nth_error (cls c) i with
      | Some (MkC o Started) => Some (MkA (seti c i (MkC (S o) Idle)) (refs c) (wk c) (don c) (freed c) (called c) (bad c) (EReturn i :: hist c))
      | _ => None
      end
  (* client [i] gives a copy to client [j] *)
  | LCopy i j =>
      match nth_error (cls c) i with
      | Some (MkC (S o) Idle) =>
          match nth_error (cls c) j with
          | Some (MkC o' p) => Some (MkA (seti c j (MkC (S o') p)) (S (refs c)) (wk c) (don c) (freed c) (called c) (bad c) (hist c))
          | None => None
          end
      | _ => None
      end
  | LWait i =>
      match nth_error (cls c) i with
      | Some (MkC (S o) Idle) => Some (MkA (seti c i (MkC (S o) Waiting)) (refs c) (wk c) (don c) (freed c) (called c) (touch c) (hist c))
      | _ => None
      end
  | LGot i =>
      match nth_error (cls c) i, don c with
      | Some (MkC o Waiting), Some r => Some (MkA (seti c i (MkC o Idle)) (refs c) (wk c) (don c) (freed c) (called c) (touch c) (EGot i r :: hist c))
      | _, _ => None
      end
  (* the destructor of a future *)
  | LDrop i =>
      match nth_error (cls c) i with
      | Some (MkC (S o) Idle) =>
          if refs c =? 1 then Some (MkA (seti c i (MkC o (Destroying false))) 0 (wk c) (don c) (freed c) (called c) (bad c) (hist c))
          else Some (MkA (seti c i (MkC o Idle)) (refs c - 1) (wk c) (don c) (freed c) (called c) (bad c) (EGone i :: hist c))
      | _ => None
      end
  | LDestroy i =>
      match nth_error (cls c) i with
      | Some (MkC o (Destroying lv)) =>
          if dtor_ready c then
            Some (MkA (seti c i (MkC o Idle)) (refs c) (wk c) (don c) (S (freed c)) (called c) (touch c)
                   ((if lv then EThrow i else EGone i) :: EFree :: hist c))
          else None
      | _ => None
      end
  | LWork r => work_step r c
  end.

Fixpoint run (c : as_) (ls : list label) : option as_ :=
  match ls with [] => Some c | l :: ls' => match step l c with Some c' => run c' ls' | None => None end end.
Definition reachable (n : nat) (c : as_) : Prop := exists ls, run (as0 n) ls = Some c.
End Async.

(** ** Which kind of state async makes (3858-3988)

    launch.hpp:17-27 gives the policies as bits; [variadic]: BOOST_THREAD_PROVIDES_VARIADIC_THREAD. *)
Inductive launched := NewThread | DeferredFunction | Terminate.
Definition launch_async : nat := 1.
Definition launch_deferred : nat := 2.
Definition launch_any : nat := 3.
Definition async_launch (variadic : bool) (policy : nat) : launched :=
  if negb (Nat.land policy launch_async =? 0) then NewThread
  else if negb (Nat.land policy launch_deferred =? 0) then (if variadic then DeferredFunction else Terminate)
  else Terminate.
