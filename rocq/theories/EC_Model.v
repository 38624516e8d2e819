(** * Model of the executors of continuations

    Source: include/boost/thread/future.hpp: get_executor and set_executor_policy 209-228, do_continuation 304-315, set_continuation_ptr 327-333,
    promise::set_executor 2344-2353, packaged_task's 3736-3742, shared_state_nullary_task 4011-4098, async on an executor 4105-4138, continuation_shared_state::call
    4502-4512 and 4574-4585, run_it 4647-4685, future_executor_continuation_shared_state 4692-4716 (and 4770-4795 for shared_future), make_... 4894-4905,
    future::then 4976-5064, shared_future::then 5230-5314; include/boost/thread/executors/generic_executor_ref.hpp 29-83 (executor_ref).

    Any number of promises, tasks on executors and continuations.  Shared states are numbered in the order in which they are created; their owners are counted:
    futures of the program, the promise or the closure that will deliver the result, the member [parent] of a continuation's state, the parameter of a continuation
    that is running, the list of continuations of the parent.  A state without owners is destroyed, and with it the executor_ref object that it owns.
    Simplifications: executors accept every closure and live as long as they are used, functions end; results are not modelled; a continuation without executor is
    carried out by a new thread (policies launch::async and none; the other policies do not use executors); set_executor is called before get_future; the calls of
    submit through a chain of executor_refs are one step; a state may be destroyed later than its last owner, which adds executions. *)
From Coq Require Export List Arith Lia Bool.
Export ListNotations.
Set Implicit Arguments.

(** What the executor_ref object of a state refers to: an executor of the program, or the executor_ref object of another state *)
Inductive exr := Named (e : nat) | Via (j : nat).

(** The producer of the result: a promise; a continuation that has not been launched; a closure in the queue of an executor; a closure that is running; a promise
    or closure that has delivered the result; nothing *)
Inductive actor := AProm | AWait | AQueued | ARun | ADone | AGone.
Definition is_done (a : actor) : bool := match a with ADone | AGone => true | _ => false end.
(** the promise or closure exists, and owns the state *)
Definition exists_prod (a : actor) : bool := match a with AWait | AGone => false | _ => true end.

(** [ex]: ex_; [futs]: futures of the program; [par]: the member parent; [arg]: the parameter of the running continuation; [conts]: continuations *)
Record node := MkN { ex : option exr; act : actor; futs : nat; par : option nat; arg : option nat; conts : list nat; freed : bool }.

(** How a state came into being: async(ex, f); a promise or packaged_task, with set_executor or not; then on the future of state [i], naming an executor or not *)
Inductive origin := OAsync (e : nat) | OPromise (oe : option nat) | OThen (i : nat) (oe : option nat).
Inductive event :=
| ECreate (k : nat) (o : origin)
| ESubmit (k : nat) (o : option nat)     (* the function of state k has been given to executor e, or (None) to a new thread *)
| EStart (k : nat)                       (* it begins *)
| EFree (i : nat).                       (* state i is destroyed *)

(** [bad]: an object has been used after its destruction *)
Record sys := MkS { ns : list node; bad : bool; hist : list event }.
Definition sys0 : sys := MkS [] false [].

Fixpoint upd {A} (l : list A) (i : nat) (x : A) : list A :=
  match l, i with
  | [], _ => []
  | _ :: l', 0 => x :: l'
  | y :: l', S i' => y :: upd l' i' x
  end.

Definition set_act (n : node) (a : actor) : node := MkN (ex n) a (futs n) (par n) (arg n) (conts n) (freed n).
Definition set_futs (n : node) (m : nat) : node := MkN (ex n) (act n) m (par n) (arg n) (conts n) (freed n).
Definition set_pa (n : node) (p a : option nat) : node := MkN (ex n) (act n) (futs n) p a (conts n) (freed n).
Definition set_conts (n : node) (c : list nat) : node := MkN (ex n) (act n) (futs n) (par n) (arg n) c (freed n).
Definition put (s : sys) (i : nat) (n : node) : sys := MkS (upd (ns s) i n) (bad s) (hist s).
Definition say (s : sys) (e : event) : sys := MkS (ns s) (bad s) (e :: hist s).
Definition add (s : sys) (n : node) (o : origin) : sys := MkS (ns s ++ [n]) (bad s) (ECreate (length (ns s)) o :: hist s).
Definition crash (s : sys) : sys := MkS (ns s) true (hist s).

(** executor_ref::submit, generic_executor_ref.hpp 72-74, along the chain; the fuel never runs out (a state refers to older ones) *)
Inductive target := To (o : option nat) | Dangling.
Fixpoint resolve (fuel : nat) (l : list node) (x : option exr) : target :=
  match x with
  | None => To None
  | Some (Named e) => To (Some e)
  | Some (Via j) =>
      match fuel, nth_error l j with
      | S f, Some n => if freed n then Dangling else resolve f l (ex n)
      | _, _ => Dangling
      end
  end.

(** launch_continuation 4710-4713 *)
Definition launch (s : sys) (k : nat) : sys :=
  match nth_error (ns s) k with
  | None => s
  | Some n =>
      if freed n then crash s
      else match resolve (length (ns s)) (ns s) (ex n) with
           | To o => say (put s k (set_act n AQueued)) (ESubmit k o)
           | Dangling => crash s
           end
  end.
(** the loop of do_continuation 310-312 *)
Fixpoint launch_all (s : sys) (ks : list nat) : sys :=
  match ks with
  | [] => s
  | k :: ks' => if bad s then s else launch_all (launch s k) ks'
  end.

(** mark_finished_internal 335-345 and do_continuation 304-315 *)
Definition finish (s : sys) (i : nat) (n : node) : sys :=
  launch_all (put s i (set_conts (set_act n ADone) [])) (conts n).

(** owners of state i *)
Definition opt_is (o : option nat) (i : nat) : bool := match o with Some j => j =? i | None => false end.
Definition holds (i : nat) (n : node) : nat :=
  (if opt_is (par n) i then 1 else 0) + (if opt_is (arg n) i then 1 else 0) + count_occ Nat.eq_dec (conts n) i.
Definition owned_by_states (l : list node) (i : nat) : nat := list_sum (map (holds i) l).
Definition owners (l : list node) (i : nat) : nat :=
  match nth_error l i with
  | Some n => futs n + (if exists_prod (act n) then 1 else 0) + owned_by_states l i
  | None => 0
  end.

Inductive label :=
| LAsync (e : nat) | LPromise (oe : option nat)
| LThen (i : nat) (oe : option nat) (sh : bool)      (* sh: of a shared_future *)
| LSet (i : nat)                                     (* the promise delivers a result (or is abandoned) *)
| LRun (k : nat) | LFinish (k : nat)                 (* an executor (or thread) begins the function; it has returned and its result is stored *)
| LArgGone (k : nat) | LArgKeep (k : nat)            (* the parameter of the running continuation is destroyed or used up; moved to another future *)
| LProdGone (i : nat)                                (* the promise or closure is destroyed *)
| LCopy (i : nat) | LDrop (i : nat)                  (* a shared_future is copied; a future is destroyed *)
| LFree (i : nat).

(** then 4979-5064, 5230-5314: the continuation's executor_ref refers to the named executor, or to the executor_ref of the parent *)
Definition cont_ex (i : nat) (n : node) (oe : option nat) : option exr :=
  match oe with
  | Some e => Some (Named e)
  | None => match ex n with Some _ => Some (Via i) | None => None end
  end.

Definition exec (s : sys) (l : label) : option sys :=
  if bad s then None else
  match l with
  | LAsync e => Some (say (add s (MkN (Some (Named e)) AQueued 1 None None [] false) (OAsync e)) (ESubmit (length (ns s)) (Some e)))
  | LPromise oe => Some (add s (MkN (option_map Named oe) AProm 1 None None [] false) (OPromise oe))
  | LThen i oe sh =>
      match nth_error (ns s) i with
      | Some n =>
          if futs n =? 0 then None
          else if freed n then Some (crash s)
          else let k := length (ns s) in
               let n1 := if sh then n else set_futs n (pred (futs n)) in
               let s1 := put (add s (MkN (cont_ex i n oe) AWait 1 (Some i) None [] false) (OThen i oe))
                             i (if is_done (act n) then n1 else set_conts n1 (conts n ++ [k])) in
               Some (if is_done (act n) then launch s1 k else s1)
      | None => None
      end
  | LSet i =>
      match nth_error (ns s) i with
      | Some n => match act n with AProm => Some (if freed n then crash s else finish s i n) | _ => None end
      | None => None
      end
  | LRun k =>
      match nth_error (ns s) k with
      | Some n => match act n with
                  | AQueued => Some (if freed n then crash s else say (put s k (set_pa (set_act n ARun) None (par n))) (EStart k))
                  | _ => None
                  end
      | None => None
      end
  | LFinish k =>
      match nth_error (ns s) k with
      | Some n => match act n with ARun => Some (if freed n then crash s else finish s k n) | _ => None end
      | None => None
      end
  | LArgGone k =>
      match nth_error (ns s) k with
      | Some n => match arg n with Some _ => Some (put s k (set_pa n (par n) None)) | None => None end
      | None => None
      end
  | LArgKeep k =>
      match nth_error (ns s) k with
      | Some n => match arg n with
                  | Some i => match nth_error (ns s) i with
                              | Some m => if i =? k then None else
                                  Some (if freed m then crash s else put (put s k (set_pa n (par n) None)) i (set_futs m (S (futs m))))
                              | None => None
                              end
                  | None => None
                  end
      | None => None
      end
  | LProdGone i =>
      match nth_error (ns s) i with
      | Some n => match act n, arg n with ADone, None => Some (put s i (set_act n AGone)) | _, _ => None end
      | None => None
      end
  | LCopy i =>
      match nth_error (ns s) i with
      | Some n => if futs n =? 0 then None else Some (if freed n then crash s else put s i (set_futs n (S (futs n))))
      | None => None
      end
  | LDrop i =>
      match nth_error (ns s) i with
      | Some n => if futs n =? 0 then None else Some (if freed n then crash s else put s i (set_futs n (pred (futs n))))
      | None => None
      end
  | LFree i =>
      match nth_error (ns s) i with
      | Some n => if freed n || negb (owners (ns s) i =? 0) then None
                  else Some (say (put s i (MkN (ex n) (act n) (futs n) None None [] true)) (EFree i))
      | None => None
      end
  end.

Fixpoint runl (s : sys) (ls : list label) : option sys :=
  match ls with
  | [] => Some s
  | l :: ls' => match exec s l with Some s' => runl s' ls' | None => None end
  end.
Definition reach (s : sys) : Prop := exists ls, runl sys0 ls = Some s.
