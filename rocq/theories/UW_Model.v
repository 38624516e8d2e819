(** * Model of future<future<R>>::unwrap()

    Modelled: include/boost/thread/future.hpp: future_unwrap_shared_state::launch_continuation 5400-5477, make_future_unwrap_shared_state 5480-5488, unwrap 5490-5507,
    do_continuation 304-315, set_continuation_ptr 327-333, mark_finished_internal 335-345, wait_internal 389-400 and, as far as it matters here, get 2051-2065.

    Any number of shared states and threads.  A state is made ready by a promise, by a deferred function, or it belongs to the future that unwrap() has returned.
    The value of a state may be a future (of any depth), so futures can be unwrapped several times.  Every shared state has one future, which is with the user, has been
    moved into the value of another state, or has been consumed by unwrap() or get().
    What is done under the mutex of one state without releasing it is one step; launch_continuation reads the wrapped state, which is ready and belongs to it alone, under its own mutex.
    Simplifications: a second set_value is refused (C45), broken promises are exceptions set by the promise; the types are those of C++ (a value of future<future<R>> is a
    future<R>, ...), given by a number; a future is not moved while another thread is in a call on it;
    a deferred function runs in one step. *)

From Coq Require Export List Arith Lia Bool.
Export ListNotations.
Set Implicit Arguments.

(** What a state holds once it is ready.  [Fut (Some j)]: the future of state j; [Fut None]: a future without state.  [Taken]: get() has moved it away. *)
Inductive outcome := Val (v : nat) | Exc (e : nat) | Fut (j : option nat) | Taken.
(** The exceptions of the library *)
Definition BROKEN_PROMISE : nat := 0.
Definition NO_STATE : nat := 1.        (* future_uninitialized *)

Inductive source := Prom | Deferred | Unwrapped (w : nat).
(** [ty]: how many futures are nested in the value; [user]: the future is with the user; [started]: not is_deferred_ any more;
    [inner]: the member unwrapped (5404); [conts]: continuations *)
Record st := St { ty : nat; src : source; user : bool; started : bool; out : option outcome; inner : option nat; conts : list nat }.

(** What a thread still has to do inside its call: launch_continuation of state u; set_continuation_ptr (5423-5424) *)
Inductive frame := FLaunch (u : nat) | FAttach (u j : nat).
(** [wt]: the future it waits for *)
Record thr := Thr { fs : list frame; wt : option nat }.

Inductive event :=
| ENew (i n : nat) (d : bool)          (* a promise (or, d, a deferred function) and its future, with type n *)
| ESet (i : nat) (o : outcome)         (* the promise is set, or the deferred function has ended *)
| EUnwrap (i u : nat)                  (* unwrap() on future i gives future u *)
| EWaits (t i : nat)                   (* t calls wait() on future i *)
| EWaited (t i : nat)                  (* wait() returns *)
| EGot (t i : nat) (o : outcome).      (* get() returns or throws o *)

Record sys := Sys { sts : list st; thrs : list thr; hist : list event }.

Section Modify.
Variable A : Type.
Fixpoint modify (l : list A) (t : nat) (f : A -> A) : list A :=
  match l, t with
  | [], _ => []
  | y :: l', O => f y :: l'
  | y :: l', S t' => y :: modify l' t' f
  end.
End Modify.

Definition set_user (b : bool) (x : st) : st := St (ty x) (src x) b (started x) (out x) (inner x) (conts x).
Definition set_started (x : st) : st := St (ty x) (src x) (user x) true (out x) (inner x) (conts x).
Definition set_out (o : outcome) (x : st) : st := St (ty x) (src x) (user x) (started x) (Some o) (inner x) (conts x).
Definition set_inner (j : nat) (x : st) : st := St (ty x) (src x) (user x) (started x) (out x) (Some j) (conts x).
Definition set_conts (l : list nat) (x : st) : st := St (ty x) (src x) (user x) (started x) (out x) (inner x) l.

Definition has_type (l : list st) (n : nat) (o : outcome) : bool :=
  match o, n with
  | Val _, O | Exc _, _ | Fut None, S _ => true
  | Fut (Some j), S m => match nth_error l j with Some y => ty y =? m | None => false end
  | _, _ => false
  end.
Definition waited (ts : list thr) (i : nat) : bool := existsb (fun x => match wt x with Some j => j =? i | None => false end) ts.
(** the future is with the user, who may move it *)
Definition movable (s : sys) (i : nat) : bool := match nth_error (sts s) i with Some y => user y && negb (waited (thrs s) i) | None => false end.
Definition movable_in (s : sys) (o : outcome) : bool := match o with Fut (Some j) => movable s j | _ => true end.
(** the value is moved into, or out of, a shared state *)
Definition give (b : bool) (o : outcome) (l : list st) : list st := match o with Fut (Some j) => modify l j (set_user b) | _ => l end.

(** mark_finished_internal 335-345 on a state, then do_continuation 304-315: the continuations are to be launched *)
Definition finish (l : list st) (i : nat) (o : outcome) : list st * list frame :=
  match nth_error l i with
  | Some y => (modify l i (fun z => set_conts [] (set_out o z)), map FLaunch (conts y))
  | None => (l, [])
  end.
(** set_continuation_ptr 327-333 *)
Definition attach (l : list st) (u j : nat) : list st * list frame :=
  match nth_error l j with
  | Some y =>
      match out y with
      | Some _ => (modify l j (set_conts []), map FLaunch (conts y ++ [u]))
      | None => (modify l j (set_conts (conts y ++ [u])), [])
      end
  | None => (l, [])
  end.

Definition upd_thr (ts : list thr) (t : nat) (x : thr) : list thr := modify ts t (fun _ => x).

(** launch_continuation 5411-5437; None: an assertion in a comment fails, or the type is wrong *)
Definition launch (l : list st) (u : nat) : option (list st * list frame) :=
  match nth_error l u with
  | Some x =>
      match src x, inner x with
      | Unwrapped w, None =>
          match nth_error l w with
          | Some y =>
              match out y with
              | Some (Exc e) => Some (finish l u (Exc e))                                         (* 5416-5417 *)
              | Some (Fut (Some j)) => Some (modify (modify l w (set_out Taken)) u (set_inner j), [FAttach u j])     (* 5419-5424 *)
              | Some (Fut None) => Some (finish (modify l w (set_out Taken)) u (Exc NO_STATE))    (* 5425-5426 *)
              | _ => None
              end
          | None => None
          end
      | Unwrapped w, Some j =>
          match nth_error l j with
          | Some y =>
              match out y with
              | Some (Exc e) => Some (finish l u (Exc e))                                         (* 5430-5431 *)
              | Some Taken | None => None
              | Some o => Some (finish (modify l j (set_out Taken)) u o)                          (* 5433 *)
              end
          | None => None
          end
      | _, _ => None
      end
  | None => None
  end.

(** A step of a thread inside a call *)
Definition run (s : sys) (t : nat) (x : thr) : option sys :=
  match fs x with
  | FLaunch u :: fr =>
      match launch (sts s) u with
      | Some (l, f) => Some (Sys l (upd_thr (thrs s) t (Thr (f ++ fr) (wt x))) (hist s))
      | None => None
      end
  | FAttach u j :: fr => let '(l, f) := attach (sts s) u j in Some (Sys l (upd_thr (thrs s) t (Thr (f ++ fr) (wt x))) (hist s))
  | [] =>
      match wt x with
      | Some i =>
          match nth_error (sts s) i with
          | Some y => match out y with
                      | Some _ => Some (Sys (sts s) (upd_thr (thrs s) t (Thr [] None)) (EWaited t i :: hist s))
                      | None => None
                      end
          | None => None
          end
      | None => None
      end
  end.
(** The thread waits for a deferred future: it executes the function (391-395), whose outcome is o *)
Definition run_deferred (s : sys) (t : nat) (x : thr) (o : outcome) : option sys :=
  match fs x, wt x with
  | [], Some i =>
      match nth_error (sts s) i with
      | Some y =>
          match src y, started y with
          | Deferred, false =>
              if has_type (sts s) (ty y) o && movable_in s o then
                let '(l, f) := finish (give false o (modify (sts s) i set_started)) i o in
                Some (Sys l (upd_thr (thrs s) t (Thr f (Some i))) (ESet i o :: hist s))
              else None
          | _, _ => None
          end
      | None => None
      end
  | _, _ => None
  end.

Inductive op := ONew (n : nat) (d : bool) | OSet (i : nat) (o : outcome) | OUnwrap (i : nat) | OWait (i : nat) | OGet (i : nat).

Definition call (s : sys) (t : nat) (o : op) : option sys :=
  let n := length (sts s) in
  match o with
  | ONew k d => Some (Sys (sts s ++ [St k (if d then Deferred else Prom) true false None None []]) (thrs s) (ENew n k d :: hist s))
  | OSet i o =>
      match nth_error (sts s) i with
      | Some y =>
          match src y, out y with
          | Prom, None =>
              if has_type (sts s) (ty y) o && movable_in s o then
                let '(l, f) := finish (give false o (sts s)) i o in
                Some (Sys l (upd_thr (thrs s) t (Thr f None)) (ESet i o :: hist s))
              else None
          | _, _ => None
          end
      | None => None
      end
  (* 5497-5506 *)
  | OUnwrap i =>
      match nth_error (sts s) i with
      | Some y =>
          match ty y with
          | S k =>
              if movable s i then
                let '(l, f) := attach (modify (sts s) i (set_user false) ++ [St k (Unwrapped i) true false None None []]) n i in
                Some (Sys l (upd_thr (thrs s) t (Thr f None)) (EUnwrap i n :: hist s))
              else None
          | O => None
          end
      | None => None
      end
  | OWait i =>
      match nth_error (sts s) i with
      | Some y => if user y then Some (Sys (sts s) (upd_thr (thrs s) t (Thr [] (Some i))) (EWaits t i :: hist s)) else None
      | None => None
      end
  (* get() on a future that is ready: get() is wait() and this *)
  | OGet i =>
      match nth_error (sts s) i with
      | Some y =>
          match out y with
          | Some o => if movable s i then Some (Sys (give true o (modify (sts s) i (fun z => set_user false (set_out Taken z)))) (thrs s) (EGot t i o :: hist s)) else None
          | None => None
          end
      | None => None
      end
  end.

Definition idle (x : thr) : bool := match fs x, wt x with [], None => true | _, _ => false end.
Inductive label := LCall (t : nat) (o : op) | LRun (t : nat) | LDef (t : nat) (o : outcome).
Definition exec (s : sys) (l : label) : option sys :=
  match l with
  | LCall t o => match nth_error (thrs s) t with Some x => if idle x then call s t o else None | None => None end
  | LRun t => match nth_error (thrs s) t with Some x => run s t x | None => None end
  | LDef t o => match nth_error (thrs s) t with Some x => run_deferred s t x o | None => None end
  end.

Definition init (n : nat) : sys := Sys [] (repeat (Thr [] None) n) [].
Inductive reach (n : nat) : sys -> Prop :=
| r_init : reach n (init n)
| r_step s l s' : reach n s -> exec s l = Some s' -> reach n s'.

Fixpoint runl (s : sys) (ls : list label) : option sys :=
  match ls with
  | [] => Some s
  | l :: ls' => match exec s l with Some s' => runl s' ls' | None => None end
  end.
