(** * Model of the lock algorithms boost::lock and boost::try_lock

    Source: include/boost/thread/lock_algorithms.hpp:23-461.
    A call is a program that performs actions on mutexes one after the other and depends on nothing but their
    answers.  It is run on a list of answers: it then has returned, thrown, or is about to perform the next action.
    The trace of actions and answers is recorded, newest first.
    Simplifications: the overloads for 2, 3, 4 and 5 lockables are instances of one definition over lists; a lockable is
    a number. *)

From Coq Require Export List Arith Lia Bool ZArith.
Export ListNotations.
Set Implicit Arguments.

(** [m.lock()], [m.try_lock()], [m.unlock()] *)
Inductive act := ALock (m : nat) | ATry (m : nat) | AUnlock (m : nat).
(** lock() returns or throws; try_lock() returns true or false or throws; unlock() returns. *)
Inductive ans := AOk | AFail | AThrow.
Definition trace := list (act * ans).

Inductive out (A : Type) :=
| Val (a : A) (h : list ans) (tr : trace)   (* returned, with the answers left over *)
| Exn (h : list ans) (tr : trace)           (* threw *)
| Pend (a : act) (tr : trace)               (* about to do [a] *)
| OutOfFuel.                                (* artefact; shown to be impossible *)
Arguments Val {A}. Arguments Exn {A}. Arguments Pend {A}. Arguments OutOfFuel {A}.

Definition M (A : Type) := list ans -> trace -> out A.
Definition ret {A} (a : A) : M A := fun h tr => Val a h tr.
Definition throw {A} : M A := fun h tr => Exn h tr.
Definition bind {A B} (m : M A) (f : A -> M B) : M B :=
  fun h tr => match m h tr with
              | Val a h' tr' => f a h' tr'
              | Exn h' tr' => Exn h' tr'
              | Pend a tr' => Pend a tr'
              | OutOfFuel => OutOfFuel
              end.
Notation "x <- m ;; k" := (bind m (fun x => k)) (at level 61, m at next level, right associativity).
Notation "m ;;; k" := (bind m (fun _ => k)) (at level 61, right associativity).

(** Run [m]; if it throws, run the destructors [d] and let the exception out. *)
Definition unwinding {A} (d : M unit) (m : M A) : M A :=
  fun h tr => match m h tr with
              | Exn h' tr' => bind d (fun _ => throw) h' tr'
              | o => o
              end.

Definition perform (a : act) : M ans :=
  fun h tr => match h with [] => Pend a tr | x :: h' => Val x h' ((a, x) :: tr) end.
Definition do_lock (m : nat) : M unit := x <- perform (ALock m) ;; match x with AThrow => throw | _ => ret tt end.
Definition do_try (m : nat) : M bool :=
  x <- perform (ATry m) ;; match x with AOk => ret true | AFail => ret false | AThrow => throw end.
Definition do_unlock (m : nat) : M unit := perform (AUnlock m) ;;; ret tt.

(** lines 23-85: try_lock_internal; 0 for success, otherwise one more than the index of the lockable that failed.
    A unique_lock owns all but the last lockable until all are locked; its destructor unlocks. *)
Fixpoint try_internal (ms : list nat) : M nat :=
  match ms with
  | [] => ret 0
  | [m] => b <- do_try m ;; ret (if b : bool then 0 else 1)
  | m :: ms' =>
      b <- do_try m ;;
      if negb b then ret 1
      else f <- unwinding (do_unlock m) (try_internal ms') ;;
           if f =? 0 then ret 0 else do_unlock m ;;; ret (f + 1)
  end.

(** lines 87-133: lock_helper *)
Definition lock_helper (ms : list nat) : M nat :=
  match ms with
  | [] => ret 0
  | m :: ms' =>
      do_lock m ;;;
      f <- unwinding (do_unlock m) (try_internal ms') ;;
      if f =? 0 then ret 0 else do_unlock m ;;; ret f
  end.

Definition rot (k : nat) (ms : list nat) : list nat := skipn k ms ++ firstn k ms.

(** lines 143-163 and 193-287: the loop over lock_first *)
Fixpoint lock_loop (fuel : nat) (ms : list nat) (lock_first : nat) : M unit :=
  match fuel with
  | 0 => fun _ _ => OutOfFuel
  | S fuel' =>
      f <- lock_helper (rot lock_first ms) ;;
      if f =? 0 then ret tt
      else lock_loop fuel' ms (if lock_first =? 0 then f else (f + lock_first) mod length ms)
  end.

(** lines 214-224, 303-353: try_lock: -1 for success *)
Definition try_lock_n (ms : list nat) : M Z := f <- try_internal ms ;; ret (Z.of_nat f - 1)%Z.

(** lines 383-405: try_lock of a range; returns the position at which it failed, or the length of the range *)
Fixpoint try_range (ms : list nat) : M nat :=
  match ms with
  | [] => ret 0
  | m :: ms' =>
      b <- do_try m ;;
      if negb b then ret 0
      else f <- unwinding (do_unlock m) (try_range ms') ;;
           if f =? length ms' then ret (S f) else do_unlock m ;;; ret (S f)
  end.

(** lines 373-380: ~range_lock_guard *)
Fixpoint unlock_all (ms : list nat) : M unit :=
  match ms with [] => ret tt | m :: ms' => do_unlock m ;;; unlock_all ms' end.

(** lines 410-461: lock of a range.  [range_loop] is the for loop: [first] is *begin, [rest] the range from second to
    end, [next] is an index into [rest]. *)
Fixpoint range_lock (fuel : nat) (ms : list nat) : M unit :=
  match fuel with
  | 0 => fun _ _ => OutOfFuel
  | S fuel' => match ms with [] => ret tt | first :: rest => range_loop fuel' first rest true 0 end
  end
with range_loop (fuel : nat) (first : nat) (rest : list nat) (start_with_begin : bool) (next : nat) : M unit :=
  match fuel with
  | 0 => fun _ _ => OutOfFuel
  | S fuel' =>
      if start_with_begin then
        do_lock first ;;;
        f <- unwinding (do_unlock first) (try_range (skipn next rest)) ;;
        if f =? length (skipn next rest) then ret tt
        else do_unlock first ;;; range_loop fuel' first rest false (next + f)
      else
        let tail := skipn next rest in
        (* the range_lock_guard *)
        range_lock fuel' tail ;;;
        b <- unwinding (unlock_all tail) (do_try first) ;;
        if negb b then unlock_all tail ;;; range_loop fuel' first rest true 0
        else
          f <- unwinding (unlock_all tail ;;; do_unlock first) (try_range (firstn next rest)) ;;
          if f =? length (firstn next rest) then ret tt
          else unlock_all tail ;;; do_unlock first ;;; range_loop fuel' first rest false f
  end.

(** boost::lock with 2 to 5 lockables, and with a range. *)
Inductive call := CLock (ms : list nat) | CRange (ms : list nat).
Definition args (c : call) : list nat := match c with CLock ms | CRange ms => ms end.
Definition lock_body (fuel : nat) (c : call) : M unit :=
  match c with CLock ms => lock_loop fuel ms 0 | CRange ms => range_lock fuel ms end.

(** The call with the answers [h] to its first actions. *)
Definition run_lock (c : call) (h : list ans) : out unit :=
  lock_body (3 + 2 * length h + 2 * length (args c)) c h [].
Definition run_try (ms : list nat) (h : list ans) : out Z := try_lock_n ms h [].
Definition run_try_range (ms : list nat) (h : list ans) : out nat := try_range ms h [].
