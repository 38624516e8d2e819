(** * Model of boost::barrier

    Source: include/boost/thread/barrier.hpp:30-249.
    [m_count] and [m_generation] are unsigned int: decrementing zero and
    incrementing the maximum wrap around, with [W] = UINT_MAX + 1. *)

From Verif Require Import Monitor.
Set Implicit Arguments.

(** barrier.hpp:244-248: the data members. *)
Record barrier := MkBar { b_count : nat; b_gen : nat }.

(** barrier.hpp:245 *)
Inductive bcv := BCond.
Definition bcv_eqb (_ _ : bcv) : bool := true.

(** barrier.hpp:218-241: wait and count_down_and_wait (the latter discards the result). *)
Inductive bop := BWait.

(** wait() returns a bool, or leaves by the exception of the completion function or by thread_interrupted. *)
Inductive bres := BRet (b : bool) | BThrown | BInterrupted.

(** Program points: the start of wait(), m_cond.wait with the saved generation, an interrupted wait. *)
Inductive bk := BStart | BWaiting (g : nat) | BIntr.

Section Barrier.
  Variable W : nat.                  (* UINT_MAX + 1 *)
  (** barrier.hpp:36-117, 138-216: [fct_], the completion function together with the size for the next
      group.  [E] is the scheduler's choice of its behaviour: [None] if it throws, else the number it
      returns.  default_barrier_reseter, void_functor_barrier_reseter and
      void_fct_ptr_barrier_reseter return the constructor's count. *)
  Variable E : Type.
  Variable fct : E -> option nat.
  Variable intr : bool.              (* may waiting threads be interrupted? *)

  (** unsigned decrement and increment *)
  Definition udec (x : nat) : nat := match x with 0 => W - 1 | S x' => x' end.
  Definition uinc (x : nat) : nat := if S x =? W then 0 else S x.

  (** barrier.hpp:218-236 *)
  Definition bfrag (_ : nat) (e : E) (k : bk) (s : barrier)
    : barrier * list (notif bcv) * outcome bk bcv bres :=
    match k with
    | BStart =>
        if udec (b_count s) =? 0 then
          match fct e with
          | Some n =>
              if n =? 0 then (s, [], OUB bk bcv bres)      (* BOOST_ASSERT(m_count != 0) *)
              else (MkBar n (uinc (b_gen s)), [], OFin bk (BRet true) [NAll BCond])
          | None => (MkBar 0 (uinc (b_gen s)), [], ORet bk bcv BThrown)
          end
        else (MkBar (udec (b_count s)) (b_gen s), [], OSleep bres BCond (BWaiting (b_gen s)))
    (* while (gen == m_generation) m_cond.wait(lock); *)
    | BWaiting g =>
        if g =? b_gen s then (s, [], OSleep bres BCond (BWaiting g)) else (s, [], ORet bk bcv (BRet false))
    | BIntr => (s, [], ORet bk bcv BInterrupted)
    end.

  (** condition_variable.hpp:64-94: the wait is an interruption point. *)
  Definition b_intr (k : bk) : option bk :=
    match k with BWaiting _ => if intr then Some BIntr else None | _ => None end.

  Definition brprog : prog barrier bk bop bres bcv unit E :=
    MkProg bcv_eqb (fun _ => BStart) bfrag (fun _ => None) b_intr (fun _ _ => true) (fun l _ _ => l).
End Barrier.

(** barrier.hpp:125-130, 138-140: a count of zero is rejected by an exception. *)
Definition barrier_new (count : nat) : option barrier :=
  if count =? 0 then None else Some (MkBar count 0).
