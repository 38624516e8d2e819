(** * Model of timed_mutex and of the counting recursive mutexes (condition-variable implementations)

    Sources: include/boost/thread/pthread/mutex.hpp:79-313 (timed_mutex without pthread_mutex_timedlock, which is what
    Linux uses when the internal clock is monotonic) and include/boost/thread/pthread/recursive_mutex.hpp:46-408
    (recursive_mutex without PTHREAD_MUTEX_RECURSIVE, recursive_timed_mutex without pthread_mutex_timedlock; the
    code of the two classes is the same).
    Simplifications: the overloads of timed_lock, try_lock_for and try_lock_until are one operation.  They call
    do_try_lock_until, some of them in a loop that re-reads the caller's clock after each internal timeout: the
    environment decides with a boolean whether the caller's deadline has passed. *)

From Verif Require Import Monitor.
Set Implicit Arguments.

(** boost::posix_time::time_duration values: is_pos_infinity(), is_special(), others. *)
Inductive dur := DFinite | DPosInf | DNegInf | DNotADateTime.

(** ** timed_mutex *)

(** lock; try_lock; timed_lock(abs) / try_lock_for / try_lock_until; timed_lock(relative); unlock *)
Inductive top := TLock | TTry | TTimed | TRel (d : dur) | TUnlock.

(** [TW]: in the loop of lock; [TT]: in the loop of do_try_lock_until; [TD]: there, after ETIMEDOUT. *)
Inductive tk := TB (op : top) | TW | TT | TD.

Notation tout := (bool * list (notif unit) * outcome tk unit bool)%type.

(** mutex.hpp:205-213 and 232-252 *)
Definition t_take (k : tk) (s : bool) : tout :=
  if s then (s, [], OSleep bool tt k) else (true, [], ORet tk unit true).

Definition tfrag (_ : nat) (past : bool) (k : tk) (s : bool) : tout :=
  match k with
  (* lock 205-213; timed_lock(pos_infin) 137-141 *)
  | TB TLock | TB (TRel DPosInf) | TW => t_take TW s
  (* do_try_lock_until 232-252 *)
  | TB TTimed | TB (TRel DFinite) | TT => t_take TT s
  | TD => if s then (s, [], if past then ORet tk unit false else OYield unit bool TT)
          else (true, [], ORet tk unit true)
  (* try_lock 222-231 *)
  | TB TTry => if s then (s, [], ORet tk unit false) else (true, [], ORet tk unit true)
  (* timed_lock(special) 142-145 *)
  | TB (TRel DNegInf) | TB (TRel DNotADateTime) => (s, [], ORet tk unit true)
  (* unlock 215-220 *)
  | TB TUnlock => (false, [NOne tt], ORet tk unit true)
  end.

(** The caller unlocks only what it owns and does not lock twice. *)
Definition tpre (allow : top -> bool) (l : bool) (op : top) : bool :=
  allow op && match op with TUnlock => l | _ => negb l end.
Definition tnext (l : bool) (op : top) (r : bool) : bool :=
  match op with TUnlock => false | _ => if r then true else l end.

Definition tmprog (allow : top -> bool) : prog bool tk top bool unit bool bool :=
  MkProg (fun _ _ => true) TB tfrag (fun k => match k with TT => Some TD | _ => None end) (fun _ => None) (tpre allow) tnext.

(** ** recursive_mutex, recursive_timed_mutex *)

(** recursive_mutex.hpp:46-54: is_locked, owner, count *)
Record rms := MkRM { r_locked : bool; r_owner : nat; r_count : nat }.
Definition rm_new : rms := MkRM false 0 0.

Inductive rop := RLock | RTry | RTimed | RRel (d : dur) | RUnlock.
Inductive rk := RB (op : rop) | RW | RT | RD.

Notation rout := (rms * list (notif unit) * outcome rk unit bool)%type.

Section RM.
  Variable W : nat.   (* number of values of unsigned *)

  (** is_locked = true; ++count; owner = pthread_self() *)
  Definition r_take (t : nat) (s : rms) : rout := (MkRM true t (S (r_count s) mod W), [], ORet rk unit true).
  Definition r_mine (t : nat) (s : rms) : bool := r_locked s && (r_owner s =? t).
  Definition r_again (s : rms) : rout := (MkRM (r_locked s) (r_owner s) (S (r_count s) mod W), [], ORet rk unit true).
  Definition r_loop (t : nat) (k : rk) (s : rms) : rout :=
    if r_locked s then (s, [], OSleep bool tt k) else r_take t s.

  Definition rfrag (t : nat) (past : bool) (k : rk) (s : rms) : rout :=
    match k with
    (* lock 132-148, 288-304; timed_lock(pos_infin) 239-243 *)
    | RB RLock | RB (RRel DPosInf) => if r_mine t s then r_again s else r_loop t RW s
    | RW => r_loop t RW s
    (* do_try_lock_until 329-356 *)
    | RB RTimed | RB (RRel DFinite) => if r_mine t s then r_again s else r_loop t RT s
    | RT => r_loop t RT s
    | RD => if r_locked s then (s, [], if past then ORet rk unit false else OYield unit bool (RB RTimed)) else r_take t s
    (* try_lock 160-171, 316-327 *)
    | RB RTry => if r_locked s && negb (r_owner s =? t) then (s, [], ORet rk unit false) else r_take t s
    (* timed_lock(special) 244-247 *)
    | RB (RRel DNegInf) | RB (RRel DNotADateTime) => (s, [], ORet rk unit true)
    (* unlock 150-158, 306-314; --count on unsigned *)
    | RB RUnlock =>
        let n := match r_count s with 0 => W - 1 | S n => n end in
        (MkRM (if n =? 0 then false else r_locked s) (r_owner s) n, [NOne tt], ORet rk unit true)
    end.

  (** [l]: how often the caller has locked more than unlocked; it unlocks only what it locked, and nests at most
      [D] deep. *)
  Definition rpre (allow : rop -> bool) (D : nat) (l : nat) (op : rop) : bool :=
    allow op && match op with RUnlock => 0 <? l | _ => l <? D end.
  Definition rnext (l : nat) (op : rop) (r : bool) : nat :=
    match op with RUnlock => l - 1 | _ => if r then S l else l end.

  Definition rmprog (allow : rop -> bool) (D : nat) : prog rms rk rop bool unit nat bool :=
    MkProg (fun _ _ => true) RB rfrag (fun k => match k with RT => Some RD | _ => None end) (fun _ => None) (rpre allow D) rnext.
End RM.
